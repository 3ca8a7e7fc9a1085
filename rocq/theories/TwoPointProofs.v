(** Symmetry of the functions of two points, and agreement of their methods. *)
From Coq Require Import R_sqrt Ratan Rtrigo_def.
From Verif Require Import LinR InteractionModel TwoPointModel TwoPointSpec.
Open Scope R_scope.
Set Default Proof Using "Type".

Lemma rlt_spec a b : reflect (a < b) (rlt a b).
Proof. unfold rlt. destruct (Rlt_dec a b); constructor; auto. Qed.
Lemma rle_spec a b : reflect (a <= b) (rle a b).
Proof. unfold rle. destruct (Rle_dec a b); constructor; auto. Qed.
Lemma req_spec a b : reflect (a = b) (req a b).
Proof. unfold req. destruct (Req_EM_T a b); constructor; auto. Qed.
Ltac rcases :=
  repeat match goal with
  | |- context [rlt ?a ?b] => destruct (rlt_spec a b)
  | |- context [rle ?a ?b] => destruct (rle_spec a b)
  | |- context [req ?a ?b] => destruct (req_spec a b)
  end.

(** Related states and equal errors. *)
Definition rrel {A B} (P : A -> B -> Prop) (x : res A) (y : res B) : Prop :=
  match x, y with Ok a, Ok b => P a b | Err e, Err e' => e = e' | _, _ => False end.
Lemma rrel_eq {A} (x y : res A) : rrel eq x y <-> x = y.
Proof. destruct x, y; simpl; split; intros H; try congruence; try contradiction. Qed.
Lemma rrel_bind {A B A' B'} (P : A -> B -> Prop) (Q : A' -> B' -> Prop) x y f g :
  rrel P x y -> (forall a b, P a b -> rrel Q (f a) (g b)) -> rrel Q (bind x f) (bind y g).
Proof. destruct x, y; simpl; intros H K; try contradiction; auto. Qed.
Lemma for_range_sim {A B} (P : A -> B -> Prop) lo hi f g s t :
  P s t -> (forall i a b, (lo <= i < hi)%nat -> P a b -> rrel P (f i a) (g i b)) ->
  rrel P (for_range lo hi f s) (for_range lo hi g t).
Proof.
  unfold for_range. intros H0 Hst.
  assert (K : forall m lo s t, P s t -> (forall i a b, (lo <= i < lo + m)%nat -> P a b -> rrel P (f i a) (g i b)) ->
    rrel P (for_n m lo f s) (for_n m lo g t)).
  { induction m as [|m IH]; intros l s' t' H HK; cbn [for_n]; auto.
    apply (rrel_bind P); [apply HK; auto; lia|]. intros a b Hab. apply IH; auto.
    intros i a' b' Hi. apply HK. lia. }
  apply K; auto. intros i a b Hi. apply Hst. lia.
Qed.

Lemma aget_same {A} (x y : list A) i : length x = length y ->
  (exists a b, aget x i = Ok a /\ aget y i = Ok b /\ nth_error x i = Some a /\ nth_error y i = Some b) \/
  (aget x i = Err EOob /\ aget y i = Err EOob).
Proof.
  intros H. unfold aget. destruct (nth_error x i) as [a|] eqn:Ea, (nth_error y i) as [b|] eqn:Eb; eauto 10.
  - apply nth_error_None in Eb. assert (nth_error x i <> None) as K by congruence. apply nth_error_Some in K. lia.
  - apply nth_error_None in Ea. assert (nth_error y i <> None) as K by congruence. apply nth_error_Some in K. lia.
Qed.
(** Both points have coordinate i, or none of them has. *)
Ltac coords x y i H :=
  let a := fresh "a" in let b := fresh "b" in let Ea := fresh "Ea" in let Eb := fresh "Eb" in
  destruct (aget_same x y i H) as [(a & b & Ea & Eb & _ & _)|(Ea & Eb)];
  rewrite ?Ea, ?Eb; cbn [bind]; try reflexivity.

Lemma dist2_sym n x y : length x = length y -> dist2 n x y = dist2 n y x.
Proof.
  intros H. apply rrel_eq. unfold dist2. apply for_range_sim; auto. intros i a b _ ->.
  coords x y i H. cbn. ring.
Qed.

(** * Matrices *)
Definition negs (n m : list R) : Prop := length n = length m /\ forall i, nth i m 0 = - nth i n 0.
Lemma negs_upd n m i v w : negs n m -> w = - v -> negs (upd n i v) (upd m i w).
Proof.
  intros (L & H) E. split; [rewrite !upd_length; auto|]. intros j.
  destruct (Nat.eq_dec j i) as [->|Hj].
  - destruct (Nat.lt_ge_cases i (length n)) as [Hi|Hi].
    + rewrite !nth_upd_eq by congruence. auto.
    + rewrite !nth_overflow by (rewrite upd_length; lia). ring.
  - rewrite !nth_upd_neq by auto. apply H.
Qed.
Lemma negs_get n m i : negs n m ->
  rrel (fun a b => b = - a) (aget n i) (aget m i).
Proof.
  intros (L & H). destruct (Nat.lt_ge_cases i (length n)) as [Hi|Hi].
  - rewrite !(aget_nth _ i 0) by lia. simpl. apply H.
  - unfold aget. rewrite !(proj2 (nth_error_None _ _)) by lia. reflexivity.
Qed.
Lemma negs_set n m i v w : negs n m -> w = - v -> rrel negs (aset n i v) (aset m i w).
Proof.
  intros H E. unfold aset. destruct H as (L & H). rewrite <- L. destruct (i <? length n)%nat; [|reflexivity].
  apply negs_upd; [split; auto|auto].
Qed.
Lemma matrix_diff_sym m d x y : length x = length y ->
  rrel (fun a b => negs (fst a) (fst b) /\ snd a = snd b) (matrix_diff m d x y) (matrix_diff m d y x).
Proof.
  intros H. unfold matrix_diff. apply for_range_sim.
  - simpl. split; auto. split; auto. intros i. destruct (Nat.lt_ge_cases i (length m)).
    + rewrite nth_repeat. ring.
    + rewrite nth_overflow by (rewrite repeat_length; lia). ring.
  - intros i (n1 & d1) (n2 & d2) _ (Hn & Hd). cbn [fst snd] in *. subst d2. coords x y i H.
    apply (rrel_bind negs); [apply negs_set; auto; ring|]. intros p q Hpq. simpl. split; auto. ring.
Qed.
Lemma matrix_form_sym m dim n1 n2 d : negs n1 n2 -> matrix_form m dim n1 d = matrix_form m dim n2 d.
Proof.
  intros H. apply rrel_eq. unfold matrix_form. apply (rrel_bind negs).
  - apply for_range_sim; auto. intros i a b _ Hab. apply (rrel_bind (fun a b => b = - a)); [apply negs_get; auto|].
    intros u v ->. destruct (req_spec d 0); cbn [negb guard bind]; [reflexivity|].
    apply negs_set; auto. unfold Rdiv. ring.
  - intros p q Hpq. apply for_range_sim; auto. intros i s t _ ->. apply for_range_sim; auto. intros j s' t' _ ->.
    apply (rrel_bind (fun a b => b = - a)); [apply negs_get; auto|]. intros u v ->.
    destruct (rentry m i j); cbn [bind]; [|reflexivity].
    apply (rrel_bind (fun a b => b = - a)); [apply negs_get; auto|]. intros u' v' ->. simpl. ring.
Qed.
Lemma matrix_sym m f n : matrixTwoPoint m = Ok f -> symmetric_on n f.
Proof.
  unfold matrixTwoPoint. destruct (forallb _ m); cbn [guard bind]; [|discriminate].
  destruct (matrix_symmetric m); cbn [bind]; [|discriminate]. intros E. injection E as <-.
  intros x y Hx Hy. unfold tp_call. cbn [tp_eval tp_evalPtr]. rewrite Hx, Hy.
  assert (L : length x = length y) by congruence. pose proof (matrix_diff_sym m n x y L) as D.
  destruct (matrix_diff m n x y) as [(n1 & d1)|], (matrix_diff m n y x) as [(n2 & d2)|]; cbn in D; try contradiction; cbn [bind].
  - destruct D as (Dn & <-). split.
    + apply matrix_form_sym; auto.
    + destruct (rlt 0 d1); auto. apply matrix_form_sym; auto.
  - subst. auto.
Qed.

(** * The other functions *)
Lemma interface1_sym h1 h2 l itf a b : interface1 h1 h2 l itf a b = interface1 h1 h2 l itf b a.
Proof. unfold interface1. destruct l; rcases; cbn [andb]; auto; lra. Qed.

Lemma rentry_table (A : list (list R)) i j : square A -> (i < length A)%nat -> (j < length A)%nat -> rentry A i j = Ok (table A i j).
Proof.
  intros HA Hi Hj. unfold rentry, table. rewrite (aget_nth A i []) by auto. cbn [bind].
  rewrite (aget_nth _ j 0); auto. rewrite HA; auto. apply nth_In; auto.
Qed.
Definition zentry (A : list (list R)) (i j : Z) : res R := row <- zaget A i ;; zaget row j.
Lemma zaget_out {T} (l : list T) i : ~ (0 <= i < Z.of_nat (length l))%Z -> zaget l i = Err EOob.
Proof.
  intros H. unfold zaget. destruct (Z.ltb_spec i 0); auto. unfold aget.
  rewrite (proj2 (nth_error_None _ _)); auto. lia.
Qed.
Lemma zaget_in {T} (l : list T) i d : (0 <= i < Z.of_nat (length l))%Z -> zaget l i = Ok (nth (Z.to_nat i) l d).
Proof. intros H. unfold zaget. destruct (Z.ltb_spec i 0); [lia|]. apply aget_nth. lia. Qed.
Lemma zentry_sym A i j : square A -> (forall i j, table A i j = table A j i) -> zentry A i j = zentry A j i.
Proof.
  intros HA HS. unfold zentry.
  assert (R : forall k, (0 <= k < Z.of_nat (length A))%Z -> length (nth (Z.to_nat k) A []) = length A).
  { intros k Hk. apply HA. apply nth_In. lia. }
  assert (D : forall k, (0 <= k < Z.of_nat (length A))%Z \/ ~ (0 <= k < Z.of_nat (length A))%Z) by (intros; lia).
  destruct (D i) as [Hi|Hi], (D j) as [Hj|Hj].
  - rewrite (zaget_in A i []), (zaget_in A j []) by auto. cbn [bind].
    rewrite (zaget_in _ j 0) by (rewrite R; auto). rewrite (zaget_in _ i 0) by (rewrite R; auto). f_equal. apply HS.
  - rewrite (zaget_in A i []), (zaget_out A j) by auto. cbn [bind]. apply zaget_out. rewrite R; auto.
  - rewrite (zaget_in A j []), (zaget_out A i) by auto. cbn [bind]. symmetry. apply zaget_out. rewrite R; auto.
  - rewrite !zaget_out by auto. reflexivity.
Qed.
