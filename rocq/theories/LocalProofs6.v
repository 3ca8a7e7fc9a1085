(** Integrals and derivatives depend on the functions only. *)
From Verif Require Import Util Lin MeshSpec MeshModel BaryModel BarySpec BaryProofs LocalModel LocalTables LocalSpec LocalProofs LocalProofs2 LocalProofs3 LocalProofs4 LocalProofs5.
Set Default Proof Using "Type".
Local Open Scope Qc_scope.

(** ** One variable *)
Definition ev (l : list Qc) (t : Qc) : Qc := fold_right (fun c v => c + t * v) 0 l.
Fixpoint divide (l : list Qc) (a : Qc) : list Qc :=
  match l with
  | [] => []
  | [_] => []
  | _ :: l => ev l a :: divide l a
  end.
Lemma divide_ok l a t : ev l t = ev l a + (t - a) * ev (divide l a) t.
Proof.
  induction l as [|c l IH]; [cbn; ring|]. destruct l as [|c' l]; [cbn; ring|].
  change (divide (c :: c' :: l) a) with (ev (c' :: l) a :: divide (c' :: l) a).
  change (ev (c :: c' :: l) t) with (c + t * ev (c' :: l) t). change (ev (c :: c' :: l) a) with (c + a * ev (c' :: l) a).
  change (ev (ev (c' :: l) a :: divide (c' :: l) a) t) with (ev (c' :: l) a + t * ev (divide (c' :: l) a) t). rewrite IH at 1. ring.
Qed.
Lemma divide_length l a : length (divide l a) = pred (length l).
Proof. induction l as [|c l IH]; [reflexivity|]. destruct l as [|c' l]; [reflexivity|]. cbn [divide length] in *. rewrite IH. reflexivity. Qed.
Lemma divide_zero l a : ev l a = 0 -> Forall (eq 0) (divide l a) -> Forall (eq 0) l.
Proof.
  induction l as [|c l IH]; intros E F; [constructor|]. destruct l as [|c' l].
  - cbn in E. constructor; [|constructor]. rewrite <- E. ring.
  - change (divide (c :: c' :: l) a) with (ev (c' :: l) a :: divide (c' :: l) a) in F. apply Forall_cons_iff in F as [E' F'].
    change (ev (c :: c' :: l) a) with (c + a * ev (c' :: l) a) in E. rewrite <- E' in E. constructor; [rewrite <- E; ring|]. apply IH; auto.
Qed.
Lemma qz_neq i j : (i < j)%Z -> qz j - qz i <> 0.
Proof.
  intros H E. assert (E' : qz j = qz i) by (transitivity (qz j - qz i + qz i); [ring|rewrite E; ring]).
  unfold qz in E'. apply Q2Qc_eq_iff in E'. unfold Qeq, inject_Z in E'. cbn in E'. lia.
Qed.
Lemma ev_zero l : forall i, (forall j, (i <= j)%Z -> ev l (qz j) = 0) -> Forall (eq 0) l.
Proof.
  remember (length l) as n eqn:E. revert l E. induction n as [|n IH]; intros l E i H; destruct l as [|c l]; try discriminate; [constructor|].
  apply (divide_zero _ (qz i)); [apply H; lia|]. apply (IH _) with (i := (i + 1)%Z); [rewrite divide_length, <- E; reflexivity|].
  intros j Hj. pose proof (H j ltac:(lia)) as X. rewrite (divide_ok _ (qz i)), (H i) in X by lia.
  assert (Y : (qz j - qz i) * ev (divide (c :: l) (qz i)) (qz j) = 0) by (rewrite <- X; ring).
  apply Qcmult_integral in Y as [Y | Y]; [|exact Y]. exfalso. apply (qz_neq i j); auto. lia.
Qed.
Fixpoint minus (l l' : list Qc) : list Qc :=
  match l, l' with
  | [], _ => map Qcopp l'
  | _, [] => l
  | a :: l, a' :: l' => (a - a') :: minus l l'
  end.
Lemma ev_opp l t : ev (map Qcopp l) t = - ev l t.
Proof. induction l as [|c l IH]; cbn [map ev fold_right]; [ring|]. unfold ev in IH. rewrite IH. ring. Qed.
Lemma ev_minus l : forall l' t, ev (minus l l') t = ev l t - ev l' t.
Proof.
  induction l as [|c l IH]; intros [|c' l'] t; cbn [minus].
  - cbn. ring.
  - rewrite ev_opp. cbn [ev fold_right]. ring.
  - cbn. ring.
  - cbn [ev fold_right]. specialize (IH l' t). unfold ev in IH. rewrite IH. ring.
Qed.
Lemma nth_opp l : forall i, nth i (map Qcopp l) 0 = - nth i l 0.
Proof. induction l as [|c l IH]; intros [|i]; cbn [map nth]; auto; ring. Qed.
Lemma nth_minus l : forall l' i, nth i (minus l l') 0 = nth i l 0 - nth i l' 0.
Proof.
  induction l as [|c l IH]; intros l' i.
  - change (minus [] l') with (map Qcopp l'). rewrite nth_opp. destruct i; cbn [nth]; ring.
  - destruct l' as [|c' l'], i as [|i]; cbn [minus nth]; auto; ring.
Qed.
Lemma ev_coefficients l l' : (forall t, ev l t = ev l' t) -> forall i, nth i l 0 = nth i l' 0.
Proof.
  intros H i. assert (Z : Forall (eq 0) (minus l l')).
  { apply (ev_zero _ 0). intros j _. rewrite ev_minus, H. ring. }
  assert (E : nth i (minus l l') 0 = 0).
  { revert i. induction Z as [|c m E Z IH]; intros [|i]; cbn [nth]; auto. }
  rewrite nth_minus in E. transitivity (nth i l 0 - nth i l' 0 + nth i l' 0); [ring|]. rewrite E. ring.
Qed.
(** Lists with the same coefficients, up to zeros at the end. *)
Definition same (l l' : list Qc) : Prop := forall i, nth i l 0 = nth i l' 0.
Lemma same_tl c l c' l' : same (c :: l) (c' :: l') -> c = c' /\ same l l'.
Proof. intros H. split; [exact (H 0%nat)|]. intros i. exact (H (S i)). Qed.
Lemma ev_nil l t : same l [] -> ev l t = 0.
Proof.
  induction l as [|c l IH]; intros H; [reflexivity|]. cbn [ev fold_right]. unfold ev in IH. rewrite IH.
  - pose proof (H 0%nat) as E. cbn in E. rewrite E. ring.
  - intros i. specialize (H (S i)). cbn in H. rewrite H. destruct i; reflexivity.
Qed.
Lemma ev_same l : forall l' t, same l l' -> ev l t = ev l' t.
Proof.
  induction l as [|c l IH]; intros l' t H.
  - symmetry. apply ev_nil. intros i. symmetry. apply H.
  - destruct l' as [|c' l']; [apply ev_nil; exact H|]. apply same_tl in H as [-> H]. cbn [ev fold_right]. f_equal. f_equal. apply IH, H.
Qed.

(** ** Several variables *)
Definition same_function (n : nat) (p q : poly n) : Prop := forall x, value n p x = value n q x.
Definition at_last (n : nat) (x : nat -> Qc) (t : Qc) : nat -> Qc := fun i => if (i =? n)%nat then t else x i.
Lemma value_local n p x y : (forall i, (i < n)%nat -> x i = y i) -> value n p x = value n p y.
Proof.
  revert p. induction n as [|n IH]; intros p H; [reflexivity|]. cbn [value]. induction p as [|c p IHp]; cbn [fold_right]; [reflexivity|].
  rewrite IHp, (IH c) by (intros; apply H; lia). rewrite (H n) by lia. reflexivity.
Qed.
Definition coefs (n : nat) (p : poly (S n)) (x : nat -> Qc) : list Qc := map (fun c => value n c x) p.
Lemma fold_map {A B C} (f : B -> C -> C) (g : A -> B) z l : fold_right f z (map g l) = fold_right (fun a => f (g a)) z l.
Proof. induction l as [|a l IH]; cbn; [reflexivity|]. rewrite IH. reflexivity. Qed.
Lemma value_ev n p x : value (S n) p x = ev (coefs n p x) (x n).
Proof. unfold ev, coefs. cbn [value]. rewrite fold_map. reflexivity. Qed.
Lemma same_coefs n p q : same_function (S n) p q -> forall x, same (coefs n p x) (coefs n q x).
Proof.
  intros H x. unfold same. refine (ev_coefficients _ _ _). intros t. specialize (H (at_last n x t)). rewrite !value_ev in H. unfold at_last at 2 4 in H. rewrite Nat.eqb_refl in H.
  assert (E : forall r, coefs n r (at_last n x t) = coefs n r x).
  { intros r. apply map_ext. intros c. apply value_local. intros i Hi. unfold at_last. destruct (i =? n)%nat eqn:E; auto. apply Nat.eqb_eq in E. lia. }
  rewrite !E in H. exact H.
Qed.
Lemma nth_coefs n p x i : nth i (coefs n p x) 0 = value n (nth i p (pconst n 0)) x.
Proof.
  unfold coefs. destruct (le_lt_dec (length p) i) as [H|H].
  - rewrite !nth_overflow by (rewrite ?map_length; auto). rewrite value_pconst. reflexivity.
  - rewrite (nth_indep _ 0 (value n (pconst n 0) x)) by (rewrite map_length; auto). apply (map_nth (fun c => value n c x)).
Qed.
Lemma same_nth n p q : same_function (S n) p q -> forall i, same_function n (nth i p (pconst n 0)) (nth i q (pconst n 0)).
Proof. intros H i x. rewrite <- !nth_coefs. apply same_coefs, H. Qed.

Lemma value_subst n P r x : value n (subst n P r) x = ev (coefs n P x) (value n r x).
Proof.
  unfold subst. induction P as [|c P IH]; cbn [fold_right]; [rewrite value_pconst; reflexivity|].
  rewrite value_padd, value_pmul, IH. reflexivity.
Qed.
Lemma nth_index_divide n p x : forall i k, nth i (coefs n (index_divide n k p) x) 0 = / qz (Z.of_nat (k + i)) * nth i (coefs n p x) 0.
Proof.
  induction p as [|c p IH]; intros i k; cbn [index_divide].
  - destruct i; cbn; ring.
  - unfold coefs. cbn [map]. destruct i as [|i]; cbn [nth]; [rewrite value_pscale, Nat.add_0_r; reflexivity|].
    specialize (IH i (S k)). unfold coefs in IH. rewrite IH. replace (S k + i)%nat with (k + S i)%nat by lia. reflexivity.
Qed.
Lemma nth_index_scale n p x : forall i k, nth i (coefs n (index_scale n k p) x) 0 = qz (Z.of_nat (k + i)) * nth i (coefs n p x) 0.
Proof.
  induction p as [|c p IH]; intros i k; cbn [index_scale].
  - destruct i; cbn; ring.
  - unfold coefs. cbn [map]. destruct i as [|i]; cbn [nth]; [rewrite value_pscale, Nat.add_0_r; reflexivity|].
    specialize (IH i (S k)). unfold coefs in IH. rewrite IH. replace (S k + i)%nat with (k + S i)%nat by lia. reflexivity.
Qed.
Lemma integral_same n p q : same_function n p q -> integral n p = integral n q.
Proof.
  revert p q. induction n as [|n IH]; intros p q H; [exact (H (fun _ => 0))|]. cbn [integral]. apply IH. intros x. rewrite !value_subst.
  apply ev_same. intros [|i]; [reflexivity|]. unfold primitive. cbn [coefs map nth].
  pose proof (nth_index_divide n p x i 1) as E. pose proof (nth_index_divide n q x i 1) as E'. unfold coefs in *. rewrite E, E'. f_equal. apply (same_coefs n p q H x).
Qed.
Lemma skipn_1 {A} (l : list A) d i : nth i (skipn 1 l) d = nth (S i) l d.
Proof. destruct l; cbn [skipn nth]; auto. destruct i; reflexivity. Qed.
Lemma value_deriv_0 n k x : value n (pderiv n k (pconst n 0)) x = 0.
Proof. revert k. induction n as [|n IH]; intros k; [reflexivity|]. cbn [pderiv pconst]. destruct (k =? n)%nat; cbn [skipn index_scale map value fold_right]; [reflexivity|]. rewrite IH. ring. Qed.
Lemma pderiv_same n k p q : same_function n p q -> same_function n (pderiv n k p) (pderiv n k q).
Proof.
  revert k p q. induction n as [|n IH]; intros k p q H x; [reflexivity|]. cbn [pderiv]. rewrite !value_ev. apply ev_same. intros i. destruct (k =? n)%nat.
  - rewrite !nth_index_scale. f_equal. rewrite !nth_coefs, !skipn_1. apply same_nth, H.
  - rewrite !nth_coefs. 
    assert (E : forall r, value n (nth i (map (pderiv n k) r) (pconst n 0)) x = value n (pderiv n k (nth i r (pconst n 0))) x).
    { intros r. destruct (le_lt_dec (length r) i) as [Hi|Hi].
      - rewrite !nth_overflow by (rewrite ?map_length; auto). rewrite value_deriv_0, value_pconst. reflexivity.
      - rewrite (nth_indep _ _ (pderiv n k (pconst n 0))) by (rewrite map_length; auto). rewrite map_nth. reflexivity. }
    rewrite !E. apply IH, same_nth, H.
Qed.
Lemma pmul_same n p q p' q' : same_function n p p' -> same_function n q q' -> same_function n (pmul n p q) (pmul n p' q').
Proof. intros H H' x. rewrite !value_pmul, H, H'. reflexivity. Qed.

Lemma functions_same d fs ps qs : functions d fs ps -> functions d fs qs -> Forall2 (same_function d) ps qs.
Proof.
  intros H. revert qs. induction H as [|f p fs ps R H IH]; intros qs H'; inversion H'; subst; constructor; auto.
  intros x. rewrite R. symmetry. match goal with X : represents d _ _ |- _ => apply X end.
Qed.
Lemma triangle_same {A B} (E : A -> A -> Prop) (f : A -> A -> B) ps qs : (forall p q p' q', E p p' -> E q q' -> f p q = f p' q') ->
  Forall2 E ps qs -> upper_triangle f ps = upper_triangle f qs.
Proof.
  intros H F. induction F as [|p q ps qs X F IH]; [reflexivity|]. cbn [upper_triangle]. f_equal; auto. cbn [map]. f_equal; auto.
  clear IH. induction F; cbn [map]; [reflexivity|]. f_equal; auto.
Qed.
Lemma full_same {A B C} (E : A -> A -> Prop) (E' : B -> B -> Prop) (f : A -> B -> C) ps qs ps' qs' :
  (forall p q p' q', E p p' -> E' q q' -> f p q = f p' q') -> Forall2 E ps ps' -> Forall2 E' qs qs' -> full_matrix f ps qs = full_matrix f ps' qs'.
Proof.
  intros H F F'. unfold full_matrix. induction F as [|p q l l' X F IH]; [reflexivity|]. cbn [flat_map]. f_equal; auto.
  clear IH F. induction F'; cbn [map]; [reflexivity|]. f_equal; auto.
Qed.
Lemma mass_same d J p q p' q' : same_function d p p' -> same_function d q q' -> mass_entry d J p q = mass_entry d J p' q'.
Proof. intros H H'. unfold mass_entry. f_equal. apply integral_same, pmul_same; auto. Qed.
Lemma stiffness_same d J gs p q p' q' : same_function d p p' -> same_function d q q' -> stiffness_entry d J gs p q = stiffness_entry d J gs p' q'.
Proof.
  intros H H'. unfold stiffness_entry. f_equal. apply sumf_ext. intros k _. apply sumf_ext. intros m _. f_equal.
  apply integral_same, pmul_same; apply pderiv_same; auto.
Qed.

Lemma is_mass d J fs ps : functions d fs ps -> is_mass_matrix d J fs (upper_triangle (mass_entry d J) ps).
Proof. intros H. split; [eauto|]. intros qs H'. apply (triangle_same (same_function d)); [apply mass_same|]. apply (functions_same d fs); auto. Qed.
Lemma is_mixed d J fs fs' ps qs : functions d fs ps -> functions d fs' qs -> is_mixed_mass_matrix d J fs fs' (full_matrix (mass_entry d J) ps qs).
Proof.
  intros H K. split; [eauto|]. intros ps' qs' H' K'. apply (full_same (same_function d) (same_function d)); [apply mass_same| |]; eapply functions_same; eauto.
Qed.
Lemma gradients_unique d vs gs gs' : (1 <= d <= 3)%nat -> is_simplex d vs -> gradients_of d vs gs -> gradients_of d vs gs' -> gs = gs'.
Proof.
  intros Hd H HG HG'. assert (d = 1 \/ d = 2 \/ d = 3)%nat as [-> | [-> | ->]] by lia.
  - destruct (simplex1 vs H) as (a & b & ->). destruct H as (_ & _ & HD). rewrite (gradients1 _ _ _ HD HG), (gradients1 _ _ _ HD HG'). reflexivity.
  - destruct (simplex2 vs H) as (a0 & a1 & b0 & b1 & c0 & c1 & ->). destruct H as (_ & _ & HD).
    rewrite (gradients2 _ _ _ _ _ _ _ HD HG), (gradients2 _ _ _ _ _ _ _ HD HG'). reflexivity.
  - destruct (simplex3 vs H) as (a0 & a1 & a2 & b0 & b1 & b2 & c0 & c1 & c2 & d0 & d1 & d2 & ->). destruct H as (_ & _ & HD).
    rewrite (gradients3 _ _ _ _ _ _ _ _ _ _ _ _ _ HD HG), (gradients3 _ _ _ _ _ _ _ _ _ _ _ _ _ HD HG'). reflexivity.
Qed.
Lemma gradients_exist d vs : (1 <= d <= 3)%nat -> is_simplex d vs -> exists gs, gradients_of d vs gs.
Proof.
  intros Hd H. assert (d = 1 \/ d = 2 \/ d = 3)%nat as [-> | [-> | ->]] by lia.
  - destruct (simplex1 vs H) as (a & b & ->). destruct H as (_ & _ & HD). cbn [det len1 vat nth] in HD. exists [[1 / (b - a)]].
    split; [reflexivity|]. split; [intros g [<- | []]; reflexivity|]. intros [|k] [|m] Hk Hm; try lia. unfold dotf. cbn [sumf vat nth Nat.eqb]. field. exact HD.
  - destruct (simplex2 vs H) as (a0 & a1 & b0 & b1 & c0 & c1 & ->). destruct H as (_ & _ & HD). set (D := det 2 _) in *.
    assert (X : D = (b0 - a0) * (c1 - a1) - (b1 - a1) * (c0 - a0)) by reflexivity.
    exists [[(c1 - a1) / D; (a0 - c0) / D]; [(a1 - b1) / D; (b0 - a0) / D]].
    split; [reflexivity|]. split; [intros g [<- | [<- | []]]; reflexivity|]. clearbody D.
    intros [|[|k]] [|[|m]] Hk Hm; try lia; unfold dotf; cbn [sumf vat nth Nat.eqb].
    all: match goal with
    | |- _ = 0 => field; exact HD
    | |- _ = 1 => transitivity (((b0 - a0) * (c1 - a1) - (b1 - a1) * (c0 - a0)) / D); [field; exact HD|rewrite <- X; field; exact HD] end.
  - destruct (simplex3 vs H) as (a0 & a1 & a2 & b0 & b1 & b2 & c0 & c1 & c2 & d0 & d1 & d2 & ->). destruct H as (_ & _ & HD). set (D := det 3 _) in *.
    assert (X : exists e0 e1 e2 f0 f1 f2 h0 h1 h2, e0 = b0 - a0 /\ e1 = b1 - a1 /\ e2 = b2 - a2 /\ f0 = c0 - a0 /\ f1 = c1 - a1 /\ f2 = c2 - a2 /\
      h0 = d0 - a0 /\ h1 = d1 - a1 /\ h2 = d2 - a2 /\ D = e0 * (f1 * h2 - f2 * h1) - e1 * (f0 * h2 - f2 * h0) + e2 * (f0 * h1 - f1 * h0)).
    { do 9 eexists. repeat split. }
    destruct X as (e0 & e1 & e2 & f0 & f1 & f2 & h0 & h1 & h2 & E0 & E1 & E2 & F0 & F1 & F2 & H0 & H1 & H2 & X). clearbody D.
    exists [[(f1 * h2 - f2 * h1) / D; (f2 * h0 - f0 * h2) / D; (f0 * h1 - f1 * h0) / D];
        [(h1 * e2 - h2 * e1) / D; (h2 * e0 - h0 * e2) / D; (h0 * e1 - h1 * e0) / D];
        [(e1 * f2 - e2 * f1) / D; (e2 * f0 - e0 * f2) / D; (e0 * f1 - e1 * f0) / D]].
    split; [reflexivity|]. split; [intros g [<- | [<- | [<- | []]]]; reflexivity|].
    intros [|[|[|k]]] [|[|[|m]]] Hk Hm; try lia; unfold dotf; cbn [sumf vat nth Nat.eqb]; rewrite <- ?E0, <- ?E1, <- ?E2, <- ?F0, <- ?F1, <- ?F2, <- ?H0, <- ?H1, <- ?H2.
    all: match goal with
    | |- _ = 0 => field; exact HD
    | |- _ = 1 => transitivity ((e0 * (f1 * h2 - f2 * h1) - e1 * (f0 * h2 - f2 * h0) + e2 * (f0 * h1 - f1 * h0)) / D); [field; exact HD|rewrite <- X; field; exact HD] end.
Qed.
Lemma is_stiffness d J vs fs ps m : (1 <= d <= 3)%nat -> is_simplex d vs -> functions d fs ps ->
  (forall gs, gradients_of d vs gs -> m = upper_triangle (stiffness_entry d J gs) ps) -> is_stiffness_matrix d J vs fs m.
Proof.
  intros Hd HS H HM. destruct (gradients_exist d vs Hd HS) as (gs & HG). split; [eauto|]. intros qs gs' H' HG'. rewrite (HM gs' HG').
  apply (triangle_same (same_function d)); [apply stiffness_same|]. apply (functions_same d fs); auto.
Qed.
