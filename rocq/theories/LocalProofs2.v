(** The geometry of a simplex: volumes and products of gradients. *)
From Verif Require Import Util Lin MeshSpec MeshModel BaryModel BarySpec BaryProofs LocalModel LocalSpec LocalProofs.
Set Default Proof Using "Type".
Local Open Scope Qc_scope.

Lemma put_from_ok es : forall b pre, length b = length es -> put_from (length pre) es (pre ++ b) = Ok (pre ++ map Some es).
Proof.
  induction es as [|e es IH]; intros [|x b] pre H; cbn [length] in H; try discriminate; cbn [put_from map].
  - reflexivity.
  - rewrite wr_ok by (rewrite app_length; cbn; lia). cbn [bind]. rewrite upd_middle.
    replace (pre ++ Some e :: b) with ((pre ++ [Some e]) ++ b) by (rewrite <- app_assoc; reflexivity).
    replace (S (length pre)) with (length (pre ++ [Some e])) by (rewrite app_length; cbn; lia).
    rewrite IH by lia. rewrite <- app_assoc. reflexivity.
Qed.
Lemma put_ok es b : length b = length es -> put es b = Ok (map Some es).
Proof. intros H. exact (put_from_ok es b [] H). Qed.

Lemma qabs_magnitude a : magnitude (qabs a) a.
Proof.
  unfold qabs, magnitude. destruct (Qclt_le_dec a 0) as [H|H].
  - split; [|auto]. apply Qclt_le_weak in H. apply Qcopp_le_compat in H. exact H.
  - auto.
Qed.
Lemma magnitude_unique J J' a : magnitude J a -> magnitude J' a -> J = J'.
Proof.
  intros (H & [E | E]) (H' & [E' | E']); subst; auto.
  - assert (a = 0); [|subst; ring]. apply Qcle_antisym; auto. apply Qcopp_le_compat in H'. ring_simplify in H'. exact H'.
  - assert (a = 0); [|subst; ring]. apply Qcle_antisym; auto. apply Qcopp_le_compat in H. ring_simplify in H. exact H.
Qed.
Lemma magnitude_0 J a : magnitude J a -> a <> 0 -> J <> 0.
Proof. intros (_ & [-> | ->]) H E; apply H; auto. rewrite <- (Qcopp_involutive a), E. ring. Qed.
Lemma magnitude_square J a : magnitude J a -> J * J = a * a.
Proof. intros (_ & [-> | ->]); ring. Qed.
Lemma qabs_is J a b : magnitude J a -> b = a \/ b = - a -> qabs b = J.
Proof.
  intros H E. apply (magnitude_unique _ _ b); [apply qabs_magnitude|]. destruct H as (H & [Ha | Ha]), E as [-> | ->]; split; auto.
  right. rewrite Ha. ring.
Qed.
Lemma half_two (J : Qc) : J * one_half + J * one_half = J.
Proof. unfold one_half. ring. Qed.

Lemma len4_list {A} (l : list A) : length l = 4%nat -> exists a b c d, l = [a; b; c; d].
Proof. destruct l as [|a [|b [|c [|d [|e l]]]]]; cbn; intros H; try discriminate. eauto. Qed.
Lemma len1_list' {A} (l : list A) : length l = 1%nat -> exists a, l = [a].
Proof. destruct l as [|a [|b l]]; cbn; intros H; try discriminate. eauto. Qed.

Lemma simplex1 vs : is_simplex 1 vs -> exists a b, vs = [[a]; [b]].
Proof.
  intros (L & R & _). destruct (len2_list vs L) as (p & q & ->).
  destruct (len1_list' p (R p (or_introl eq_refl))) as (a & ->). destruct (len1_list' q (R q (or_intror (or_introl eq_refl)))) as (b & ->). eauto.
Qed.
Lemma simplex2 vs : is_simplex 2 vs -> exists a0 a1 b0 b1 c0 c1, vs = [[a0; a1]; [b0; b1]; [c0; c1]].
Proof.
  intros (L & R & _). destruct (len3_list vs L) as (p & q & r & ->).
  destruct (len2_list p) as (a0 & a1 & ->); [apply R; cbn; auto|]. destruct (len2_list q) as (b0 & b1 & ->); [apply R; cbn; auto|].
  destruct (len2_list r) as (c0 & c1 & ->); [apply R; cbn; auto|]. repeat eexists.
Qed.
Lemma simplex3 vs : is_simplex 3 vs -> exists a0 a1 a2 b0 b1 b2 c0 c1 c2 d0 d1 d2, vs = [[a0; a1; a2]; [b0; b1; b2]; [c0; c1; c2]; [d0; d1; d2]].
Proof.
  intros (L & R & _). destruct (len4_list vs L) as (p & q & r & s & ->).
  destruct (len3_list p) as (a0 & a1 & a2 & ->); [apply R; cbn; auto|]. destruct (len3_list q) as (b0 & b1 & b2 & ->); [apply R; cbn; auto|].
  destruct (len3_list r) as (c0 & c1 & c2 & ->); [apply R; cbn; auto|]. destruct (len3_list s) as (d0 & d1 & d2 & ->); [apply R; cbn; auto 6|]. repeat eexists.
Qed.

(** Work space of known shape. *)
Lemma shape_rows {A} n m (mem : list (list A)) : shape n m mem -> length mem = n /\ Forall (fun r => length r = m) mem.
Proof. intros (H & R). split; auto. apply Forall_forall. exact R. Qed.
Ltac rows H :=
  apply shape_rows in H; destruct H as [?H ?H];
  repeat match goal with
  | L : length ?m = S _ |- _ => destruct m as [|? ?]; [discriminate L|]; cbn [length] in L; apply Nat.succ_inj in L
  | L : length ?m = 0%nat |- _ => destruct m as [|? ?]; [clear L|discriminate L]
  | F : Forall _ (_ :: _) |- _ => apply Forall_cons_iff in F as [?L F]
  | F : Forall _ [] |- _ => clear F
  end.

Ltac run := cbn -[Qcplus Qcmult Qcminus Qcopp Qcdiv Qcinv qabs qdiv one_half qz qf sumf dotf].

Lemma volume1 vs J : is_simplex 1 vs -> magnitude J (det 1 vs) -> simplexVolume1D vs = Ok J.
Proof.
  intros H HJ. destruct (simplex1 vs H) as (a & b & ->). unfold simplexVolume1D. run. f_equal.
  apply (qabs_is J (det 1 [[a]; [b]])); auto.
Qed.
Lemma volume2 vs J temp : is_simplex 2 vs -> magnitude J (det 2 vs) -> shape 3 2 temp ->
  exists temp', simplexVolume2D vs temp = Ok (J * one_half, temp').
Proof.
  intros H HJ HT. destruct (simplex2 vs H) as (a0 & a1 & b0 & b1 & c0 & c1 & ->). rows HT.
  unfold simplexVolume2D. run. eexists. f_equal. f_equal. f_equal.
  apply (qabs_is J _ _ HJ). left. reflexivity.
Qed.
Lemma volume3 vs J temp : is_simplex 3 vs -> magnitude J (det 3 vs) -> shape 4 3 temp ->
  exists temp', simplexVolume3D vs temp = Ok (J / qz 6, temp').
Proof.
  intros H HJ HT. destruct (simplex3 vs H) as (a0 & a1 & a2 & b0 & b1 & b2 & c0 & c1 & c2 & d0 & d1 & d2 & ->). rows HT.
  unfold simplexVolume3D. run. eexists. f_equal. f_equal. f_equal.
  apply (qabs_is J _ _ HJ). left. cbn -[Qcplus Qcmult Qcminus]. ring.
Qed.

(** ** Gradients of the barycentric coordinates *)
Lemma div_eq a b D : D <> 0 -> D * a = b -> a = b / D.
Proof. intros H E. rewrite <- E. field. exact H. Qed.

Definition G (d : nat) (gs : list (list Qc)) (k m : nat) : Qc := vdot d (nth k (all_gradients d gs) []) (nth m (all_gradients d gs) []).

Lemma gradients1 a b gs : b - a <> 0 -> gradients_of 1 [[a]; [b]] gs -> gs = [[1 / (b - a)]].
Proof.
  intros HD (L & R & E). destruct (len1_list' gs L) as (g & ->). destruct (len1_list' g (R g (or_introl eq_refl))) as (p & ->).
  specialize (E 0%nat 0%nat ltac:(lia) ltac:(lia)). cbn in E. repeat f_equal. apply div_eq; auto. rewrite <- E. ring.
Qed.

Lemma gradients2 a0 a1 b0 b1 c0 c1 gs : det 2 [[a0; a1]; [b0; b1]; [c0; c1]] <> 0 -> gradients_of 2 [[a0; a1]; [b0; b1]; [c0; c1]] gs ->
  let D := det 2 [[a0; a1]; [b0; b1]; [c0; c1]] in
  gs = [[(c1 - a1) / D; (a0 - c0) / D]; [(a1 - b1) / D; (b0 - a0) / D]].
Proof.
  intros HD (L & R & E) D. destruct (len2_list gs L) as (g & g' & ->).
  destruct (len2_list g (R g (or_introl eq_refl))) as (p0 & p1 & ->). destruct (len2_list g' (R g' (or_intror (or_introl eq_refl)))) as (q0 & q1 & ->).
  pose proof (E 0%nat 0%nat ltac:(lia) ltac:(lia)) as E00. pose proof (E 0%nat 1%nat ltac:(lia) ltac:(lia)) as E01.
  pose proof (E 1%nat 0%nat ltac:(lia) ltac:(lia)) as E10. pose proof (E 1%nat 1%nat ltac:(lia) ltac:(lia)) as E11. clear E.
  cbn -[Qcplus Qcmult Qcminus] in E00, E01, E10, E11. fold D in HD. unfold dotf in *. cbn -[Qcplus Qcmult Qcminus] in E00, E01, E10, E11.
  assert (X : D = (b0 - a0) * (c1 - a1) - (b1 - a1) * (c0 - a0)) by reflexivity.
  repeat f_equal; apply div_eq; auto; rewrite X.
  - transitivity ((c1 - a1) * (0 + p0 * (b0 - a0) + p1 * (b1 - a1)) - (b1 - a1) * (0 + p0 * (c0 - a0) + p1 * (c1 - a1))); [ring|]. rewrite E00, E01. ring.
  - transitivity ((b0 - a0) * (0 + p0 * (c0 - a0) + p1 * (c1 - a1)) - (c0 - a0) * (0 + p0 * (b0 - a0) + p1 * (b1 - a1))); [ring|]. rewrite E00, E01. ring.
  - transitivity ((c1 - a1) * (0 + q0 * (b0 - a0) + q1 * (b1 - a1)) - (b1 - a1) * (0 + q0 * (c0 - a0) + q1 * (c1 - a1))); [ring|]. rewrite E10, E11. ring.
  - transitivity ((b0 - a0) * (0 + q0 * (c0 - a0) + q1 * (c1 - a1)) - (c0 - a0) * (0 + q0 * (b0 - a0) + q1 * (b1 - a1))); [ring|]. rewrite E10, E11. ring.
Qed.

Lemma cramer3 (e0 e1 e2 f0 f1 f2 h0 h1 h2 p0 p1 p2 D u v w : Qc) :
  D = e0 * (f1 * h2 - f2 * h1) - e1 * (f0 * h2 - f2 * h0) + e2 * (f0 * h1 - f1 * h0) -> D <> 0 ->
  0 + p0 * e0 + p1 * e1 + p2 * e2 = u -> 0 + p0 * f0 + p1 * f1 + p2 * f2 = v -> 0 + p0 * h0 + p1 * h1 + p2 * h2 = w ->
  [p0; p1; p2] =
  [(u * (f1 * h2 - f2 * h1) + v * (h1 * e2 - h2 * e1) + w * (e1 * f2 - e2 * f1)) / D;
   (u * (f2 * h0 - f0 * h2) + v * (h2 * e0 - h0 * e2) + w * (e2 * f0 - e0 * f2)) / D;
   (u * (f0 * h1 - f1 * h0) + v * (h0 * e1 - h1 * e0) + w * (e0 * f1 - e1 * f0)) / D].
Proof.
  intros X HD <- <- <-. repeat f_equal; apply div_eq; auto; rewrite X; ring.
Qed.

Ltac l3 := f_equal; [f_equal; ring|f_equal; [f_equal; ring|f_equal; f_equal; ring]].
Lemma gradients3 a0 a1 a2 b0 b1 b2 c0 c1 c2 d0 d1 d2 gs (vs := [[a0; a1; a2]; [b0; b1; b2]; [c0; c1; c2]; [d0; d1; d2]]) :
  det 3 vs <> 0 -> gradients_of 3 vs gs ->
  let D := det 3 vs in
  let e0 := b0 - a0 in let e1 := b1 - a1 in let e2 := b2 - a2 in
  let f0 := c0 - a0 in let f1 := c1 - a1 in let f2 := c2 - a2 in
  let h0 := d0 - a0 in let h1 := d1 - a1 in let h2 := d2 - a2 in
  gs = [[(f1 * h2 - f2 * h1) / D; (f2 * h0 - f0 * h2) / D; (f0 * h1 - f1 * h0) / D];
        [(h1 * e2 - h2 * e1) / D; (h2 * e0 - h0 * e2) / D; (h0 * e1 - h1 * e0) / D];
        [(e1 * f2 - e2 * f1) / D; (e2 * f0 - e0 * f2) / D; (e0 * f1 - e1 * f0) / D]].
Proof.
  intros HD (L & R & E) D e0 e1 e2 f0 f1 f2 h0 h1 h2. destruct (len3_list gs L) as (g & g' & g'' & ->).
  destruct (len3_list g) as (p0 & p1 & p2 & ->); [apply R; cbn; auto|]. destruct (len3_list g') as (q0 & q1 & q2 & ->); [apply R; cbn; auto|].
  destruct (len3_list g'') as (r0 & r1 & r2 & ->); [apply R; cbn; auto|].
  assert (X : D = e0 * (f1 * h2 - f2 * h1) - e1 * (f0 * h2 - f2 * h0) + e2 * (f0 * h1 - f1 * h0)) by reflexivity.
  f_equal; [|f_equal; [|f_equal]].
  - rewrite (cramer3 e0 e1 e2 f0 f1 f2 h0 h1 h2 p0 p1 p2 D 1 0 0 X HD (E 0 0 ltac:(lia) ltac:(lia))%nat (E 0 1 ltac:(lia) ltac:(lia))%nat (E 0 2 ltac:(lia) ltac:(lia))%nat).
    l3.
  - rewrite (cramer3 e0 e1 e2 f0 f1 f2 h0 h1 h2 q0 q1 q2 D 0 1 0 X HD (E 1 0 ltac:(lia) ltac:(lia))%nat (E 1 1 ltac:(lia) ltac:(lia))%nat (E 1 2 ltac:(lia) ltac:(lia))%nat).
    l3.
  - rewrite (cramer3 e0 e1 e2 f0 f1 f2 h0 h1 h2 r0 r1 r2 D 0 0 1 X HD (E 2 0 ltac:(lia) ltac:(lia))%nat (E 2 1 ltac:(lia) ltac:(lia))%nat (E 2 2 ltac:(lia) ltac:(lia))%nat).
    l3.
Qed.

(** ** Products *)
Definition pairs (n : nat) : list (nat * nat) := upper_triangle pair (seq 0 n).

Lemma products2 vs J temp ip gs : is_simplex 2 vs -> magnitude J (det 2 vs) -> shape 3 2 temp -> length ip = 6%nat -> gradients_of 2 vs gs ->
  exists temp', simplexVolumeAndProducts2D vs ip temp =
    Ok (J * one_half, map Some (map (fun km => J * J * G 2 gs (fst km) (snd km)) (pairs 3)), temp').
Proof.
  intros H HJ HT HI HG. destruct (simplex2 vs H) as (a0 & a1 & b0 & b1 & c0 & c1 & ->). destruct H as (_ & _ & HD).
  pose proof (gradients2 _ _ _ _ _ _ _ HD HG) as Eg. cbv zeta in Eg. rows HT.
  unfold simplexVolumeAndProducts2D. cbn -[Qcplus Qcmult Qcminus Qcopp qabs one_half put map seq pairs]. rewrite put_ok by reflexivity. cbn [bind].
  eexists. f_equal. f_equal. f_equal; [f_equal; apply (qabs_is J _ _ HJ); left; cbn -[Qcplus Qcmult Qcminus]; ring|].
  f_equal. rewrite Eg, (magnitude_square J _ HJ). set (D := det 2 _) in *.
  assert (X : D = (b0 - a0) * (c1 - a1) - (b1 - a1) * (c0 - a0)) by reflexivity. clearbody D.
  cbv [pairs upper_triangle seq map app fst snd G vdot dotf all_gradients tab sumf nth vat].
  repeat (f_equal; [field; exact HD|]). f_equal; field; exact HD.
Qed.

Lemma products3 vs J temp ip gs : is_simplex 3 vs -> magnitude J (det 3 vs) -> shape 10 3 temp -> length ip = 10%nat -> gradients_of 3 vs gs ->
  exists temp', simplexVolumeAndProducts3D vs ip temp =
    Ok (J / qz 6, map Some (map (fun km => J * J * G 3 gs (fst km) (snd km)) (pairs 4)), temp').
Proof.
  intros H HJ HT HI HG. destruct (simplex3 vs H) as (a0 & a1 & a2 & b0 & b1 & b2 & c0 & c1 & c2 & d0 & d1 & d2 & ->). destruct H as (_ & _ & HD).
  pose proof (gradients3 _ _ _ _ _ _ _ _ _ _ _ _ _ HD HG) as Eg. cbv zeta in Eg. rows HT.
  unfold simplexVolumeAndProducts3D. cbn -[Qcplus Qcmult Qcminus Qcopp qabs one_half put map seq pairs qz]. rewrite put_ok by reflexivity. cbn [bind].
  eexists. f_equal. f_equal. f_equal; [f_equal; apply (qabs_is J _ _ HJ); left; cbn -[Qcplus Qcmult Qcminus]; ring|].
  f_equal. rewrite Eg, (magnitude_square J _ HJ). set (D := det 3 _) in *. clearbody D.
  cbv [pairs upper_triangle seq map app fst snd G vdot dotf all_gradients tab sumf nth vat].
  repeat (f_equal; [field; exact HD|]). f_equal; field; exact HD.
Qed.
