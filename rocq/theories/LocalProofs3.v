(** The local mass and stiffness matrices are the integrals. *)
From Verif Require Import Util Lin MeshSpec MeshModel BaryModel BarySpec BaryProofs LocalModel LocalTables LocalSpec LocalProofs LocalProofs2.
Set Default Proof Using "Type".
Local Open Scope Qc_scope.

Lemma this_inj (l l' : list Qc) : map this l = map this l' -> l = l'.
Proof.
  revert l'. induction l as [|a l IH]; intros [|a' l'] H; cbn in H; try discriminate; auto. inversion H as [[E E']]. f_equal; auto.
  apply Qc_is_canon. rewrite E. reflexivity.
Qed.
Lemma this_inj2 (l l' : list (list Qc)) : map (map this) l = map (map this) l' -> l = l'.
Proof. revert l'. induction l as [|a l IH]; intros [|a' l'] H; cbn in H; try discriminate; auto. inversion H as [[E E']]. f_equal; auto. apply this_inj, E. Qed.

Lemma sixth (J : Qc) : J / qz 6 = J * Q2Qc (1 # 6).
Proof. unfold Qcdiv. f_equal. Qed.
Lemma half_q : one_half = Q2Qc (1 # 2).
Proof. reflexivity. Qed.

Lemma mass_table d J ps : upper_triangle (mass_entry d J) ps = map (Qcmult J) (upper_triangle (mtab d) ps).
Proof. exact (upper_triangle_map (Qcmult J) (mtab d) ps). Qed.

Ltac table T :=
  let v := eval vm_compute in (map this T) in
  let E := fresh "E" in
  assert (E : T = map Q2Qc v) by (apply this_inj; vm_compute; reflexivity);
  rewrite E; clear E; cbn [map].
Ltac table2 T :=
  let v := eval vm_compute in (map (map this) T) in
  let E := fresh "E" in
  assert (E : T = map (map Q2Qc) v) by (apply this_inj2; vm_compute; reflexivity);
  rewrite E; clear E; cbn [map].
Ltac entries tac := match goal with |- [] = [] => reflexivity | |- _ :: _ = _ :: _ => apply f_equal2; [tac|entries tac] end.
Ltac qring := unfold qz, qf, inject_Z; ring.
Ltac mass d ps := f_equal; f_equal; rewrite mass_table, ?sixth, ?half_q; table (upper_triangle (mtab d) ps); entries qring.

(** ** Stiffness *)
Definition lin1 (w : Qc) (K : list Qc) : Qc := match K with [k] => w * k | _ => 0 end.
Definition lin2 (w l11 l12 l22 : Qc) (K : list Qc) : Qc :=
  match K with [k11; k12; k21; k22] => w * (l11 * k11 + l12 * k12 + (l12 * k21 + l22 * k22)) | _ => 0 end.
Definition lin3 (w l11 l12 l13 l22 l23 l33 : Qc) (K : list Qc) : Qc :=
  match K with
  | [k11; k12; k13; k21; k22; k23; k31; k32; k33] =>
      w * (l11 * k11 + l12 * k12 + l13 * k13 + (l12 * k21 + l22 * k22 + l23 * k23) + (l13 * k31 + l23 * k32 + l33 * k33))
  | _ => 0
  end.

Lemma upper_triangle_ext {A B} (f g : A -> A -> B) ps : (forall p q, f p q = g p q) -> upper_triangle f ps = upper_triangle g ps.
Proof. intros H. induction ps as [|p ps IH]; cbn [upper_triangle]; [reflexivity|]. rewrite IH. f_equal. apply map_ext. auto. Qed.

Lemma stiffness_table1 vs J gs ps : is_simplex 1 vs -> magnitude J (det 1 vs) -> gradients_of 1 vs gs ->
  upper_triangle (stiffness_entry 1 J gs) ps = map (lin1 (/ J)) (upper_triangle (ktab 1) ps).
Proof.
  intros H HJ HG. destruct (simplex1 vs H) as (a & b & ->). destruct H as (_ & _ & HD). cbn [det len1 vat nth] in HD, HJ.
  pose proof (gradients1 _ _ _ HD HG) as ->. pose proof (magnitude_0 _ _ HJ HD) as J0. pose proof (magnitude_square _ _ HJ) as JJ.
  rewrite <- upper_triangle_map. apply upper_triangle_ext. intros p q. unfold stiffness_entry, ktab, vdot, dotf. cbn [sumf nth vat seq flat_map map app lin1].
  set (K := integral 1 _). clearbody K.
  transitivity (J * (1 / ((b - a) * (b - a))) * K); [field; exact HD|]. rewrite <- JJ. field. exact J0.
Qed.

Lemma shape2 gs : length gs = 2%nat -> (forall g : list Qc, In g gs -> length g = 2%nat) -> exists p0 p1 q0 q1, gs = [[p0; p1]; [q0; q1]].
Proof.
  intros L R. destruct (len2_list gs L) as (g & g' & ->).
  destruct (len2_list g (R g (or_introl eq_refl))) as (p0 & p1 & ->). destruct (len2_list g' (R g' (or_intror (or_introl eq_refl)))) as (q0 & q1 & ->). repeat eexists.
Qed.
Lemma shape3 gs : length gs = 3%nat -> (forall g : list Qc, In g gs -> length g = 3%nat) ->
  exists p0 p1 p2 q0 q1 q2 r0 r1 r2, gs = [[p0; p1; p2]; [q0; q1; q2]; [r0; r1; r2]].
Proof.
  intros L R. destruct (len3_list gs L) as (g & g' & g'' & ->).
  destruct (len3_list g) as (p0 & p1 & p2 & ->); [apply R; cbn; auto|]. destruct (len3_list g') as (q0 & q1 & q2 & ->); [apply R; cbn; auto|].
  destruct (len3_list g'') as (r0 & r1 & r2 & ->); [apply R; cbn; auto|]. repeat eexists.
Qed.

Lemma stiffness_table2 J gs ps : J <> 0 ->
  upper_triangle (stiffness_entry 2 J gs) ps = map (lin2 (/ J) (J * J * G 2 gs 1 1) (J * J * G 2 gs 1 2) (J * J * G 2 gs 2 2)) (upper_triangle (ktab 2) ps).
Proof.
  intros J0. rewrite <- upper_triangle_map. apply upper_triangle_ext. intros p q. unfold stiffness_entry, ktab, G, all_gradients.
  cbn [nth seq flat_map map app lin2]. cbn [sumf].
  assert (S : vdot 2 (nth 1 gs []) (nth 0 gs []) = vdot 2 (nth 0 gs []) (nth 1 gs [])) by (unfold vdot, dotf; cbn [sumf]; ring).
  rewrite S. field. exact J0.
Qed.
Lemma stiffness_table3 J gs ps : J <> 0 ->
  upper_triangle (stiffness_entry 3 J gs) ps =
  map (lin3 (/ J) (J * J * G 3 gs 1 1) (J * J * G 3 gs 1 2) (J * J * G 3 gs 1 3) (J * J * G 3 gs 2 2) (J * J * G 3 gs 2 3) (J * J * G 3 gs 3 3))
    (upper_triangle (ktab 3) ps).
Proof.
  intros J0. rewrite <- upper_triangle_map. apply upper_triangle_ext. intros p q. unfold stiffness_entry, ktab, G, all_gradients.
  cbn [nth seq flat_map map app lin3]. cbn [sumf].
  assert (S : forall i j, vdot 3 (nth i gs []) (nth j gs []) = vdot 3 (nth j gs []) (nth i gs [])) by (intros; unfold vdot, dotf; cbn [sumf]; ring).
  rewrite (S 1 0)%nat, (S 2 0)%nat, (S 2 1)%nat. field. exact J0.
Qed.

Lemma G_0_2 J gs : length gs = 2%nat -> (forall g : list Qc, In g gs -> length g = 2%nat) ->
  map (fun km => J * J * G 2 gs (fst km) (snd km)) (pairs 3) =
  let l11 := J * J * G 2 gs 1 1 in let l12 := J * J * G 2 gs 1 2 in let l22 := J * J * G 2 gs 2 2 in
  [l11 + Q2Qc (2 # 1) * l12 + l22; - (l11 + l12); - (l12 + l22); l11; l12; l22].
Proof.
  intros L R. destruct (shape2 gs L R) as (p0 & p1 & q0 & q1 & ->). cbv [pairs upper_triangle seq map app fst snd]. cbv zeta.
  apply f_equal2; [|apply f_equal2; [|apply f_equal2; [|reflexivity]]]; unfold G, vdot, dotf, all_gradients; cbn [tab seq map sumf nth vat]; ring.
Qed.
Lemma G_0_3 J gs : length gs = 3%nat -> (forall g : list Qc, In g gs -> length g = 3%nat) ->
  map (fun km => J * J * G 3 gs (fst km) (snd km)) (pairs 4) =
  let l11 := J * J * G 3 gs 1 1 in let l12 := J * J * G 3 gs 1 2 in let l13 := J * J * G 3 gs 1 3 in
  let l22 := J * J * G 3 gs 2 2 in let l23 := J * J * G 3 gs 2 3 in let l33 := J * J * G 3 gs 3 3 in
  [l11 + l22 + l33 + Q2Qc (2 # 1) * (l12 + l13 + l23); - (l11 + l12 + l13); - (l12 + l22 + l23); - (l13 + l23 + l33);
   l11; l12; l13; l22; l23; l33].
Proof.
  intros L R. destruct (shape3 gs L R) as (p0 & p1 & p2 & q0 & q1 & q2 & r0 & r1 & r2 & ->). cbv [pairs upper_triangle seq map app fst snd]. cbv zeta.
  apply f_equal2; [|apply f_equal2; [|apply f_equal2; [|apply f_equal2; [|reflexivity]]]];
    unfold G, vdot, dotf, all_gradients; cbn [tab seq map sumf nth vat]; ring.
Qed.
Lemma over_half c J : J <> 0 -> qdiv c (J * one_half) = Ok (c * Q2Qc (2 # 1) * / J).
Proof.
  intros H. assert (K : one_half <> 0) by (intros E; apply (f_equal this) in E; vm_compute in E; discriminate E).
  rewrite qdiv_ok by (intros E; apply Qcmult_integral in E; tauto). f_equal.
  replace (Q2Qc (2 # 1)) with (/ one_half) by (apply Qc_is_canon; reflexivity). field. auto.
Qed.
Lemma over_sixth c J : J <> 0 -> qdiv c (J / qz 6) = Ok (c * Q2Qc (6 # 1) * / J).
Proof.
  intros H. assert (K : qz 6 <> 0) by (intros E; apply (f_equal this) in E; vm_compute in E; discriminate E).
  rewrite qdiv_ok by (intros E; apply H; transitivity (J / qz 6 * qz 6); [field; exact K|rewrite E; ring]). f_equal.
  change (Q2Qc (6 # 1)) with (qz 6). field. auto.
Qed.

Lemma bind_Ok {A B} (x : A) (f : A -> res B) : bind (Ok x) f = f x.
Proof. reflexivity. Qed.
Lemma reads2 {B} (a b c d e f : Qc) (k : Qc -> Qc -> Qc -> Qc -> Qc -> Qc -> res B) (ip := map Some [a; b; c; d; e; f]) :
  (l00 <- rd ip 0 ;; l01 <- rd ip 1 ;; l02 <- rd ip 2 ;; l11 <- rd ip 3 ;; l12 <- rd ip 4 ;; l22 <- rd ip 5 ;; k l00 l01 l02 l11 l12 l22) =
  k a b c d e f.
Proof. reflexivity. Qed.
Lemma reads3 {B} (a b c d e f g h i j : Qc) (k : Qc -> Qc -> Qc -> Qc -> Qc -> Qc -> Qc -> Qc -> Qc -> Qc -> res B)
    (ip := map Some [a; b; c; d; e; f; g; h; i; j]) :
  (l00 <- rd ip 0 ;; l01 <- rd ip 1 ;; l02 <- rd ip 2 ;; l03 <- rd ip 3 ;; l11 <- rd ip 4 ;; l12 <- rd ip 5 ;; l13 <- rd ip 6 ;;
   l22 <- rd ip 7 ;; l23 <- rd ip 8 ;; l33 <- rd ip 9 ;; k l00 l01 l02 l03 l11 l12 l13 l22 l23 l33) = k a b c d e f g h i j.
Proof. reflexivity. Qed.

Ltac stiff2 ps :=
  f_equal; f_equal; rewrite stiffness_table2 by auto;
  match goal with |- context [lin2 ?w ?a ?b ?c] => generalize w, a, b, c; intros w' l11' l12' l22' end;
  table2 (upper_triangle (ktab 2) ps); entries ltac:(unfold lin2; qring).
Ltac stiff3 ps :=
  f_equal; f_equal; rewrite stiffness_table3 by auto;
  match goal with |- context [lin3 ?w ?a ?b ?c ?d ?e ?f] => generalize w, a, b, c, d, e, f; intros w' l11' l12' l13' l22' l23' l33' end;
  table2 (upper_triangle (ktab 3) ps); entries ltac:(unfold lin3; qring).

Lemma mass_1_0 vs J contrib : is_simplex 1 vs -> magnitude J (det 1 vs) -> length contrib = 1%nat ->
  mass_1d_sym_P0_eval vs contrib = Ok (map Some (upper_triangle (mass_entry 1 J) [pconst 1 1])).
Proof.
  intros H HJ HC. unfold mass_1d_sym_P0_eval. rewrite (volume1 vs J H HJ). cbn [bind]. rewrite put_ok by (rewrite HC; reflexivity). mass 1%nat [pconst 1 1].
Qed.

Lemma mass_1_1 vs J contrib : is_simplex 1 vs -> magnitude J (det 1 vs) -> length contrib = 3%nat ->
  mass_1d_sym_P1_eval vs contrib = Ok (map Some (upper_triangle (mass_entry 1 J) (polysP1 1))).
Proof.
  intros H HJ HC. unfold mass_1d_sym_P1_eval. rewrite (volume1 vs J H HJ). cbn [bind]. rewrite put_ok by (rewrite HC; reflexivity). mass 1%nat (polysP1 1).
Qed.

Lemma mass_1_2 vs J contrib : is_simplex 1 vs -> magnitude J (det 1 vs) -> length contrib = 6%nat ->
  mass_1d_sym_P2_eval vs contrib = Ok (map Some (upper_triangle (mass_entry 1 J) (polysP2 1))).
Proof.
  intros H HJ HC. unfold mass_1d_sym_P2_eval. rewrite (volume1 vs J H HJ). cbn [bind]. rewrite put_ok by (rewrite HC; reflexivity). mass 1%nat (polysP2 1).
Qed.

Lemma mass_1_3 vs J contrib : is_simplex 1 vs -> magnitude J (det 1 vs) -> length contrib = 10%nat ->
  mass_1d_sym_P3_eval vs contrib = Ok (map Some (upper_triangle (mass_entry 1 J) (polysP3 1))).
Proof.
  intros H HJ HC. unfold mass_1d_sym_P3_eval. rewrite (volume1 vs J H HJ). cbn [bind]. rewrite put_ok by (rewrite HC; reflexivity). mass 1%nat (polysP3 1).
Qed.

Lemma stiffness_1_1 vs J gs contrib : is_simplex 1 vs -> magnitude J (det 1 vs) -> gradients_of 1 vs gs -> length contrib = 3%nat ->
  stiffness_1d_sym_P1_eval vs contrib = Ok (map Some (upper_triangle (stiffness_entry 1 J gs) (polysP1 1))).
Proof.
  intros H HJ HG HC. unfold stiffness_1d_sym_P1_eval. rewrite (volume1 vs J H HJ). cbn [bind].
  pose proof (magnitude_0 _ _ HJ (proj2 (proj2 H))) as J0. rewrite qdiv_ok by exact J0. cbn [bind]. rewrite put_ok by (rewrite HC; reflexivity).
  rewrite (stiffness_table1 vs J gs _ H HJ HG). unfold Qcdiv. generalize (/ J). intros w. f_equal. f_equal.
  table2 (upper_triangle (ktab 1) (polysP1 1)). entries ltac:(unfold lin1; qring).
Qed.

Lemma stiffness_1_2 vs J gs contrib : is_simplex 1 vs -> magnitude J (det 1 vs) -> gradients_of 1 vs gs -> length contrib = 6%nat ->
  stiffness_1d_sym_P2_eval vs contrib = Ok (map Some (upper_triangle (stiffness_entry 1 J gs) (polysP2 1))).
Proof.
  intros H HJ HG HC. unfold stiffness_1d_sym_P2_eval. rewrite (volume1 vs J H HJ). cbn [bind].
  pose proof (magnitude_0 _ _ HJ (proj2 (proj2 H))) as J0. rewrite qdiv_ok by exact J0. cbn [bind]. rewrite put_ok by (rewrite HC; reflexivity).
  rewrite (stiffness_table1 vs J gs _ H HJ HG). unfold Qcdiv. generalize (/ J). intros w. f_equal. f_equal.
  table2 (upper_triangle (ktab 1) (polysP2 1)). entries ltac:(unfold lin1; qring).
Qed.

Lemma stiffness_1_3 vs J gs contrib : is_simplex 1 vs -> magnitude J (det 1 vs) -> gradients_of 1 vs gs -> length contrib = 10%nat ->
  stiffness_1d_sym_P3_eval vs contrib = Ok (map Some (upper_triangle (stiffness_entry 1 J gs) (polysP3 1))).
Proof.
  intros H HJ HG HC. unfold stiffness_1d_sym_P3_eval. rewrite (volume1 vs J H HJ). cbn [bind].
  pose proof (magnitude_0 _ _ HJ (proj2 (proj2 H))) as J0. rewrite qdiv_ok by exact J0. cbn [bind]. rewrite put_ok by (rewrite HC; reflexivity).
  rewrite (stiffness_table1 vs J gs _ H HJ HG). unfold Qcdiv. generalize (/ J). intros w. f_equal. f_equal.
  table2 (upper_triangle (ktab 1) (polysP3 1)). entries ltac:(unfold lin1; qring).
Qed.

Lemma mass_2_0 vs J temp contrib : is_simplex 2 vs -> magnitude J (det 2 vs) -> shape 3 2 temp -> length contrib = 1%nat ->
  mass_2d_sym_P0_eval vs temp contrib = Ok (map Some (upper_triangle (mass_entry 2 J) [pconst 2 1])).
Proof.
  intros H HJ HT HC. destruct (volume2 vs J temp H HJ HT) as (t & E). unfold mass_2d_sym_P0_eval. rewrite E. cbn [bind]. rewrite put_ok by (rewrite HC; reflexivity). mass 2%nat [pconst 2 1].
Qed.

Lemma mass_2_1 vs J temp contrib : is_simplex 2 vs -> magnitude J (det 2 vs) -> shape 3 2 temp -> length contrib = 6%nat ->
  mass_2d_sym_P1_eval vs temp contrib = Ok (map Some (upper_triangle (mass_entry 2 J) (polysP1 2))).
Proof.
  intros H HJ HT HC. destruct (volume2 vs J temp H HJ HT) as (t & E). unfold mass_2d_sym_P1_eval. rewrite E. cbn [bind]. rewrite put_ok by (rewrite HC; reflexivity). mass 2%nat (polysP1 2).
Qed.

Lemma mass_2_2 vs J temp contrib : is_simplex 2 vs -> magnitude J (det 2 vs) -> shape 3 2 temp -> length contrib = 21%nat ->
  mass_2d_sym_P2_eval vs temp contrib = Ok (map Some (upper_triangle (mass_entry 2 J) (polysP2 2))).
Proof.
  intros H HJ HT HC. destruct (volume2 vs J temp H HJ HT) as (t & E). unfold mass_2d_sym_P2_eval. rewrite E. cbn [bind]. rewrite put_ok by (rewrite HC; reflexivity). mass 2%nat (polysP2 2).
Qed.

Lemma mass_2_3 vs J temp contrib : is_simplex 2 vs -> magnitude J (det 2 vs) -> shape 3 2 temp -> length contrib = 55%nat ->
  mass_2d_sym_P3_eval vs temp contrib = Ok (map Some (upper_triangle (mass_entry 2 J) (polysP3 2))).
Proof.
  intros H HJ HT HC. destruct (volume2 vs J temp H HJ HT) as (t & E). unfold mass_2d_sym_P3_eval. rewrite E. cbn [bind]. rewrite put_ok by (rewrite HC; reflexivity). mass 2%nat (polysP3 2).
Qed.

Lemma stiffness_2_1 vs J gs ip temp contrib : is_simplex 2 vs -> magnitude J (det 2 vs) -> gradients_of 2 vs gs ->
  shape 3 2 temp -> length ip = 6%nat -> length contrib = 6%nat ->
  stiffness_2d_sym_P1_eval vs ip temp contrib = Ok (map Some (upper_triangle (stiffness_entry 2 J gs) (polysP1 2))).
Proof.
  intros H HJ HG HT HI HC. destruct (products2 vs J temp ip gs H HJ HT HI HG) as (t & E). unfold stiffness_2d_sym_P1_eval. rewrite E. cbn [bind].
  pose proof (magnitude_0 _ _ HJ (proj2 (proj2 H))) as J0. rewrite over_half by exact J0. rewrite bind_Ok.
  rewrite G_0_2 by apply HG. cbv zeta. etransitivity; [apply reads2|]. cbv beta. rewrite put_ok by (rewrite HC; reflexivity). stiff2 (polysP1 2).
Qed.

Lemma stiffness_2_2 vs J gs ip temp contrib : is_simplex 2 vs -> magnitude J (det 2 vs) -> gradients_of 2 vs gs ->
  shape 3 2 temp -> length ip = 6%nat -> length contrib = 21%nat ->
  stiffness_2d_sym_P2_eval vs ip temp contrib = Ok (map Some (upper_triangle (stiffness_entry 2 J gs) (polysP2 2))).
Proof.
  intros H HJ HG HT HI HC. destruct (products2 vs J temp ip gs H HJ HT HI HG) as (t & E). unfold stiffness_2d_sym_P2_eval. rewrite E. cbn [bind].
  pose proof (magnitude_0 _ _ HJ (proj2 (proj2 H))) as J0. rewrite over_half by exact J0. rewrite bind_Ok.
  rewrite G_0_2 by apply HG. cbv zeta. etransitivity; [apply reads2|]. cbv beta. rewrite put_ok by (rewrite HC; reflexivity). stiff2 (polysP2 2).
Qed.

Lemma stiffness_2_3 vs J gs ip temp contrib : is_simplex 2 vs -> magnitude J (det 2 vs) -> gradients_of 2 vs gs ->
  shape 3 2 temp -> length ip = 6%nat -> length contrib = 55%nat ->
  stiffness_2d_sym_P3_eval vs ip temp contrib = Ok (map Some (upper_triangle (stiffness_entry 2 J gs) (polysP3 2))).
Proof.
  intros H HJ HG HT HI HC. destruct (products2 vs J temp ip gs H HJ HT HI HG) as (t & E). unfold stiffness_2d_sym_P3_eval. rewrite E. cbn [bind].
  pose proof (magnitude_0 _ _ HJ (proj2 (proj2 H))) as J0. rewrite over_half by exact J0. rewrite bind_Ok.
  rewrite G_0_2 by apply HG. cbv zeta. etransitivity; [apply reads2|]. cbv beta. rewrite put_ok by (rewrite HC; reflexivity). stiff2 (polysP3 2).
Qed.

Lemma mass_3_0 vs J temp contrib : is_simplex 3 vs -> magnitude J (det 3 vs) -> shape 4 3 temp -> length contrib = 1%nat ->
  mass_3d_sym_P0_eval vs temp contrib = Ok (map Some (upper_triangle (mass_entry 3 J) [pconst 3 1])).
Proof.
  intros H HJ HT HC. destruct (volume3 vs J temp H HJ HT) as (t & E). unfold mass_3d_sym_P0_eval. rewrite E. cbn [bind]. rewrite put_ok by (rewrite HC; reflexivity). mass 3%nat [pconst 3 1].
Qed.

Lemma mass_3_1 vs J temp contrib : is_simplex 3 vs -> magnitude J (det 3 vs) -> shape 4 3 temp -> length contrib = 10%nat ->
  mass_3d_sym_P1_eval vs temp contrib = Ok (map Some (upper_triangle (mass_entry 3 J) (polysP1 3))).
Proof.
  intros H HJ HT HC. destruct (volume3 vs J temp H HJ HT) as (t & E). unfold mass_3d_sym_P1_eval. rewrite E. cbn [bind]. rewrite put_ok by (rewrite HC; reflexivity). mass 3%nat (polysP1 3).
Qed.

Lemma mass_3_2 vs J temp contrib : is_simplex 3 vs -> magnitude J (det 3 vs) -> shape 4 3 temp -> length contrib = 55%nat ->
  mass_3d_sym_P2_eval vs temp contrib = Ok (map Some (upper_triangle (mass_entry 3 J) (polysP2 3))).
Proof.
  intros H HJ HT HC. destruct (volume3 vs J temp H HJ HT) as (t & E). unfold mass_3d_sym_P2_eval. rewrite E. cbn [bind]. rewrite put_ok by (rewrite HC; reflexivity). mass 3%nat (polysP2 3).
Qed.

Lemma mass_3_3 vs J temp contrib : is_simplex 3 vs -> magnitude J (det 3 vs) -> shape 4 3 temp -> length contrib = 210%nat ->
  mass_3d_sym_P3_eval vs temp contrib = Ok (map Some (upper_triangle (mass_entry 3 J) (polysP3 3))).
Proof.
  intros H HJ HT HC. destruct (volume3 vs J temp H HJ HT) as (t & E). unfold mass_3d_sym_P3_eval. rewrite E. cbn [bind]. rewrite put_ok by (rewrite HC; reflexivity). mass 3%nat (polysP3 3).
Qed.

Lemma stiffness_3_1 vs J gs ip temp contrib : is_simplex 3 vs -> magnitude J (det 3 vs) -> gradients_of 3 vs gs ->
  shape 10 3 temp -> length ip = 10%nat -> length contrib = 10%nat ->
  stiffness_3d_sym_P1_eval vs ip temp contrib = Ok (map Some (upper_triangle (stiffness_entry 3 J gs) (polysP1 3))).
Proof.
  intros H HJ HG HT HI HC. destruct (products3 vs J temp ip gs H HJ HT HI HG) as (t & E). unfold stiffness_3d_sym_P1_eval. rewrite E. cbn [bind].
  pose proof (magnitude_0 _ _ HJ (proj2 (proj2 H))) as J0. rewrite over_sixth by exact J0. rewrite bind_Ok.
  rewrite G_0_3 by apply HG. cbv zeta. etransitivity; [apply reads3|]. cbv beta. rewrite put_ok by (rewrite HC; reflexivity). stiff3 (polysP1 3).
Qed.

Lemma stiffness_3_2 vs J gs ip temp contrib : is_simplex 3 vs -> magnitude J (det 3 vs) -> gradients_of 3 vs gs ->
  shape 10 3 temp -> length ip = 10%nat -> length contrib = 55%nat ->
  stiffness_3d_sym_P2_eval vs ip temp contrib = Ok (map Some (upper_triangle (stiffness_entry 3 J gs) (polysP2 3))).
Proof.
  intros H HJ HG HT HI HC. destruct (products3 vs J temp ip gs H HJ HT HI HG) as (t & E). unfold stiffness_3d_sym_P2_eval. rewrite E. cbn [bind].
  pose proof (magnitude_0 _ _ HJ (proj2 (proj2 H))) as J0. rewrite over_sixth by exact J0. rewrite bind_Ok.
  rewrite G_0_3 by apply HG. cbv zeta. etransitivity; [apply reads3|]. cbv beta. rewrite put_ok by (rewrite HC; reflexivity). stiff3 (polysP2 3).
Qed.

Lemma stiffness_3_3 vs J gs ip temp contrib : is_simplex 3 vs -> magnitude J (det 3 vs) -> gradients_of 3 vs gs ->
  shape 10 3 temp -> length ip = 10%nat -> length contrib = 210%nat ->
  stiffness_3d_sym_P3_eval vs ip temp contrib = Ok (map Some (upper_triangle (stiffness_entry 3 J gs) (polysP3 3))).
Proof.
  intros H HJ HG HT HI HC. destruct (products3 vs J temp ip gs H HJ HT HI HG) as (t & E). unfold stiffness_3d_sym_P3_eval. rewrite E. cbn [bind].
  pose proof (magnitude_0 _ _ HJ (proj2 (proj2 H))) as J0. rewrite over_sixth by exact J0. rewrite bind_Ok.
  rewrite G_0_3 by apply HG. cbv zeta. etransitivity; [apply reads3|]. cbv beta. rewrite put_ok by (rewrite HC; reflexivity). stiff3 (polysP3 3).
Qed.
