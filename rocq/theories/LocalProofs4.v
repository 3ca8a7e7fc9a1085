(** Mixed, Nedelec and convection matrices, and the gradients of simplexComputations. *)
From Verif Require Import Util Lin MeshSpec MeshModel BaryModel BarySpec BaryProofs LocalModel LocalTables LocalSpec LocalProofs LocalProofs2 LocalProofs3.
Set Default Proof Using "Type".
Local Open Scope Qc_scope.

Lemma full_matrix_map {A B C D} (F : C -> D) (g : A -> B -> C) ps qs : full_matrix (fun p q => F (g p q)) ps qs = map F (full_matrix g ps qs).
Proof. unfold full_matrix. induction ps as [|p ps IH]; cbn [flat_map]; [reflexivity|]. rewrite map_app, map_map, IH. reflexivity. Qed.
Lemma mixed_table d J ps qs : full_matrix (mass_entry d J) ps qs = map (Qcmult J) (full_matrix (mtab d) ps qs).
Proof. exact (full_matrix_map (Qcmult J) (mtab d) ps qs). Qed.
Ltac mixed d := f_equal; f_equal; rewrite mixed_table, ?sixth, ?half_q; table (full_matrix (mtab d) [pconst d 1] (polysP1 d)); entries qring.

Lemma mixed_1 vs J contrib : is_simplex 1 vs -> magnitude J (det 1 vs) -> length contrib = 2%nat ->
  mass_1d_nonsym_P0_P1_eval vs contrib = Ok (map Some (full_matrix (mass_entry 1 J) [pconst 1 1] (polysP1 1))).
Proof. intros H HJ HC. unfold mass_1d_nonsym_P0_P1_eval. rewrite (volume1 vs J H HJ). cbn [bind]. rewrite put_ok by (rewrite HC; reflexivity). mixed 1%nat. Qed.
Lemma mixed_2 vs J temp contrib : is_simplex 2 vs -> magnitude J (det 2 vs) -> shape 3 2 temp -> length contrib = 3%nat ->
  mass_2d_nonsym_P0_P1_eval vs temp contrib = Ok (map Some (full_matrix (mass_entry 2 J) [pconst 2 1] (polysP1 2))).
Proof.
  intros H HJ HT HC. destruct (volume2 vs J temp H HJ HT) as (t & E). unfold mass_2d_nonsym_P0_P1_eval. rewrite E. cbn [bind].
  rewrite put_ok by (rewrite HC; reflexivity). mixed 2%nat.
Qed.
Lemma mixed_3 vs J temp contrib : is_simplex 3 vs -> magnitude J (det 3 vs) -> shape 4 3 temp -> length contrib = 4%nat ->
  mass_3d_nonsym_P0_P1_eval vs temp contrib = Ok (map Some (full_matrix (mass_entry 3 J) [pconst 3 1] (polysP1 3))).
Proof.
  intros H HJ HT HC. destruct (volume3 vs J temp H HJ HT) as (t & E). unfold mass_3d_nonsym_P0_P1_eval. rewrite E. cbn [bind].
  rewrite put_ok by (rewrite HC; reflexivity). mixed 3%nat.
Qed.

(** ** Nedelec *)
Lemma N1e_fields cell gs x : length cell = 3%nat -> length gs = 2%nat -> (forall g : list Qc, In g gs -> length g = 2%nat) ->
  map (fun f => f (bary 2 x) (all_gradients 2 gs)) (shapesN1e_2d cell) = map (fun v => field_value 2 gs v x) (edge_fields cell).
Proof.
  intros HC L R. destruct (len3_list cell HC) as (c0 & c1 & c2 & ->). destruct (shape2 gs L R) as (p0 & p1 & q0 & q1 & ->).
  unfold shapesN1e_2d, edge_fields. cbn [map fst snd].
  apply f_equal2; [|apply f_equal2; [|apply f_equal2; [|reflexivity]]]; unfold shapeN1e, edge_sign, field_value; cbn [nth];
  match goal with |- context [(?a <? ?b)%nat] => destruct (a <? b)%nat end; cbn [tab seq map edge_field Nat.eqb nth sumf];
  (apply f_equal2; [|apply f_equal2; [|reflexivity]]);
  rewrite ?value_pscale, ?value_pconst, ?value_pbary by lia; rewrite ?half_q; cbn [all_gradients tab seq map nth vat]; ring.
Qed.

Lemma orient_ok cell a b : length cell = 3%nat -> (a < 3)%nat -> (b < 3)%nat -> orient cell a b = Ok (edge_sign cell a b).
Proof.
  intros H Ha Hb. destruct (len3_list cell H) as (c0 & c1 & c2 & ->).
  destruct a as [|[|[|a]]]; try lia; destruct b as [|[|[|b]]]; try lia; reflexivity.
Qed.
Lemma edge_sign_cases cell i j : edge_sign cell i j = 1 \/ edge_sign cell i j = - (1).
Proof. unfold edge_sign. destruct (_ <? _)%nat; auto. Qed.

Definition ftab (v w : list (poly 2)) : list Qc :=
  flat_map (fun k => map (fun m => integral 2 (pmul 2 (nth k v (pconst 2 0)) (nth m w (pconst 2 0)))) (seq 0 3)) (seq 0 3).
Definition flin (w l00 l01 l02 l11 l12 l22 : Qc) (K : list Qc) : Qc :=
  match K with
  | [k00; k01; k02; k10; k11; k12; k20; k21; k22] =>
      w * (l00 * k00 + l01 * k01 + l02 * k02 + (l01 * k10 + l11 * k11 + l12 * k12) + (l02 * k20 + l12 * k21 + l22 * k22))
  | _ => 0
  end.
Lemma field_table J gs vs : J <> 0 ->
  upper_triangle (field_product 2 J gs) vs =
  map (flin (/ J) (J * J * G 2 gs 0 0) (J * J * G 2 gs 0 1) (J * J * G 2 gs 0 2) (J * J * G 2 gs 1 1) (J * J * G 2 gs 1 2) (J * J * G 2 gs 2 2))
    (upper_triangle ftab vs).
Proof.
  intros J0. rewrite <- upper_triangle_map. apply upper_triangle_ext. intros p q. unfold field_product, ftab.
  assert (S : forall i j, G 2 gs i j = G 2 gs j i) by (intros; unfold G, vdot, dotf; cbn [sumf]; ring).
  cbn [seq flat_map map app flin]. cbn [sumf]. fold (G 2 gs). unfold G in S |- *.
  rewrite (S 1 0)%nat, (S 2 0)%nat, (S 2 1)%nat. field. exact J0.
Qed.

Lemma pairs3 {B} (f : nat -> nat -> B) :
  map (fun km => f (fst km) (snd km)) (pairs 3) = [f 0 0; f 0 1; f 0 2; f 1 1; f 1 2; f 2 2]%nat.
Proof. reflexivity. Qed.
Lemma mass_N1e vs J gs cell ip temp contrib : is_simplex 2 vs -> magnitude J (det 2 vs) -> gradients_of 2 vs gs -> length cell = 3%nat ->
  shape 3 2 temp -> length ip = 6%nat -> length contrib = 6%nat ->
  mass_2d_sym_N1e_eval cell vs ip temp contrib = Ok (map Some (upper_triangle (field_product 2 J gs) (edge_fields cell))).
Proof.
  intros H HJ HG HCl HT HI HC. destruct (products2 vs J temp ip gs H HJ HT HI HG) as (t & E). unfold mass_2d_sym_N1e_eval. rewrite E. cbn [bind].
  pose proof (magnitude_0 _ _ HJ (proj2 (proj2 H))) as J0. rewrite over_half by exact J0. rewrite bind_Ok.
  rewrite (pairs3 (fun k m => J * J * G 2 gs k m)). etransitivity; [apply reads2|]. cbv beta.
  rewrite !orient_ok by (auto; lia). rewrite !bind_Ok. rewrite put_ok by (rewrite HC; reflexivity). f_equal. f_equal. rewrite field_table by exact J0.
  unfold edge_fields. cbn [map fst snd].
  generalize (/ J), (J * J * G 2 gs 0 0), (J * J * G 2 gs 0 1), (J * J * G 2 gs 0 2), (J * J * G 2 gs 1 1), (J * J * G 2 gs 1 2), (J * J * G 2 gs 2 2).
  intros w l00 l01 l02 l11 l12 l22. replace (qf 1 48 / qz 4) with (Q2Qc (1 # 192)) by (apply Qc_is_canon; reflexivity).
  destruct (edge_sign_cases cell 0 1) as [E1 | E1], (edge_sign_cases cell 1 2) as [E2 | E2], (edge_sign_cases cell 2 0) as [E3 | E3]; rewrite E1, E2, E3;
  match goal with |- _ = map _ ?T => table2 T end; entries ltac:(unfold flin; qring).
Qed.

Lemma inv1 : / Q2Qc 1 = 1. Proof. reflexivity. Qed.
Lemma inv2 : / Q2Qc 2 = Q2Qc (1 # 2). Proof. reflexivity. Qed.
Lemma inv3 : / Q2Qc 3 = Q2Qc (1 # 3). Proof. reflexivity. Qed.
Lemma inv4 : / Q2Qc 4 = Q2Qc (1 # 4). Proof. reflexivity. Qed.
Lemma inv5 : / Q2Qc 5 = Q2Qc (1 # 5). Proof. reflexivity. Qed.
(** The curl of every edge function is constant. *)
Lemma curl_pair (s s' p0 p1 q0 q1 : Qc) i j i' j' : In (i, j) [(0, 1); (1, 2); (2, 0)]%nat -> In (i', j') [(0, 1); (1, 2); (2, 0)]%nat ->
  integral 2 (pmul 2 (curl2 [[p0; p1]; [q0; q1]] (edge_field s i j)) (curl2 [[p0; p1]; [q0; q1]] (edge_field s' i' j'))) =
  s * s' * Q2Qc (1 # 2) * ((p0 * q1 - p1 * q0) * (p0 * q1 - p1 * q0)).
Proof.
  intros [X | [X | [X | []]]] [Y | [Y | [Y | []]]]; inversion X; inversion Y; subst;
  match goal with |- ?l = _ => let v := eval cbv -[Qcplus Qcmult Qcminus Qcopp Q2Qc Qcinv] in l in change l with v end;
  rewrite ?inv1, ?inv2, ?inv3, ?inv4, ?inv5; ring.
Qed.

Lemma curlcurl_N1e vs J gs cell ip temp contrib : is_simplex 2 vs -> magnitude J (det 2 vs) -> gradients_of 2 vs gs -> length cell = 3%nat ->
  shape 3 2 temp -> length ip = 6%nat -> length contrib = 6%nat ->
  curlcurl_2d_sym_N1e_eval cell vs ip temp contrib =
  Ok (map (fun e => Some (J * J * e)) (upper_triangle (curl_product J gs) (edge_fields cell))).
Proof.
  intros H HJ HG HCl HT HI HC. destruct (products2 vs J temp ip gs H HJ HT HI HG) as (t & E). unfold curlcurl_2d_sym_N1e_eval. rewrite E. cbn [bind].
  pose proof (magnitude_0 _ _ HJ (proj2 (proj2 H))) as J0. rewrite over_half by exact J0. rewrite bind_Ok.
  rewrite (pairs3 (fun k m => J * J * G 2 gs k m)). etransitivity; [apply reads2|]. cbv beta.
  rewrite !orient_ok by (auto; lia). rewrite !bind_Ok. rewrite put_ok by (rewrite HC; reflexivity). f_equal.
  destruct HG as (L & R & _). destruct (shape2 gs L R) as (p0 & p1 & q0 & q1 & ->).
  unfold edge_fields. cbn [map fst snd upper_triangle app]. unfold curl_product. rewrite !curl_pair by (cbn; auto).
  cbv [G vdot dotf all_gradients tab sumf nth vat seq map].
  destruct (edge_sign_cases cell 0 1) as [E1 | E1], (edge_sign_cases cell 1 2) as [E2 | E2], (edge_sign_cases cell 2 0) as [E3 | E3]; rewrite E1, E2, E3;
  entries ltac:(f_equal; unfold qf; replace (Q2Qc (1 # 4) * Q2Qc 2) with (Q2Qc (1 # 2)) by (apply Qc_is_canon; reflexivity); field; exact J0).
Qed.

(** ** The discrete gradient and the discrete curl *)
Lemma gradient_N1e cell contrib : length cell = 3%nat -> length contrib = 9%nat ->
  exists m, discrete_gradient_2d_N1e_P1_eval cell contrib = Ok (map Some m) /\ length m = 9%nat /\
  (forall gs x (u : nat -> Qc) k, length gs = 2%nat -> (forall g : list Qc, In g gs -> length g = 2%nat) -> (k < 2)%nat ->
    sumf 3 (fun e => sumf 3 (fun j => vat m (e * 3 + j) * u j) * vat (field_value 2 gs (nth e (edge_fields cell) []) x) k) =
    Q2Qc (1 # 2) * sumf 3 (fun j => u j * vat (nth j (all_gradients 2 gs) []) k)) /\
  (forall contrib', length contrib' = 3%nat -> exists c, discrete_curl_2d_P0_N1e_eval cell contrib' = Ok (map Some c) /\ length c = 3%nat /\
    (forall j, (j < 3)%nat -> sumf 3 (fun e => vat c e * vat m (e * 3 + j)) = 0)).
Proof.
  intros HC HL. unfold discrete_gradient_2d_N1e_P1_eval. rewrite !orient_ok by (auto; lia). rewrite !bind_Ok. rewrite put_ok by (rewrite HL; reflexivity).
  eexists. split; [reflexivity|]. split; [reflexivity|]. split.
  - intros gs x u k L R Hk. destruct (shape2 gs L R) as (p0 & p1 & q0 & q1 & ->).
    unfold edge_fields. cbn [map fst snd nth sumf vat Nat.mul Nat.add]. unfold field_value. rewrite !vat_tab by exact Hk.
    cbn [tab seq map edge_field Nat.eqb nth sumf all_gradients]. rewrite ?value_pscale, ?value_pconst, ?value_pbary by lia.
    cbn [bary vat nth tab seq map sumf].
    destruct (edge_sign_cases cell 0 1) as [E1 | E1], (edge_sign_cases cell 1 2) as [E2 | E2], (edge_sign_cases cell 2 0) as [E3 | E3]; rewrite E1, E2, E3;
    destruct k as [|[|k]]; try lia; cbn [vat nth]; ring.
  - intros contrib' HL'. unfold discrete_curl_2d_P0_N1e_eval. rewrite !orient_ok by (auto; lia). rewrite !bind_Ok. rewrite put_ok by (rewrite HL'; reflexivity).
    eexists. split; [reflexivity|]. split; [reflexivity|]. intros j Hj.
    destruct (edge_sign_cases cell 0 1) as [E1 | E1], (edge_sign_cases cell 1 2) as [E2 | E2], (edge_sign_cases cell 2 0) as [E3 | E3]; rewrite E1, E2, E3;
    destruct j as [|[|[|j]]]; try lia; cbn [sumf vat nth Nat.mul Nat.add]; ring.
Qed.
Lemma curl_N1e vs gs cell contrib : is_simplex 2 vs -> gradients_of 2 vs gs -> length cell = 3%nat -> length contrib = 3%nat ->
  exists m, discrete_curl_2d_P0_N1e_eval cell contrib = Ok (map Some m) /\ length m = 3%nat /\
  forall x e, (e < 3)%nat -> value 2 (curl2 gs (nth e (edge_fields cell) [])) x * det 2 vs = vat m e.
Proof.
  intros H HG HC HL. unfold discrete_curl_2d_P0_N1e_eval. rewrite !orient_ok by (auto; lia). rewrite !bind_Ok. rewrite put_ok by (rewrite HL; reflexivity).
  eexists. split; [reflexivity|]. split; [reflexivity|]. intros x e He.
  destruct (simplex2 vs H) as (a0 & a1 & b0 & b1 & c0 & c1 & ->). destruct H as (_ & _ & HD).
  pose proof (gradients2 _ _ _ _ _ _ _ HD HG) as Eg. cbv zeta in Eg. set (D := det 2 _) in *.
  assert (X : D = (b0 - a0) * (c1 - a1) - (b1 - a1) * (c0 - a0)) by reflexivity.
  assert (C : ((c1 - a1) / D * ((b0 - a0) / D) - (a0 - c0) / D * ((a1 - b1) / D)) * D = 1).
  { transitivity (((b0 - a0) * (c1 - a1) - (b1 - a1) * (c0 - a0)) / D); [field; exact HD|]. rewrite <- X. field. exact HD. }
  revert Eg C. generalize ((c1 - a1) / D) as p0, ((a0 - c0) / D) as p1, ((a1 - b1) / D) as q0, ((b0 - a0) / D) as q1. clearbody D. intros p0 p1 q0 q1 -> C.
  unfold edge_fields. cbn [map fst snd].
  assert (V : forall s i j, In (i, j) [(0, 1); (1, 2); (2, 0)]%nat -> value 2 (curl2 [[p0; p1]; [q0; q1]] (edge_field s i j)) x = s * (p0 * q1 - p1 * q0)).
  { intros s i j [Y | [Y | [Y | []]]]; inversion Y; subst;
    match goal with |- ?l = _ => let v := eval cbv -[Qcplus Qcmult Qcminus Qcopp Q2Qc Qcinv] in l in change l with v end; ring. }
  assert (F : forall s, s * (p0 * q1 - p1 * q0) * D = s) by (intros s; rewrite <- Qcmult_assoc, C; ring).
  destruct e as [|[|[|e]]]; try lia; cbn [nth vat]; rewrite V by (cbn; auto); apply F.
Qed.

(** ** Convection *)
Lemma third (a : Qc) : a / qz (Z.of_nat 3) = a * qf 1 3.
Proof. unfold Qcdiv. f_equal. Qed.
Lemma halve (a : Qc) : a / qz (Z.of_nat 2) = a * one_half.
Proof. unfold Qcdiv. f_equal. Qed.
Definition dtab (d : nat) : list Qc := map (integral d) (polysP1 d).
Lemma drift_1 coeff vs gs contrib : is_simplex 1 vs -> gradients_of 1 vs gs -> (forall p, length (coeff p) = 1%nat) -> length contrib = 4%nat ->
  drift_1d_P1_eval coeff vs contrib = Ok (map Some (full_matrix (drift_entry 1 (det 1 vs) gs (coeff (centroid 1 vs))) (polysP1 1) (seq 0 2))).
Proof.
  intros H HG HF HC. destruct (simplex1 vs H) as (a & b & ->). destruct H as (_ & _ & HD). cbn [det len1 vat nth] in HD.
  pose proof (gradients1 _ _ _ HD HG) as ->. unfold drift_1d_P1_eval. cbn -[Qcplus Qcmult Qcminus Qcopp qabs one_half put map seq full_matrix].
  assert (EC : centroid 1 [[a]; [b]] = [(0 + a + b) * one_half]).
  { unfold centroid. cbn [tab seq map vat nth]. rewrite halve. f_equal. unfold suml. cbn [fold_right]. ring. }
  rewrite EC. destruct (len1_list' (coeff [(0 + a + b) * one_half]) (HF _)) as (c & ->). cbn [aget nth_error]. cbn [bind].
  rewrite put_ok by (rewrite HC; reflexivity). f_equal. f_equal.
  assert (I0 : integral 1 (nth 0 (polysP1 1) []) = Q2Qc (1 # 2)) by (apply Qc_is_canon; vm_compute; reflexivity).
  assert (I1 : integral 1 (nth 1 (polysP1 1) []) = Q2Qc (1 # 2)) by (apply Qc_is_canon; vm_compute; reflexivity).
  change (polysP1 1) with [nth 0 (polysP1 1) []; nth 1 (polysP1 1) []]. unfold full_matrix. cbn [flat_map map seq app]. unfold drift_entry. rewrite I0, I1.
  cbv [vdot dotf all_gradients tab sumf nth vat seq map det len1]. rewrite half_q.
  entries ltac:(field; exact HD).
Qed.
Lemma drift_2 coeff vs gs contrib : is_simplex 2 vs -> gradients_of 2 vs gs -> (forall p, length (coeff p) = 2%nat) -> length contrib = 9%nat ->
  drift_2d_P1_eval coeff vs contrib = Ok (map Some (full_matrix (drift_entry 2 (det 2 vs) gs (coeff (centroid 2 vs))) (polysP1 2) (seq 0 3))).
Proof.
  intros H HG HF HC. destruct (simplex2 vs H) as (a0 & a1 & b0 & b1 & c0 & c1 & ->). destruct H as (_ & _ & HD).
  pose proof (gradients2 _ _ _ _ _ _ _ HD HG) as Eg. cbv zeta in Eg. rewrite Eg. clear Eg HG. unfold drift_2d_P1_eval.
  cbn -[Qcplus Qcmult Qcminus Qcopp qabs one_half put map seq full_matrix det centroid qf mydot_rot2D].
  assert (EC : centroid 2 [[a0; a1]; [b0; b1]; [c0; c1]] = [(0 + a0 + b0 + c0) * qf 1 3; (0 + a1 + b1 + c1) * qf 1 3]).
  { unfold centroid. cbn [tab seq map vat nth]. rewrite !third. f_equal; [|f_equal]; f_equal; unfold suml; cbn [fold_right]; ring. }
  rewrite EC. destruct (len2_list (coeff [(0 + a0 + b0 + c0) * qf 1 3; (0 + a1 + b1 + c1) * qf 1 3]) (HF _)) as (k0 & k1 & ->).
  unfold mydot_rot2D. cbn [aget nth_error]. rewrite !bind_Ok. rewrite put_ok by (rewrite HC; reflexivity). f_equal. f_equal.
  assert (IT : forall i, (i < 3)%nat -> integral 2 (nth i (polysP1 2) []) = Q2Qc (1 # 6)).
  { intros i Hi. destruct i as [|[|[|i]]]; try lia; apply Qc_is_canon; vm_compute; reflexivity. }
  change (polysP1 2) with [nth 0 (polysP1 2) []; nth 1 (polysP1 2) []; nth 2 (polysP1 2) []]. unfold full_matrix. cbn [flat_map map seq app].
  unfold drift_entry. rewrite !IT by lia. set (D := det 2 _) in *. clearbody D.
  cbv [vdot dotf all_gradients tab sumf nth vat seq map]. rewrite half_q. unfold qf.
  replace (Q2Qc (1 # 6)) with (Q2Qc (1 # 2) * Q2Qc (1 # 3)) by (apply Qc_is_canon; reflexivity).
  entries ltac:(field; exact HD).
Qed.

(** ** simplexComputations *)
Definition spread (d : nat) (s : Qc) (gs : list (list Qc)) : list (buf Qc) := map (map (fun x => Some (s * x))) (all_gradients d gs).
Lemma computations1 vs J gs grad ip : is_simplex 1 vs -> magnitude J (det 1 vs) -> gradients_of 1 vs gs -> shape 2 1 grad -> length ip = 3%nat ->
  gradients1D vs grad ip = Ok (J, spread 1 (- (det 1 vs / J)) gs, map Some (map (fun km => J * G 1 gs (fst km) (snd km)) (pairs 2))).
Proof.
  intros H HJ HG HT HI. destruct (simplex1 vs H) as (a & b & ->). destruct H as (_ & _ & HD).
  cbn [det len1 vat nth] in HD, HJ |- *. pose proof (gradients1 _ _ _ HD HG) as ->. pose proof (magnitude_0 _ _ HJ HD) as J0. rows HT.
  unfold gradients1D. cbn -[Qcplus Qcmult Qcminus Qcopp qabs one_half put map seq pairs qdiv spread].
  rewrite (qabs_is J _ (a - b) HJ) by (right; ring). rewrite qdiv_ok by exact J0.
  cbn -[Qcplus Qcmult Qcminus Qcopp Qcdiv qabs one_half put map seq pairs spread]. rewrite put_ok by reflexivity. rewrite bind_Ok.
  pose proof (magnitude_square _ _ HJ) as JJ.
  cbv [pairs upper_triangle seq map app fst snd G vdot dotf all_gradients tab sumf nth vat spread].
  assert (X : forall k, J * (k * (1 / ((b - a) * (b - a)))) = k / J) by (intros k; rewrite <- JJ; field; exact J0).
  f_equal. f_equal; [f_equal|].
  - entries ltac:(f_equal; f_equal; field; split; auto).
  - entries ltac:(f_equal).
    + transitivity (J * (1 * (1 / ((b - a) * (b - a))))); [rewrite X; field; exact J0|field; exact HD].
    + transitivity (J * (- (1) * (1 / ((b - a) * (b - a))))); [rewrite X; field; exact J0|field; exact HD].
    + transitivity (J * (1 * (1 / ((b - a) * (b - a))))); [rewrite X; field; exact J0|field; exact HD].
Qed.
