(** Functions of two points that do not do what they should. *)
From Coq Require Import R_sqrt Ratan Rtrigo_def.
From Verif Require Import LinR InteractionModel TwoPointModel TwoPointSpec TwoPointProofs TwoPointProofs2 TwoPointProofs3 TwoPointProofs4 TwoPointProofs5.
Open Scope R_scope.
Set Default Proof Using "Type".

Lemma interface_not_sym : exists f x y, build (XInterface 1 1 true 0) = Ok f /\ tp_sym f = true /\ length x = 2%nat /\ length y = 2%nat /\
  tp_call f x y = Ok 1 /\ tp_call f y x = Ok (1 / 2).
Proof.
  eexists _, [-1; 1 / 2], [1; 1 / 2]. split; [reflexivity|]. unfold tp_call. cbn [interfaceTwoPoint tp_sym tp_eval length interface_evalPtr aget nth_error bind].
  unfold interface2, strip. repeat split; rcases; cbn [andb]; try lra; auto; unfold hf; f_equal; lra.
Qed.
Lemma matrix_not_agree : exists f, build (XMatrix [[2]]) = Ok f /\ tp_call f [0] [0] = Err EDiv0 /\ tp_evalPtr f 1 [0] [0] = Ok 1.
Proof.
  cbn [build]. unfold matrixTwoPoint. cbn [forallb length Nat.eqb andb guard bind]. destruct (matrix_symmetric [[2]]) as [b|] eqn:E.
  - cbn [bind]. eexists. split; [reflexivity|]. unfold tp_call. cbn [tp_eval tp_evalPtr length].
    destruct (matrix_diff_ok [[2]] 1 [0] [0] (le_n 1) (le_n 1) (le_n 1)) as (n & -> & L & V). cbn [bind].
    replace (gap2 1 [0] [0]) with 0 by (unfold gap2; cbn; ring). split.
    + unfold matrix_form. rewrite sqrt_0. cbn. destruct n as [|a n]; [discriminate|]. cbn. destruct (req_spec 0 0); [reflexivity|contradiction].
    + destruct (rlt_spec 0 0); [lra|reflexivity].
  - exfalso. unfold matrix_symmetric in E. cbn in E. repeat match type of E with context [rlt ?a ?b] => destruct (rlt_spec a b) end; discriminate.
Qed.
Lemma sum_wrong : exists o, build_order (OSum (OVarConst (1 / 2)) 1 (OVarConst (1 / 2)) 1) = Ok o /\
  tp_call (o_tp o) [0] [0] = Ok (1 / 4) /\ tp_evalPtr (o_tp o) 1 [0] [0] = Err EUninit /\ o_min o = 1 / 2 /\ o_max o = 1 / 2.
Proof.
  eexists. split; [reflexivity|]. unfold tp_call. cbn. split; [f_equal; field|split; [reflexivity|]].
  unfold Rmin, Rmax. destruct (Rle_dec (1 / 2) (1 / 2)); auto.
Qed.
Lemma innerOuter_fails sii soo r c0 c1 sio soi x y n : exists o, build_order (OInnerOuter 2 sii soo r [c0; c1] sio soi) = Ok o /\
  ((1 <= length x)%nat -> (1 <= length y)%nat -> tp_call (o_tp o) x y = Err EUninit /\ tp_evalPtr (o_tp o) n x y = Err EUninit).
Proof.
  eexists. split; [reflexivity|]. intros Hx Hy. destruct x as [|a x]; [cbn in Hx; lia|]. destruct y as [|b y]; [cbn in Hy; lia|]. split; reflexivity.
Qed.
Lemma smoothedInnerOuter_fails sl sr r radius : exists e, build_order (OSmoothedInnerOuter sl sr r radius) = Err e.
Proof.
  cbn [build_order]. unfold smoothedInnerOuterFractionalOrder. destruct (smoothStepRadial sl sr r radius); cbn; eexists; reflexivity.
Qed.
Lemma smoothed_wrong : exists f v, build (XSmoothed 0 1 1 1) = Ok f /\ tp_call f [-2] [0] = Ok v /\ v < 0.
Proof.
  assert (A1 : 0 < atan 1) by (rewrite <- atan_0; apply atan_increasing; lra).
  assert (A2 : atan 1 < atan 2) by (apply atan_increasing; lra).
  cbn [build]. unfold smoothedLeftRightTwoPoint, atan_fac. rewrite !Rmult_1_r. destruct (req_spec (atan 1) 0); [lra|]. cbn [bind].
  do 2 eexists. split; [reflexivity|]. split; [reflexivity|]. rewrite Rmult_1_r.
  replace (atan (-2)) with (- atan 2) by (rewrite <- atan_opp; f_equal; lra). unfold hf.
  assert (1 < atan 2 * (1 / atan 1)). { apply (Rmult_lt_reg_r (atan 1)); auto. replace (atan 2 * (1 / atan 1) * atan 1) with (atan 2) by (field; lra). lra. }
  lra.
Qed.
Definition boundary_lookup : lookup :=
  mk_lookup (fun x => Some (0%nat, [1 - nth 0 x 0; nth 0 x 0])) 2 1 (fun _ k => if Nat.eqb k 0 then 0%Z else (-1)%Z) (fun k b => nth k b 0).
Lemma lookup_boundary_fails sym x y : exists f, build (XLookup boundary_lookup [[1]] sym) = Ok f /\ tp_call f x y = Err EOob.
Proof. eexists. split; [reflexivity|]. unfold tp_call. cbn. reflexivity. Qed.
