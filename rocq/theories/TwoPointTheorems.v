(** C56: functions of two points and fractional orders. *)
From Coq Require Import R_sqrt Ratan Rtrigo_def.
From Verif Require Import LinR InteractionModel TwoPointModel TwoPointSpec TwoPointProofs TwoPointProofs2 TwoPointProofs3 TwoPointProofs4 TwoPointProofs5 TwoPointProofs6 TwoPointProofs7.
Open Scope R_scope.
Set Default Proof Using "Type".

(** A function that says of itself that it is symmetric is so: for every
    combination of the constructors, products and inverses, the values (or the
    errors) at (x, y) and at (y, x) are the same through both methods. *)
Theorem C56_symmetric : forall n e f, build e = Ok f -> honest n e -> tp_sym f = true -> symmetric_on n f.
Proof. exact build_sym. Qed.
Example C56_symmetric_ex : exists f, build (XMul (XLeftRight 1 2 None (Some (3 / 2)) 0) (XTempered 1 1)) = Ok f /\
  honest 1 (XMul (XLeftRight 1 2 None (Some (3 / 2)) 0) (XTempered 1 1)) /\ tp_sym f = true /\ tp_call f [-1] [1] = Ok (3 / 2 * exp (- 1 * sqrt 4)).
Proof.
  eexists. split; [reflexivity|]. split; [cbn; auto|]. unfold tp_call. cbn. unfold hf. split.
  - match goal with |- context [req ?a ?b] => destruct (req_spec a b) end; cbn [andb]; auto. lra.
  - destruct (rlt_spec (-1) 0); [|lra]. destruct (rlt_spec 1 0); [lra|]. do 2 f_equal; [lra|]. do 3 f_equal. ring.
Qed.
Print Assumptions C56_symmetric.

(** Two dimensions of interfaceTwoPoint: symmetric by name, not by value. *)
Theorem C56_symmetric_refuted : exists f x y, build (XInterface 1 1 true 0) = Ok f /\ tp_sym f = true /\ length x = 2%nat /\ length y = 2%nat /\
  tp_call f x y = Ok 1 /\ tp_call f y x = Ok (1 / 2).
Proof. exact interface_not_sym. Qed.
Print Assumptions C56_symmetric_refuted.

(** __call__ and the method for pointers used by the assembly agree. *)
Theorem C56_methods : forall n e f, build e = Ok f -> plain n e -> methods_agree n f.
Proof. exact build_agree. Qed.
Example C56_methods_ex : exists f, build (XInverse (XMul (XConst 2) (XOrder (OIslands 1 2 3 4 None None)))) = Ok f /\
  plain 2 (XInverse (XMul (XConst 2) (XOrder (OIslands 1 2 3 4 None None)))) /\ tp_call f [0; 0] [0; 0] = Ok (1 / 4).
Proof.
  eexists. split; [reflexivity|]. split; [cbn; auto|]. unfold tp_call. cbn. rewrite Rabs_R0. destruct (rle_spec 3 0); [lra|]. cbn.
  unfold inv_value. destruct (req_spec (2 * 2) 0); [lra|]. f_equal; field.
Qed.
Print Assumptions C56_methods.

(** matrixTwoPoint where the points coincide: one method divides by zero, the other gives one. *)
Theorem C56_methods_refuted : exists f, build (XMatrix [[2]]) = Ok f /\ tp_call f [0] [0] = Err EDiv0 /\ tp_evalPtr f 1 [0] [0] = Ok 1.
Proof. exact matrix_not_agree. Qed.
Print Assumptions C56_methods_refuted.

(** The attributes min and max bound all values of an order. *)
Theorem C56_range : forall e o, build_order e = Ok o -> range_ok e -> in_range o.
Proof. exact order_range. Qed.
Example C56_range_ex : exists o, build_order (OLeftRight (1 / 4) (3 / 4) None (Some 1) 0) = Ok o /\ range_ok (OLeftRight (1 / 4) (3 / 4) None (Some 1) 0) /\
  o_min o = 1 / 4 /\ o_max o = 1.
Proof.
  eexists. split; [reflexivity|]. split; [exact I|]. cbn. unfold hf, min4, max4. split;
  repeat match goal with
  | |- context [Rmin ?a ?b] => first [rewrite (Rmin_left a b) by lra|rewrite (Rmin_right a b) by lra]
  | |- context [Rmax ?a ?b] => first [rewrite (Rmax_left a b) by lra|rewrite (Rmax_right a b) by lra]
  end; lra.
Qed.
Print Assumptions C56_range.

(** The sum of orders 1/2 and 1/2 has the value 1/4 (the values are multiplied),
    outside its own bounds, and the method for pointers reads parameters that were never set. *)
Theorem C56_sum_refuted : exists o, build_order (OSum (OVarConst (1 / 2)) 1 (OVarConst (1 / 2)) 1) = Ok o /\
  tp_call (o_tp o) [0] [0] = Ok (1 / 4) /\ tp_evalPtr (o_tp o) 1 [0] [0] = Err EUninit /\ o_min o = 1 / 2 /\ o_max o = 1 / 2.
Proof. exact sum_wrong. Qed.
Print Assumptions C56_sum_refuted.

(** evalGrad gives the gradient with respect to the parameters: orders are linear
    in them, the value at any parameters is the inner product with it. *)
Theorem C56_gradient : forall e o p x y g0, build_order e = Ok o -> parameters e = Some p -> evaluable e x -> length g0 = o_num o ->
  exists g, o_grad o x y g0 = Ok (map Some g) /\ o_gradPtr o (length x) x y g0 = Ok (map Some g) /\
  length g = o_num o /\ length p = o_num o /\
  forall p' o', length p' = length p -> build_order (with_parameters e p') = Ok o' ->
  tp_call (o_tp o') x y = Ok (dot (o_num o) g p').
Proof. exact order_gradient. Qed.
Example C56_gradient_ex : exists o, build_order (OLinearLeftRight (1 / 4) (3 / 4) 1 0) = Ok o /\
  parameters (OLinearLeftRight (1 / 4) (3 / 4) 1 0) = Some [1 / 4; 3 / 4] /\ evaluable (OLinearLeftRight (1 / 4) (3 / 4) 1 0) [1 / 2] /\
  o_grad o [1 / 2] [0] (alloc 2) = Ok [Some (1 / 4); Some (3 / 4)].
Proof.
  cbn [build_order]. unfold linearLeftRightFractionalOrder, linearStep, div. destruct (req_spec 1 0); [lra|]. cbn [bind].
  eexists. split; [reflexivity|]. split; [reflexivity|]. split; [cbn; lia|]. cbn. unfold ls_grad, put2. cbn [aget nth_error bind].
  destruct (rlt_spec (1 / 2) (0 - 1)); [lra|]. destruct (rlt_spec (0 + 1) (1 / 2)); [lra|]. unfold div. destruct (req_spec 1 0); [contradiction|].
  cbn. unfold hf. repeat first [reflexivity|lra|f_equal].
Qed.
Print Assumptions C56_gradient.

(** f*g has the value of f times the value of g, also where one of them is a
    constant and both are merged. *)
Theorem C56_product : forall n a b f1 f2 f x y, build a = Ok f1 -> build b = Ok f2 -> build (XMul a b) = Ok f -> plain n a -> plain n b ->
  length x = n -> length y = n -> tp_call f x y = (v1 <- tp_call f1 x y ;; v2 <- tp_call f2 x y ;; Ok (v1 * v2)).
Proof. exact mul_value. Qed.
Example C56_product_ex : exists f, build (XMul (XConst 2) (XUnsym 3 4)) = Ok f /\ tp_call f [0] [1] = Ok 6.
Proof. eexists. split; [reflexivity|]. unfold tp_call. cbn. destruct (rlt_spec 0 1); [|lra]. f_equal; lra. Qed.
Print Assumptions C56_product.

(** Orders and functions that choose one of four values. *)
Theorem C56_leftRight : forall sll srr slr srl itf n x y, (1 <= length x)%nat -> (1 <= length y)%nat ->
  exists o v, build_order (OLeftRight sll srr slr srl itf) = Ok o /\ tp_call (o_tp o) x y = Ok v /\ tp_evalPtr (o_tp o) n x y = Ok v /\
  choose (left_of itf) x y sll (default sll srr slr) (default sll srr srl) srr v.
Proof. exact order_leftRight. Qed.
Example C56_leftRight_ex : left_of 0 [-1] /\ ~ left_of 0 [0] /\ default 1 2 None = 3 / 2 /\ default 1 2 (Some 5) = 5.
Proof. unfold left_of. cbn. repeat split; lra. Qed.
Print Assumptions C56_leftRight.
Theorem C56_leftRightTwoPoint : forall ll rr lr rl itf n x y, (1 <= length x)%nat -> (1 <= length y)%nat ->
  exists f v, build (XLeftRight ll rr lr rl itf) = Ok f /\ tp_call f x y = Ok v /\ tp_evalPtr f n x y = Ok v /\
  choose (left_of itf) x y ll (default ll rr lr) (default ll rr rl) rr v.
Proof. exact tp_leftRight. Qed.
Print Assumptions C56_leftRightTwoPoint.
Theorem C56_islands : forall sii soo r r2 sio soi n x y, (2 <= length x)%nat -> (2 <= length y)%nat ->
  exists o v, build_order (OIslands sii soo r r2 sio soi) = Ok o /\ tp_call (o_tp o) x y = Ok v /\ tp_evalPtr (o_tp o) n x y = Ok v /\
  choose (on_island r r2) x y sii (default sii soo sio) (default sii soo soi) soo v.
Proof. exact order_islands. Qed.
Example C56_islands_ex : on_island 1 3 [2; -2] /\ ~ on_island 1 3 [2; 0].
Proof.
  unfold on_island. split.
  - intros [|[|i]] Hi; try lia; cbn; [rewrite Rabs_pos_eq by lra; lra|]. rewrite Rabs_left by lra. lra.
  - intros H. specialize (H 1%nat ltac:(lia)). cbn in H. rewrite Rabs_R0 in H. lra.
Qed.
Print Assumptions C56_islands.
(** In one dimension only. *)
Theorem C56_innerOuter : forall sii soo r c sio soi n x y, (1 <= length x)%nat -> (1 <= length y)%nat ->
  exists o v, build_order (OInnerOuter 1 sii soo r [c] sio soi) = Ok o /\ tp_call (o_tp o) x y = Ok v /\ tp_evalPtr (o_tp o) n x y = Ok v /\
  choose (inside r [c]) x y sii (default sii soo sio) (default sii soo soi) soo v.
Proof. exact order_innerOuter. Qed.
Example C56_innerOuter_ex : inside 2 [1] [0] /\ ~ inside 2 [1] [3].
Proof. unfold inside. cbn. split; lra. Qed.
Print Assumptions C56_innerOuter.
(** In two dimensions the second coordinate of the centre is never stored. *)
Theorem C56_innerOuter_refuted : forall sii soo r c0 c1 sio soi x y n, exists o, build_order (OInnerOuter 2 sii soo r [c0; c1] sio soi) = Ok o /\
  ((1 <= length x)%nat -> (1 <= length y)%nat -> tp_call (o_tp o) x y = Err EUninit /\ tp_evalPtr (o_tp o) n x y = Err EUninit).
Proof. exact innerOuter_fails. Qed.
Print Assumptions C56_innerOuter_refuted.
(** No smoothed order of this kind can be made. *)
Theorem C56_smoothedInnerOuter_refuted : forall sl sr r radius, exists e, build_order (OSmoothedInnerOuter sl sr r radius) = Err e.
Proof. exact smoothedInnerOuter_fails. Qed.
Print Assumptions C56_smoothedInnerOuter_refuted.

(** Layers: every number is in a layer, and the value is that of the layers of the last coordinates. *)
Theorem C56_layers : forall dim bs os o x y i j n, build_order (OLayers dim bs os) = Ok o -> increasing bs ->
  (1 <= dim)%nat -> (dim <= length x)%nat -> (dim <= length y)%nat ->
  in_layer bs i (nth (dim - 1) x 0) -> in_layer bs j (nth (dim - 1) y 0) ->
  tp_call (o_tp o) x y = Ok (table os i j) /\ tp_evalPtr (o_tp o) n x y = Ok (table os i j).
Proof. exact order_layers. Qed.
Theorem C56_layers_cover : forall bs c, (2 <= length bs)%nat -> increasing bs -> exists i, in_layer bs i c.
Proof. exact layer_exists. Qed.
Example C56_layers_ex : (exists o, build_order (OLayers 1 [0; 1; 2] [[1; 2]; [3; 4]]) = Ok o) /\ increasing [0; 1; 2] /\
  in_layer [0; 1; 2] 0 1 /\ in_layer [0; 1; 2] 1 5.
Proof.
  split; [eexists; reflexivity|]. unfold increasing, in_layer. cbn. split; [|repeat split; intros; try lia; lra].
  intros [|[|i]] Hi; try lia; cbn; lra.
Qed.
Print Assumptions C56_layers.
Print Assumptions C56_layers_cover.
(** Blocks: a missing value is the mean of those of the two blocks. *)
Theorem C56_piecewise : forall dim ind m o x y i j n, build_order (OPiecewise dim ind m) = Ok o ->
  (i < length m)%nat -> (j < length m)%nat -> ind (firstn dim x) = INR i -> ind (firstn dim y) = INR j ->
  tp_call (o_tp o) x y = Ok (filled m i j) /\ tp_evalPtr (o_tp o) n x y = Ok (filled m i j).
Proof. exact piecewise_value_ok. Qed.
Example C56_piecewise_ex : (exists o, build_order (OPiecewise 1 (fun x => nth 0 x 0) [[Some 1; None]; [Some 2; Some 4]]) = Ok o) /\
  filled [[Some 1; None]; [Some 2; Some 4]] 0 1 = 5 / 2 /\ filled [[Some 1; None]; [Some 2; Some 4]] 1 0 = 2.
Proof. split; [eexists; reflexivity|]. unfold filled. cbn. split; lra. Qed.
Print Assumptions C56_piecewise.

(** Steps: constant outside of the strip around the interface, and a cubic or a line inside. *)
Theorem C56_smoothStep : forall sl sr r itf n x y, 0 < r -> (1 <= length x)%nat ->
  exists o v, build_order (OSmoothedLeftRight sl sr r itf) = Ok o /\ tp_call (o_tp o) x y = Ok v /\ tp_evalPtr (o_tp o) n x y = Ok v /\
  is_step (fun t => 3 * t ^ 2 - 2 * t ^ 3) sl sr r itf (nth 0 x 0) v.
Proof. exact order_smooth. Qed.
Theorem C56_linearStep : forall sl sr r itf n x y, 0 < r -> (1 <= length x)%nat ->
  exists o v, build_order (OLinearLeftRight sl sr r itf) = Ok o /\ tp_call (o_tp o) x y = Ok v /\ tp_evalPtr (o_tp o) n x y = Ok v /\
  is_step (fun t => t) sl sr r itf (nth 0 x 0) v.
Proof. exact order_linear. Qed.
Example C56_step_ex : forall v, is_step (fun t => t) 1 3 2 0 1 v -> v = 5 / 2.
Proof. intros v (_ & _ & H). rewrite H by lra. field. Qed.
Print Assumptions C56_smoothStep.
Print Assumptions C56_linearStep.
(** The arctangent is used outside of the strip as well: the value is below both end values. *)
Theorem C56_smoothed_refuted : exists f v, build (XSmoothed 0 1 1 1) = Ok f /\ tp_call f [-2] [0] = Ok v /\ v < 0.
Proof. exact smoothed_wrong. Qed.
Print Assumptions C56_smoothed_refuted.

(** Finite element functions. *)
Theorem C56_fe : forall L u smin smax x y c b, (1 <= lk_num L)%nat -> length u = lk_num L -> lk_find L x = Some (c, b) ->
  (forall k, (k < lk_dofs L)%nat -> (lk_dof L c k < Z.of_nat (lk_num L))%Z) ->
  exists o, build_order (OFe L u smin smax) = Ok o /\
  tp_call (o_tp o) x y = Ok (rsum (lk_num L) (fun i => nth i u 0 * shape_at L c b i)) /\
  tp_evalPtr (o_tp o) (length x) x y = Ok (rsum (lk_num L) (fun i => nth i u 0 * shape_at L c b i)).
Proof. exact order_fe. Qed.
Definition two_hats : lookup :=
  mk_lookup (fun x => Some (0%nat, [1 - nth 0 x 0; nth 0 x 0])) 2 2 (fun _ k => Z.of_nat (1 - k)) (fun k b => nth k b 0).
Example C56_fe_ex : lk_find two_hats [1 / 4] = Some (0%nat, [1 - 1 / 4; 1 / 4]) /\
  rsum 2 (fun i => nth i [10; 20] 0 * shape_at two_hats 0 [1 - 1 / 4; 1 / 4] i) = 35 / 2.
Proof. split; [reflexivity|]. cbn. field. Qed.
Print Assumptions C56_fe.
Theorem C56_lookup : forall L A x y c1 b1 c2 b2, lk_find L x = Some (c1, b1) -> lk_find L y = Some (c2, b2) ->
  square A -> length A = lk_num L ->
  (forall c k, (c = c1 \/ c = c2) -> (k < lk_dofs L)%nat -> (0 <= lk_dof L c k < Z.of_nat (lk_num L))%Z) ->
  exists f, build (XLookup L A false) = Ok f /\
  tp_call f x y = Ok (rsum (lk_num L) (fun i => rsum (lk_num L) (fun j => shape_at L c1 b1 i * table A i j * shape_at L c2 b2 j))).
Proof. exact tp_lookup_value. Qed.
Example C56_lookup_ex : square [[1; 2]; [3; 4]] /\ forall c k, (k < lk_dofs two_hats)%nat -> (0 <= lk_dof two_hats c k < 2)%Z.
Proof. split; [intros row [<-|[<-|[]]]; reflexivity|]. intros c k. cbn [lk_dofs lk_dof two_hats]. lia. Qed.
Print Assumptions C56_lookup.
(** Where a degree of freedom is on the boundary (-1), memory in front of the matrix is read. *)
Theorem C56_lookup_refuted : forall sym x y, exists f, build (XLookup boundary_lookup [[1]] sym) = Ok f /\ tp_call f x y = Err EOob.
Proof. exact lookup_boundary_fails. Qed.
Print Assumptions C56_lookup_refuted.

(** Matrices, entries of the tensor, and tempering. *)
Theorem C56_matrix : forall m f n x y, build (XMatrix m) = Ok f -> (n <= length m)%nat -> length x = n -> length y = n -> 0 < gap2 n x y ->
  tp_call f x y = Ok (quad n m x y / gap2 n x y) /\ tp_evalPtr f n x y = Ok (quad n m x y / gap2 n x y).
Proof. exact tp_matrix. Qed.
Example C56_matrix_ex : (exists f, build (XMatrix [[1; 2]; [3; 4]]) = Ok f) /\ gap2 2 [3; 0] [0; 4] = 25 /\ quad 2 [[1; 2]; [3; 4]] [3; 0] [0; 4] = 13.
Proof.
  split.
  - cbn [build]. unfold matrixTwoPoint, matrix_symmetric. cbn. repeat match goal with |- context [rlt ?a ?b] => destruct (rlt_spec a b); cbn end; eexists; reflexivity.
  - unfold gap2, quad, table. cbn. split; ring.
Qed.
Print Assumptions C56_matrix.
(** The flag of a matrix: its entries and the transposed ones differ by at most 1e-12. *)
Theorem C56_matrix_flag : forall m, square m -> exists f, build (XMatrix m) = Ok f /\
  (tp_sym f = true <-> forall i j, (i < length m)%nat -> (j < length m)%nat -> Rabs (table m i j - table m j i) <= 1 / 10 ^ 12).
Proof. exact tp_matrix_flag. Qed.
Example C56_matrix_flag_ex : square [[1; 2]; [3; 4]] /\ exists f, build (XMatrix [[1; 2]; [3; 4]]) = Ok f /\ tp_sym f <> true.
Proof.
  assert (Q : square [[1; 2]; [3; 4]]) by (intros row [<-|[<-|[]]]; reflexivity). split; [exact Q|].
  destruct (C56_matrix_flag _ Q) as (f & E & H). exists f. split; [exact E|]. rewrite H. intros K.
  specialize (K 1%nat 0%nat (Nat.lt_succ_diag_r 1) (Nat.lt_0_succ 1)). unfold table in K. cbn [nth] in K. rewrite Rabs_right in K by lra. lra.
Qed.
Print Assumptions C56_matrix_flag.
(** Functions with one fixed point, and on the diagonal. *)
Theorem C56_fixed : forall f p, tp_size f = 1%nat -> forall x, length x = length p -> methods_agree (length p) f ->
  fixedTwoPoint f p FIXED_X x = tp_call f p x /\ fixedTwoPoint f p FIXED_Y x = tp_call f x p /\ fixedTwoPoint f p DIAGONAL x = tp_call f x x.
Proof. exact fixed_values. Qed.
Example C56_fixed_ex : let f := lambdaTwoPoint (fun x y => nth 0 x 0 - nth 0 y 0) false in
  tp_size f = 1%nat /\ methods_agree 1 f /\ tp_call f [3] [1] = Ok 2 /\ tp_call f [1] [3] = Ok (- 2).
Proof.
  cbn zeta. split; [reflexivity|]. split.
  - intros x y Hx Hy. unfold tp_call. cbn [lambdaTwoPoint tp_eval tp_evalPtr]. rewrite <- Hx at 1. rewrite <- Hy. rewrite !firstn_all. reflexivity.
  - unfold tp_call. cbn. split; f_equal; ring.
Qed.
Print Assumptions C56_fixed.
Theorem C56_tensor : forall i j n x y, length x = n -> length y = n -> (i < n)%nat -> (j < n)%nat -> 0 < gap2 n x y ->
  exists f, build (XTensor i j n) = Ok f /\
  let v := (nth i x 0 - nth i y 0) * (nth j x 0 - nth j y 0) / gap2 n x y in tp_call f x y = Ok v /\ tp_evalPtr f n x y = Ok v.
Proof. exact tp_tensor. Qed.
Example C56_tensor_ex : exists f, build (XTensor 0 1 2) = Ok f /\ tp_call f [3; 0] [0; 4] = Ok (-12 / 25) /\ gap2 2 [3; 0] [0; 4] = 25.
Proof.
  destruct (C56_tensor 0 1 2 [3; 0] [0; 4] eq_refl eq_refl (Nat.lt_0_succ 1) (Nat.lt_succ_diag_r 1)) as (f & E & V & _).
  - unfold gap2. cbn. lra.
  - exists f. split; auto. rewrite V. unfold gap2. cbn. split; [f_equal; field|ring].
Qed.
Print Assumptions C56_tensor.
Theorem C56_tempered : forall lam n x y, length x = n -> length y = n ->
  exists f, build (XTempered lam n) = Ok f /\ tp_call f x y = Ok (exp (- lam * sqrt (gap2 n x y))) /\
  tp_evalPtr f n x y = Ok (exp (- lam * sqrt (gap2 n x y))).
Proof. exact tp_tempered. Qed.
Print Assumptions C56_tempered.
