(** C61: quadrature rules on simplices. *)
From Verif Require Import Util Lin MeshModel MeshSpec BaryModel BarySpec LocalModel LocalSpec LocalProofs2 QuadModel QuadSpec QuadProofs QuadProofs2 QuadProofs3 QuadProofs4.
Local Open Scope Qc_scope.

Definition quad_triangle : list (list Qc) := [[0; 0]; [qz 2; 0]; [qz 1; qz 3]].
Definition quad_segment : list (list Qc) := [[qz 5]; [qz 1]].
Definition quad_table1 : list (list Qc) := [[qf 1 4; qf 3 4]; [qf 3 4; qf 1 4]].
Definition quad_weights1 : list Qc := [qf 1 3; qf 2 3].
Definition product_of_coordinates (x : list Qc) : Qc := vat x 0 * vat x 1 + qz 2.

(** integrate returns the weighted sum of the values at the nodes times the volume,
    whatever the scratch space contains. *)
Theorem C61_integrate : forall d n nodes weights vs f tempVec span vol,
  (1 <= d <= 3)%nat -> node_table d n nodes weights -> is_simplex d vs -> length tempVec = d -> shape d d span -> is_volume d vs vol ->
  integrate (Rule d nodes weights) f vs tempVec span = Ok (weighted d n nodes weights vs f * vol).
Proof. exact integrate_ok. Qed.
Print Assumptions C61_integrate.

Example C61_integrate_ex :
  node_table 1 2 quad_table1 quad_weights1 /\ is_simplex 1 quad_segment /\ is_volume 1 quad_segment (qz 4) /\
  show_one (integrate (Rule 1 quad_table1 quad_weights1) (fun x => vat x 0 * vat x 0) quad_segment [None] [[None]]) = Ok (48 # 1)%Q.
Proof.
  split; [|split; [|split]].
  - split; [reflexivity|]. split; [|reflexivity]. intros row [<-|[<-|[]]]; reflexivity.
  - split; [reflexivity|]. split; [intros v [<-|[<-|[]]]; reflexivity|]. intros E. apply (f_equal this) in E. vm_compute in E. discriminate.
  - split; [vm_compute; discriminate|]. right. apply Qc_is_canon. vm_compute. reflexivity.
  - vm_compute. reflexivity.
Qed.

(** The rules given by tables are exact for polynomials up to their order, on every
    triangle and every tetrahedron. *)
Theorem C61_exact : forall (r : rule) (d k : nat) vs f p tempVec span,
  (Gauss2D_order2 = Ok r /\ d = 2%nat /\ k = 2%nat \/ Gauss3D_order3 = Ok r /\ d = 3%nat /\ k = 3%nat) ->
  is_simplex d vs -> length tempVec = d -> shape d d span -> is_polynomial d vs f p -> deg_le d k p = true ->
  exists v, integrate r f vs tempVec span = Ok v /\ integral_over d vs p v.
Proof. exact exact_rules. Qed.
Print Assumptions C61_exact.

Example C61_exact_ex :
  is_simplex 2 quad_triangle /\
  is_polynomial 2 quad_triangle product_of_coordinates [[qz 2]; [0; qz 6]; [qz 3]] /\
  deg_le 2 2 ([[qz 2]; [0; qz 6]; [qz 3]] : poly 2) = true /\
  exists r, Gauss2D_order2 = Ok r /\
  show_one (integrate r product_of_coordinates quad_triangle [None; None] [[None; None]; [None; None]]) = Ok (9 # 1)%Q.
Proof.
  split; [|split; [|split]].
  - split; [reflexivity|]. split; [intros v [<-|[<-|[<-|[]]]]; reflexivity|]. intros E. apply (f_equal this) in E. vm_compute in E. discriminate.
  - intros l H. unfold product_of_coordinates, point_at, quad_triangle. cbn -[Qcplus Qcmult qz].
    replace (qz 6) with (qz 2 * qz 3) by (apply Qc_is_canon; reflexivity). replace (qz 1) with 1 by (apply Qc_is_canon; reflexivity). ring.
  - vm_compute. reflexivity.
  - eexists. split; [reflexivity|]. vm_compute. reflexivity.
Qed.

(** A rule that is exact on the reference simplex up to some degree is so on every simplex:
    this applies to all rules whose nodes are computed elsewhere. *)
Theorem C61_reference : forall d k n nodes weights, (1 <= d <= 3)%nat -> node_table d n nodes weights -> exact_on_reference d k n nodes weights ->
  forall vs f p tempVec span, is_simplex d vs -> length tempVec = d -> shape d d span -> is_polynomial d vs f p -> deg_le d k p = true ->
  exists v, integrate (Rule d nodes weights) f vs tempVec span = Ok v /\ integral_over d vs p v.
Proof. exact reference_exact. Qed.
Print Assumptions C61_reference.

Example C61_reference_ex :
  node_table 1 3 [[1; qf 1 2; 0]; [0; qf 1 2; 1]] [qf 1 6; qf 2 3; qf 1 6] /\
  exact_on_reference 1 3 3 [[1; qf 1 2; 0]; [0; qf 1 2; 1]] [qf 1 6; qf 2 3; qf 1 6].
Proof.
  split; [split; [reflexivity|]; split; [|reflexivity]; intros row [<-|[<-|[]]]; reflexivity|]. apply check_reference. vm_compute. reflexivity.
Qed.

(** The sum of two rules returns the sum of what they return. *)
Theorem C61_add : forall d n n' nodes nodes' weights weights',
  (1 <= d <= 3)%nat -> node_table d n nodes weights -> node_table d n' nodes' weights' ->
  exists r, add_rules (Rule d nodes weights) (Rule d nodes' weights') = Ok r /\
  forall vs f tempVec span, is_simplex d vs -> length tempVec = d -> shape d d span ->
  exists a b, integrate (Rule d nodes weights) f vs tempVec span = Ok a /\ integrate (Rule d nodes' weights') f vs tempVec span = Ok b /\
    integrate r f vs tempVec span = Ok (a + b).
Proof. exact add_integrates. Qed.
Print Assumptions C61_add.

Example C61_add_ex :
  exists r, add_rules (Rule 1 quad_table1 quad_weights1) (Rule 1 [[qf 1 2]; [qf 1 2]] [qz 2]) = Ok r /\
  show_one (integrate r (fun x => vat x 0 * vat x 0) quad_segment [None] [[None]]) = Ok (120 # 1)%Q.
Proof. eexists. split; [reflexivity|]. vm_compute. reflexivity. Qed.

(** nodesInGlobalCoords writes the nodes of the rule in the simplex. *)
Theorem C61_nodes : forall nodes weights d n, node_table d n nodes weights -> forall vs coords,
  length vs = S d -> (forall v, In v vs -> length v = d) -> shape n d coords ->
  nodesInGlobalCoords (Rule d nodes weights) vs coords = Ok (tab n (fun i => map Some (point_at d vs (coordinates nodes i)))).
Proof. exact nodes_ok. Qed.
Print Assumptions C61_nodes.

Example C61_nodes_ex :
  (x <- nodesInGlobalCoords (Rule 1 quad_table1 quad_weights1) quad_segment [[None]; [None]] ;; x <- all_init2 x ;; Ok (map (map this) x)) = Ok [[(2 # 1)%Q]; [(4 # 1)%Q]].
Proof. vm_compute. reflexivity. Qed.

(** A rule transformed by A and b has the nodes b + A l. *)
Theorem C61_transform : forall nodes weights d n A b, (1 <= d <= 3)%nat -> node_table d n nodes weights ->
  length A = S d -> (forall row, In row A -> length row = S d) -> length b = S d ->
  exists r, transformed (Rule d nodes weights) A b = Ok r /\
  forall vs f tempVec span vol, is_simplex d vs -> length tempVec = d -> shape d d span -> is_volume d vs vol ->
  integrate r f vs tempVec span
  = Ok (sumf n (fun i => vat weights i * f (point_at d vs (fun k => vat b k + sumf (S d) (fun j => vat (nth k A []) j * coordinates nodes i j)))) * vol).
Proof. exact transform_integrates. Qed.
Print Assumptions C61_transform.

Example C61_transform_ex :
  exists r, transformed (Rule 1 quad_table1 quad_weights1) [[qf 1 2; 0]; [0; qf 1 2]] [qf 1 2; 0] = Ok r /\
  show_one (integrate r (fun x => vat x 0) quad_segment [None] [[None]]) = Ok (50 # 3)%Q.
Proof. eexists. split; [reflexivity|]. vm_compute. reflexivity. Qed.

(** The rule made of two rules integrates over the product of the simplices. *)
Theorem C61_double : forall d1 d2 n1 n2 nodes1 nodes2 vs1 vs2 weights1 weights2 f span1 span2 v1 v2,
  node_table d1 n1 nodes1 weights1 -> node_table d2 n2 nodes2 weights2 -> (1 <= d1 <= 3)%nat -> (1 <= d2 <= 3)%nat ->
  is_simplex d1 vs1 -> is_simplex d2 vs2 -> shape d1 d1 span1 -> shape d2 d2 span2 -> is_volume d1 vs1 v1 -> is_volume d2 vs2 v2 ->
  double_integrate (Rule d1 nodes1 weights1) (Rule d2 nodes2 weights2) f vs1 vs2 span1 span2
  = Ok (weighted d1 n1 nodes1 weights1 vs1 (fun x => weighted d2 n2 nodes2 weights2 vs2 (fun y => f (x ++ y))) * (v1 * v2)).
Proof. exact double_integrates. Qed.
Print Assumptions C61_double.

Example C61_double_ex :
  show_one (double_integrate (Rule 1 quad_table1 quad_weights1) (Rule 2 quad_point2D_order2 weights2D_order2) (fun x => vat x 0 * vat x 1 + vat x 2)
    quad_segment quad_triangle [[None]] [[None; None]; [None; None]]) = Ok (52 # 1)%Q.
Proof. vm_compute. reflexivity. Qed.

(** Refuted: the rules on boxes evaluate the function at their nodes. The nodes are stored
    with a row for each dimension and are read with a row for each node: on an interval
    every rule with two or more nodes reads outside of the array. *)
Theorem C61_box_refuted : forall a b row v u f fun_vals, length fun_vals = S (S (length row)) ->
  box_evalFun [a :: b :: row] f [[v]; [u]] fun_vals = Err EOob.
Proof. exact box_fails. Qed.
Print Assumptions C61_box_refuted.

Example C61_box_refuted_ex : box_evalFun [[qf 1 4; qf 3 4]] (fun x => vat x 0) [[qz 1]; [qz 3]] [None; None] = Err EOob.
Proof. vm_compute. reflexivity. Qed.
