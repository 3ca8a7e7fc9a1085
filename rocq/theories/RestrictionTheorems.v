(** Transfer between finite element spaces. *)
From Verif Require Import Util Lin MeshSpec DoFMapSpec DoFMapModel DoFMapProofs6 MeshModel LocalModel CSRModel CSRSpec
  RestrictionTables RestrictionModel RestrictionSpec RestrictionProofs7 RestrictionProofs8.

(** C22. For the elements P0, P1, P2 and P3 in one, two and three dimensions, on every mesh
    and its uniform refinement (see C24, C25 and C26), for every numbering of the DoFs (see
    C30) and every boundary on which the functions are zero such that the fine boundary
    lies on the coarse one: buildRestrictionProlongation succeeds, the prolongation is the
    transpose of the restriction, and the prolongation maps the coefficients of every
    coarse function to the coefficients of the same function: at every point of every
    child cell, given by barycentric coordinates with respect to the child and the parent,
    the values of both are equal. *)
Theorem C22_prolongation_exact e d dim V E C F b b' dofsC dofsF nC nF :
  1 <= d <= 3 -> mesh_ok dim (S d) V C -> distinct_vertices C -> distinct_cells C -> refinement d V E C F ->
  fe_numbering e d C b dofsC nC -> fe_numbering e d F b' dofsF nF ->
  boundary_contained e d (length V) E C F b b' -> few_couplings (2 ^ d) dofsC dofsF ->
  exists R P, buildRestrictionProlongation d e e (length C) F dofsC nC dofsF nF = Ok (R, P) /\ wf_csr nC nF R /\ wf_csr nF nC P /\
    (forall I J, I < nC -> J < nF -> matrix P J I = matrix R I J) /\
    forall u, same_fe_function (2 ^ d) dim d e e V C dofsC u (refined_vertices V E) F dofsF (tab nF (mv nC (matrix P) (vat u))).
Proof. exact (refined_transfer e d dim V E C F b b' dofsC dofsF nC nF). Qed.
Print Assumptions C22_prolongation_exact.

(** C22. The same from linear to quadratic elements on one mesh. *)
Theorem C22_linear_to_quadratic d dim V C b b' dofsC dofsF nC nF :
  1 <= d <= 3 -> mesh_ok dim (S d) V C -> distinct_vertices C -> distinct_cells C ->
  fe_numbering P1 d C b dofsC nC -> fe_numbering P2 d C b' dofsF nF ->
  boundary_contained P1 d (length V) [] C C b b' -> few_couplings 1 dofsC dofsF ->
  exists R P, buildRestrictionProlongation d P1 P2 (length C) C dofsC nC dofsF nF = Ok (R, P) /\ wf_csr nC nF R /\ wf_csr nF nC P /\
    (forall I J, I < nC -> J < nF -> matrix P J I = matrix R I J) /\
    forall u, same_fe_function 1 dim d P1 P2 V C dofsC u V C dofsF (tab nF (mv nC (matrix P) (vat u))).
Proof. exact (quadratic_transfer d dim V C b b' dofsC dofsF nC nF). Qed.
Print Assumptions C22_linear_to_quadratic.

(** C22. To cubic elements on one mesh: the coefficients are the values at the nodes up to
    10^-9 times the sum of the absolute values of the coefficients of the cell. *)
Theorem C22_to_cubic_partial e d dim V C b b' dofsC dofsF nC nF :
  e = P1 \/ e = P2 -> 1 <= d <= 3 -> mesh_ok dim (S d) V C -> distinct_vertices C -> distinct_cells C ->
  fe_numbering e d C b dofsC nC -> fe_numbering P3 d C b' dofsF nF ->
  boundary_contained e d (length V) [] C C b b' -> few_couplings 1 dofsC dofsF ->
  exists R P, buildRestrictionProlongation d e P3 (length C) C dofsC nC dofsF nF = Ok (R, P) /\ wf_csr nC nF R /\ wf_csr nF nC P /\
    (forall I J, I < nC -> J < nF -> matrix P J I = matrix R I J) /\
    forall u, near_fe_function (qf 1 1000000000) d e P3 dofsC u dofsF (tab nF (mv nC (matrix P) (vat u))).
Proof. exact (cubic_transfer e d dim V C b b' dofsC dofsF nC nF). Qed.
Print Assumptions C22_to_cubic_partial.

(** C22. That transfer is not exact: the weights in the code have nine digits. *)
Theorem C22_to_cubic_refuted : exists d dim V C b b' dofsC dofsF nC nF R P u,
  1 <= d <= 3 /\ mesh_ok dim (S d) V C /\ distinct_vertices C /\ distinct_cells C /\
  fe_numbering P1 d C b dofsC nC /\ fe_numbering P3 d C b' dofsF nF /\
  boundary_contained P1 d (length V) [] C C b b' /\ few_couplings 1 dofsC dofsF /\
  buildRestrictionProlongation d P1 P3 (length C) C dofsC nC dofsF nF = Ok (R, P) /\
  ~ same_fe_function 1 dim d P1 P3 V C dofsC u V C dofsF (tab nF (mv nC (matrix P) (vat u))).
Proof. exact not_exact. Qed.
Print Assumptions C22_to_cubic_refuted.

(** Quadratic elements on the unit square, cut into two triangles; zero on the side
    between vertices 0 and 1. *)
Definition ex_V : list (list Qc) := [[0; 0]; [1; 0]; [0; 1]; [1; 1]]%Qc.
Definition ex_C : list (list nat) := [[0; 1; 2]; [3; 2; 1]].
Definition ex_E : list (nat * nat) := [(0, 1); (1, 2); (0, 2); (2, 3); (1, 3)].
Definition ex_F : list (list nat) := [[0; 4; 6]; [1; 5; 4]; [2; 6; 5]; [4; 5; 6]; [3; 7; 8]; [2; 5; 7]; [1; 8; 5]; [7; 5; 8]].
Definition ex_b : bdata := ([0; 1], [(0, 1)], []).
Definition ex_b' : bdata := ([0; 1; 4], [(0, 4); (4, 1)], []).
Definition ex_dofsC : list (list Z) := [[-1; -2; 0; -3; 1; 2]; [3; 0; -2; 4; 1; 5]]%Z.
Definition ex_dofsF : list (list Z) := Eval vm_compute in
  match DoFMap 2 9 ex_F [0; 1; 4] [(0, 4); (4, 1)] [] 1 1 0 0 (-1) with Ok (dofs, _, _) => dofs | Err _ => [] end.
Example C22_example_mesh : mesh_ok 2 3 ex_V ex_C /\ distinct_vertices ex_C /\ distinct_cells ex_C /\ refinement 2 ex_V ex_E ex_C ex_F.
Proof.
  split; [|split; [|split; [|split]]].
  - split; [intros p [<-|[<-|[<-|[<-|[]]]]]; reflexivity|]. intros c [<-|[<-|[]]]; (split; [reflexivity|cbn; lia]).
  - intros c [<-|[<-|[]]]; repeat constructor; cbn; lia.
  - intros i j c c' Hi Hj HI. destruct i as [|[|[|]]], j as [|[|[|]]]; try discriminate; auto; inversion Hi; inversion Hj; subst.
    + specialize (HI 0). cbn in HI. lia.
    + specialize (HI 3). cbn in HI. lia.
  - repeat constructor; cbn; intuition discriminate.
  - split; [reflexivity|]. intros i c Hi. destruct i as [|[|[|]]]; try discriminate; inversion Hi; subst.
    + exists (firstn 4 ex_F). split; [|split; [reflexivity|intros j Hj; destruct j as [|[|[|[|]]]]; try lia; reflexivity]].
      exists 0, 1, 2, 4, 5, 6. split; [reflexivity|]. split; [exists 0; split; reflexivity|]. split; [exists 1; split; reflexivity|]. split; [exists 2; split; reflexivity|reflexivity].
    + exists (skipn 4 ex_F). split; [|split; [reflexivity|intros j Hj; destruct j as [|[|[|[|]]]]; try lia; reflexivity]].
      exists 3, 2, 1, 7, 5, 8. split; [reflexivity|]. split; [exists 3; split; reflexivity|]. split; [exists 1; split; reflexivity|]. split; [exists 4; split; reflexivity|reflexivity].
Qed.
Example C22_example_numberings : fe_numbering P2 2 ex_C ex_b ex_dofsC 6 /\ fe_numbering P2 2 ex_F ex_b' ex_dofsF 20.
Proof.
  split.
  - apply (dofmap_fe_numbering P2 2 4 ex_C [0; 1] [(0, 1)] [] ex_dofsC 6 3%Z); [lia| |cbn; split; [repeat split; lia|]; split; [lia|]; split; [vm_compute; discriminate|vm_compute; reflexivity]].
    split; [lia|]. split; [intros c [<-|[<-|[]]]; split; [reflexivity|cbn; lia|reflexivity|cbn; lia]|].
    split; [repeat constructor; cbn; lia|]. split; [cbn; lia|]. split; [repeat constructor; cbn; intuition discriminate|]. split; [constructor|]. apply count_occ_bounded. reflexivity.
  - apply (dofmap_fe_numbering P2 2 9 ex_F [0; 1; 4] [(0, 4); (4, 1)] [] ex_dofsF 20 5%Z); [lia| |cbn; split; [repeat split; lia|]; split; [lia|]; split; [vm_compute; discriminate|vm_compute; reflexivity]].
    split; [lia|]. split; [intros c Hc; cbn in Hc; repeat (destruct Hc as [<-|Hc]; [split; [reflexivity|cbn; lia]|]); destruct Hc|].
    split; [repeat constructor; cbn; lia|]. split; [cbn; lia|]. split; [repeat constructor; cbn; intuition discriminate|]. split; [constructor|]. apply count_occ_bounded. reflexivity.
Qed.
Example C22_example_boundary : boundary_contained P2 2 (length ex_V) ex_E ex_C ex_F ex_b ex_b' /\ few_couplings 4 ex_dofsC ex_dofsF.
Proof. split; [apply contained_spec; vm_compute; reflexivity|apply few_small, Nat.ltb_lt; vm_compute; reflexivity]. Qed.
(** The shape function of vertex 2: its values at the vertices and midpoints of the children. *)
Example C22_example_values : match buildRestrictionProlongation 2 P2 P2 2 ex_F ex_dofsC 6 ex_dofsF 20 with
  | Ok (R, P) => map this (tab 20 (mv 6 (matrix P) (vat [1; 0; 0; 0; 0; 0]%Qc)))
  | Err _ => [] end =
  [0; -1 # 8; -1 # 8; 0; -1 # 8; -1 # 8; 1; 3 # 8; 0; 3 # 8; 0; 0; 0; -1 # 8; -1 # 8; 0; 0; 3 # 8; 0; -1 # 8]%Q.
Proof. vm_compute. reflexivity. Qed.

(** Linear and quadratic elements on the same mesh: the square again, with the same boundary. *)
Example C22_example_same_mesh : exists dofsC dofsF, fe_numbering P1 2 ex_C ex_b dofsC 2 /\ fe_numbering P2 2 ex_C ex_b dofsF 6 /\
  boundary_contained P1 2 (length ex_V) [] ex_C ex_C ex_b ex_b /\ few_couplings 1 dofsC dofsF /\
  match buildRestrictionProlongation 2 P1 P2 2 ex_C dofsC 2 dofsF 6 with
  | Ok (R, P) => map this (tab 6 (mv 2 (matrix P) (vat [1; 0]%Qc)))
  | Err _ => [] end = [1; 1 # 2; 1 # 2; 0; 1 # 2; 0]%Q.
Proof.
  exists [[-1; -2; 0]; [1; 0; -2]]%Z, ex_dofsC. split; [|split; [apply C22_example_numberings|split; [apply contained_spec; vm_compute; reflexivity|
    split; [apply few_small, Nat.ltb_lt; vm_compute; reflexivity|vm_compute; reflexivity]]]].
  apply (dofmap_fe_numbering P1 2 4 ex_C [0; 1] [(0, 1)] [] _ 2 2%Z); [lia| |cbn; split; [repeat split; lia|]; split; [lia|]; split; [vm_compute; discriminate|vm_compute; reflexivity]].
  split; [lia|]. split; [intros c [<-|[<-|[]]]; split; [reflexivity|cbn; lia|reflexivity|cbn; lia]|].
  split; [repeat constructor; cbn; lia|]. split; [cbn; lia|]. split; [repeat constructor; cbn; intuition discriminate|]. split; [constructor|]. apply count_occ_bounded. reflexivity.
Qed.

(** One tetrahedron, cut along the diagonal between the midpoints of edges 0-3 and 1-2;
    cubic elements, the shape function of vertex 0 at two of the fine nodes. *)
Definition ex_T : list (list nat) :=
  [[0; 4; 5; 6]; [4; 1; 7; 8]; [5; 7; 2; 9]; [6; 8; 9; 3]; [4; 8; 7; 6]; [6; 9; 8; 7]; [6; 9; 7; 5]; [4; 7; 5; 6]].
Example C22_example_3D :
  match DoFMap 3 4 [[0; 1; 2; 3]] [] [] [] 1 2 1 0 (-1), DoFMap 3 10 ex_T [] [] [] 1 2 1 0 (-1) with
  | Ok (dofsC, nC, _), Ok (dofsF, nF, _) =>
      match buildRestrictionProlongation 3 P3 P3 1 ex_T dofsC (Z.to_nat nC) dofsF (Z.to_nat nF) with
      | Ok (R, P) => Some (nC, nF, map this (firstn 4 (tab (Z.to_nat nF) (mv (Z.to_nat nC) (matrix P) (vat [1]%Qc)))))
      | Err _ => None
      end
  | _, _ => None
  end = Some (20%Z, 84%Z, [1; -1 # 16; -1 # 16; -1 # 16]%Q).
Proof. vm_compute. reflexivity. Qed.
