(** Numbering of the degrees of freedom. *)
From Verif Require Import Util Lin MeshModel DoFMapModel DoFMapSpec DoFMapProofs6.

(** C30. For every mesh of dimension at most 3, every list of boundary vertices, edges
    and faces without repetitions, all numbers of DoFs per vertex, edge and cell, at most
    one DoF per face and any value of skipCellsAfter, the numbers given to the local DoFs
    of the cells form a numbering in the sense of DoFMapSpec: two local DoFs have the same
    number exactly if they sit at the same position of the same mesh entity, the numbers on
    the boundary are -1, ..., -num_boundary_dofs, all others are 0, ..., num_dofs-1 and all
    of these occur.

    What is missing from the full statement: if there is more than one DoF per edge no
    cell may run along an edge of the boundary backwards (this is false, see below), and
    at most one DoF per face (the code reverses the order on a face that it meets for the
    second time whatever its orientation). *)
Theorem C30_numbering_partial md nv C bv be bf dpv dpe dpf dpc skip :
  dofmap_input md nv C bv be bf -> dofmap_counts md dpv dpe dpf bv be bf ->
  dpf <= 1 -> dpe <= 1 \/ boundary_edges_forward md C be -> (Z.of_nat (length C * local_dofs md dpv dpe dpf dpc) <= MAX_INT)%Z ->
  exists dofs num_dofs num_boundary_dofs,
    DoFMap md nv C bv be bf dpv dpe dpf dpc skip = Ok (dofs, num_dofs, num_boundary_dofs) /\
    num_boundary_dofs = Z.of_nat (length bv * dpv + length be * dpe + length bf * dpf) /\
    is_numbering (places md dpv dpe dpf dpc) C (cells_with_dofs (length C) skip) (on_boundary bv be bf) (dof_count dpv dpe dpf dpc) (- MAX_INT) dofs num_dofs num_boundary_dofs.
Proof. exact (numbering_ok md nv C bv be bf dpv dpe dpf dpc skip). Qed.
Print Assumptions C30_numbering_partial.

(** C30. With two DoFs per edge the numbering can fail: cubic elements on a single
    triangle, all of whose vertices and edges are on the boundary. *)
Theorem C30_boundary_orientation_refuted : exists md nv C bv be bf dpv dpe dpf dpc dofs num_dofs num_boundary_dofs,
  dofmap_input md nv C bv be bf /\ dofmap_counts md dpv dpe dpf bv be bf /\
  DoFMap md nv C bv be bf dpv dpe dpf dpc (-1) = Ok (dofs, num_dofs, num_boundary_dofs) /\
  (exists p p' d, p <> p' /\ on_boundary bv be bf (fst p) /\ on_boundary bv be bf (fst p') /\
     numbered (places md dpv dpe dpf dpc) C dofs p d /\ numbered (places md dpv dpe dpf dpc) C dofs p' d) /\
  ~ is_numbering (places md dpv dpe dpf dpc) C (cells_with_dofs (length C) (-1)) (on_boundary bv be bf) (dof_count dpv dpe dpf dpc) (- MAX_INT) dofs num_dofs num_boundary_dofs.
Proof. exact p3_refuted. Qed.
Print Assumptions C30_boundary_orientation_refuted.

(** C30. From a numbering of a scalar space that covers all cells, Product_DoFMap makes a
    numbering of the space with n components; [rows] is the array of the right shape that
    it overwrites. *)
Theorem C30_product n pl C scalar_dofs bdry count u u' num_dofs num_boundary_dofs rows : 0 < n ->
  is_numbering pl C (length C) bdry count u scalar_dofs num_dofs num_boundary_dofs ->
  length rows = length C -> (forall i c row, nth_error C i = Some c -> nth_error rows i = Some row -> length row = length (pl i c) * n) ->
  exists dofs, Product_DoFMap n scalar_dofs num_dofs rows = Ok (dofs, (Z.of_nat n * num_dofs)%Z) /\
    is_numbering (product_places n pl) C (length C) bdry (fun e => count e * n) u' dofs (Z.of_nat n * num_dofs) (Z.of_nat n * num_boundary_dofs).
Proof. exact (product_dofmap_ok n pl C scalar_dofs bdry count u u' num_dofs num_boundary_dofs rows). Qed.
Print Assumptions C30_product.

(** Quadratic elements on two triangles; one edge on the boundary. *)
Definition ex_C : list (list nat) := [[0; 1; 2]; [3; 2; 1]].
Example C30_example_input : dofmap_input 2 4 ex_C [0; 1] [(1, 0)] [] /\ dofmap_counts 2 1 1 0 [0; 1] [(1, 0)] [] /\
  (Z.of_nat (length ex_C * local_dofs 2 1 1 0 0) <= MAX_INT)%Z.
Proof.
  split; [|split; [repeat split; lia|vm_compute; discriminate]]. split; [lia|]. split; [|split; [|split; [|split; [|split]]]].
  - intros c [<-|[<-|[]]]; (split; [reflexivity|]; cbn; lia).
  - repeat constructor; cbn; lia.
  - cbn. lia.
  - repeat constructor; cbn; tauto.
  - constructor.
  - apply count_occ_bounded. reflexivity.
Qed.
Example C30_example_2D : DoFMap 2 4 ex_C [0; 1] [(1, 0)] [] 1 1 0 0 (-1) =
  Ok ([[-1; -2; 0; -3; 1; 2]; [3; 0; -2; 4; 1; 5]]%Z, 6%Z, 3%Z).
Proof. vm_compute. reflexivity. Qed.
(** The shared edge with two DoFs is traversed in opposite directions. *)
Example C30_example_cubic : DoFMap 2 4 ex_C [] [] [] 1 2 0 1 1 =
  Ok ([[0; 1; 2; 3; 4; 5; 6; 8; 7; 9]; [-2147483647; 2; 1; -2147483647; -2147483647; 6; 5; -2147483647; -2147483647; -2147483647]]%Z, 10%Z, 0%Z).
Proof. vm_compute. reflexivity. Qed.
(** Two tetrahedra with a common face, one DoF per face, one face on the boundary. *)
Definition ex_T : list (list nat) := [[0; 1; 2; 3]; [4; 1; 3; 2]].
Example C30_example_input_3D : dofmap_input 3 5 ex_T [0] [] [(2, 1, 4)] /\ dofmap_counts 3 1 0 1 [0] [] [(2, 1, 4)].
Proof.
  split; [|repeat split; lia]. split; [lia|]. split; [|split; [|split; [|split; [|split]]]].
  - intros c [<-|[<-|[]]]; (split; [reflexivity|]; cbn; lia).
  - repeat constructor; cbn; lia.
  - cbn. lia.
  - constructor.
  - repeat constructor; cbn; tauto.
  - apply count_occ_bounded. reflexivity.
Qed.
Example C30_example_3D : DoFMap 3 5 ex_T [0] [] [(2, 1, 4)] 1 0 1 0 (-1) =
  Ok ([[-1; 0; 1; 2; 3; 4; 5; 6]; [7; 0; 2; 1; 8; -2; 5; 9]]%Z, 10%Z, 2%Z).
Proof. vm_compute. reflexivity. Qed.
(** Two components on the mesh of two triangles with linear elements. *)
Example C30_example_product : exists dofs, DoFMap 2 4 ex_C [0; 1] [(1, 0)] [] 1 0 0 0 (-1) = Ok (dofs, 2%Z, 2%Z) /\
  Product_DoFMap 2 dofs 2 [repeat 0%Z 6; repeat 0%Z 6] = Ok ([[-1; -2; -3; -4; 0; 1]; [2; 3; 0; 1; -3; -4]]%Z, 4%Z).
Proof. eexists. split; vm_compute; reflexivity. Qed.
