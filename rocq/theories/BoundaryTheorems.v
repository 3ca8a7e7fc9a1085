(** Boundaries of meshes. *)
From Coq Require Import Permutation.
From Verif Require Import Util Lin MeshModel MeshSpec BoundaryModel BoundarySpec BoundaryProofs2 BoundaryProofs3.
Local Open Scope nat_scope.

(** C27. boundaryVertices returns, in some order, each vertex that belongs to an odd
    number of cells once and nothing else. *)
Theorem C27_boundary_vertices : forall order C, some_order order -> cells_of 2 C ->
  exists B, boundaryVertices order C = Ok B /\ lists_odd 1 C (map (fun v => [v]) B).
Proof. exact boundaryVertices_ok. Qed.
Print Assumptions C27_boundary_vertices.

(** boundaryEdges returns each edge that belongs to an odd number of cells once and
    nothing else, in the direction in which a cell that has it runs through it; with
    returnBoundaryCells the edges are the same, and the numbers of these cells are
    returned too. *)
Theorem C27_boundary_edges : forall C, cells_of 3 C ->
  exists B bc, boundaryEdges C = Ok B /\ boundaryEdgesCells C = Ok (B, bc) /\ length bc = length B /\
    lists_odd 2 C B /\
    forall i f, nth_error B i = Some f -> exists a b cn c, f = [a; b] /\ nth_error bc i = Some cn /\ nth_error C cn = Some c /\ follows c a b.
Proof. exact boundaryEdges_ok. Qed.
Print Assumptions C27_boundary_edges.

Theorem C27_boundary_faces : forall order C, some_order order -> cells_of 4 C ->
  exists B, boundaryFaces order C = Ok B /\ lists_odd 3 C B.
Proof. exact boundaryFaces_ok. Qed.
Print Assumptions C27_boundary_faces.

(** boundaryFacesWithOrientation returns the same faces. Missing: their orientation,
    which is wrong, see C27_face_orientation_refuted. *)
Theorem C27_oriented_faces_partial : forall V C, mesh_ok 3 4 V C -> cells_of 4 C ->
  exists B, boundaryFacesWithOrientation V C = Ok B /\ lists_odd 3 C B.
Proof. exact boundaryFacesWithOrientation_ok. Qed.
Print Assumptions C27_oriented_faces_partial.

(** On a manifold mesh the entities listed are those of a single cell. *)
Theorem C27_manifold : forall n C B f, lists_odd n C B -> manifold n C -> length f = n -> NoDup f ->
  ((exists h, In h B /\ Permutation f h) <-> cells_with C f = 1).
Proof. exact manifold_boundary. Qed.
Print Assumptions C27_manifold.

(** Vertices of the boundary edges, edges of the boundary faces: each once. *)
Theorem C27_vertices_of_edges : forall order B, some_order order -> (forall e, In e B -> length e = 2) ->
  exists P, boundaryVerticesFromBoundaryEdges order B = Ok P /\ NoDup P /\ forall v, In v P <-> exists e, In e B /\ In v e.
Proof. exact boundaryVerticesFromBoundaryEdges_ok. Qed.
Print Assumptions C27_vertices_of_edges.

Theorem C27_edges_of_faces : forall order B, some_order order ->
  (forall f, In f B -> length f = 3 /\ forall v, In v f -> (Z.of_nat v < 2147483648)%Z) ->
  exists P, boundaryEdgesFromBoundaryFaces order B = Ok P /\ NoDup P /\ forall a b, In [a; b] P <-> edge_of B (a, b).
Proof. exact boundaryEdgesFromBoundaryFaces_ok. Qed.
Print Assumptions C27_edges_of_faces.

(** The faces of boundaryFacesWithOrientation are not all oriented outwards: for the
    reference tetrahedron the face in the plane z=0 comes with its normal pointing
    upwards. *)
Definition tet : list (list Qc) := map (map qz) [[0; 0; 0]; [1; 0; 0]; [0; 1; 0]; [0; 0; 1]]%Z.
Theorem C27_face_orientation_refuted :
  ~ forall V C B c f0 f1 f2 s, mesh_ok 3 4 V C -> cells_of 4 C -> boundaryFacesWithOrientation V C = Ok B ->
      In [f0; f1; f2] B -> In c C -> cells_with C [f0; f1; f2] = 1 -> Permutation [f0; f1; f2; s] c -> vol6 (corners V c) <> 0%Qc ->
      oriented_outwards (point V f0) (point V f1) (point V f2) (point V s).
Proof.
  intros H. specialize (H tet [[0; 1; 2; 3]] [[0; 1; 2]; [0; 3; 1]; [0; 2; 3]; [1; 2; 3]] [0; 1; 2; 3] 0 1 2 3).
  assert (oriented_outwards (point tet 0) (point tet 1) (point tet 2) (point tet 3)) as O.
  { apply H.
    - split.
      + intros p Hp. cbn in Hp. repeat (destruct Hp as [<-|Hp]; [reflexivity|]). destruct Hp.
      + intros c [<-|[]]. split; [reflexivity|]. intros v Hv. cbn in Hv |- *. lia.
    - intros c [<-|[]]. split; [reflexivity|]. split; [apply NoDup4; lia|]. intros v Hv. cbn in Hv. lia.
    - vm_compute. reflexivity.
    - left. reflexivity.
    - left. reflexivity.
    - reflexivity.
    - reflexivity.
    - intros E. apply (f_equal this) in E. vm_compute in E. discriminate E. }
  vm_compute in O. discriminate O.
Qed.
Print Assumptions C27_face_orientation_refuted.

(** Two triangles with a common edge, a third one that has a vertex in common with
    one of them, in 1D a path and a closed loop, two tetrahedra. *)
Definition triangles : list (list nat) := [[0; 1; 2]; [2; 1; 3]; [3; 4; 5]].
Example C27_example :
  cells_of 3 triangles /\
  boundaryEdges triangles = Ok [[0; 1]; [2; 0]; [1; 3]; [3; 2]; [3; 4]; [4; 5]; [5; 3]] /\
  boundaryEdgesCells triangles = Ok ([[0; 1]; [2; 0]; [1; 3]; [3; 2]; [3; 4]; [4; 5]; [5; 3]], [0; 0; 1; 1; 2; 2; 2]) /\
  boundaryVertices (@rev nat) [[4; 1]; [1; 2]; [5; 6]; [6; 7]; [7; 5]] = Ok [2; 4] /\
  boundaryFaces (fun l => l) [[0; 1; 2; 3]; [4; 1; 2; 3]] = Ok [[0; 1; 2]; [0; 1; 3]; [0; 2; 3]; [1; 2; 4]; [1; 3; 4]; [2; 3; 4]] /\
  boundaryFacesWithOrientation (tet ++ [map qz [1; 1; 1]%Z]) [[0; 1; 2; 3]; [4; 1; 2; 3]] =
    Ok [[0; 1; 2]; [0; 3; 1]; [0; 2; 3]; [1; 2; 4]; [1; 4; 3]; [2; 3; 4]] /\
  boundaryVerticesFromBoundaryEdges (fun l => l) [[0; 1]; [1; 3]; [3; 0]] = Ok [0; 1; 3] /\
  boundaryEdgesFromBoundaryFaces (fun l => l) [[0; 1; 2]; [3; 1; 2]] = Ok [[0; 1]; [0; 2]; [1; 2]; [1; 3]; [2; 3]].
Proof.
  split.
  { intros c Hc. cbn in Hc. destruct Hc as [<-|[<-|[<-|[]]]]; (split; [reflexivity|split; [apply NoDup3; lia|intros v Hv; cbn in Hv; lia]]). }
  vm_compute. auto 10.
Qed.

(** The two triangles are a manifold mesh; three triangles at one edge are not, and
    have the edge in their boundary. *)
Example C27_example_manifold :
  manifold 2 [[0; 1; 2]; [2; 1; 3]] /\ ~ manifold 2 [[0; 1; 2]; [2; 1; 3]; [1; 2; 4]] /\
  boundaryEdges [[0; 1; 2]; [2; 1; 3]; [1; 2; 4]] = Ok [[0; 1]; [2; 0]; [1; 3]; [3; 2]; [1; 2]; [2; 4]; [4; 1]].
Proof.
  split; [|split; [|vm_compute; reflexivity]].
  - intros f _ _. unfold cells_with. cbn [filter]. destruct (contains f [0; 1; 2]), (contains f [2; 1; 3]); cbn; lia.
  - intros M. specialize (M [1; 2] eq_refl). assert (NoDup [1; 2]) as N by (apply NoDup2; lia). specialize (M N). vm_compute in M. lia.
Qed.
