(** Renumbering the vertices of a mesh. *)
From Verif Require Import Util Lin MeshOpsModel MeshOpsSpec MeshOpsProofs.

(** C28. removeUnusedVertices keeps exactly the vertices in use, numbered in the order
    in which the cells use them. Cells have the same points as before, in the same
    order; boundary vertices in use are kept, with their tags, and renumbered, like
    the end points of boundary edges and the corners of boundary faces. Missing: the
    order of the vertices, and boundary edges and faces with unused vertices, see
    below. *)
Theorem C28_renumbering_partial : forall m, mesh_fine m ->
  exists m' U, removeUnusedVertices m = Ok m' /\ first_use U (m_cells m) /\
    m_vertices m' = map (fun u => nth u (m_vertices m) []) U /\
    Forall2 (Forall2 (renamed U)) (m_cells m) (m_cells m') /\
    Forall2 (Forall2 (fun v v' => zpoint (m_vertices m') v' = zpoint (m_vertices m) v)) (m_cells m) (m_cells m') /\
    m_dim m' = m_dim m /\ m_manifold_dim m' = m_manifold_dim m /\
    match m_boundaryVertices m with
    | Some bv => exists bv' bt', m_boundaryVertices m' = Some bv' /\ m_boundaryVertexTags m' = Some bt' /\ kept U bv (tags_of m bv) bv' bt'
    | None => m_boundaryVertices m' = None /\ m_boundaryVertexTags m' = m_boundaryVertexTags m
    end /\
    renames_rows U (m_boundaryEdges m) (m_boundaryEdges m') /\ renames_rows U (m_boundaryFaces m) (m_boundaryFaces m') /\
    m_interiorVertices m' = None.
Proof. exact removeUnusedVertices_ok. Qed.
Print Assumptions C28_renumbering_partial.

(** A mesh of one interval, from vertex 3 to vertex 1, of four vertices. *)
Definition interval : mesh :=
  Mesh (map (fun z => [qz z]) [5; 6; 7; 8]%Z) [[3; 1]]%Z 1 1 (Some [1; 2; 3]%Z) (Some [10; 11; 12]%Z) (Some [[1; 2]]%Z) None (Some [0%Z]).

Example C28_example : mesh_fine interval /\
  removeUnusedVertices interval =
    Ok (Mesh (map (fun z => [qz z]) [8; 6]%Z) [[0; 1]]%Z 1 1 (Some [1; 0]%Z) (Some [10; 12]%Z) (Some [[1; -1]]%Z) None None).
Proof.
  split; [|vm_compute; reflexivity]. split; [|split; [|split; [|split]]].
  - intros p Hp. cbn in Hp. repeat (destruct Hp as [<-|Hp]; [reflexivity|]). destruct Hp.
  - intros c [<-|[]]. split; [reflexivity|]. cbn. intros v Hv. lia.
  - split; [cbn; intros v Hv; lia|reflexivity].
  - intros R E. injection E as <-. intros c [<-|[]]. split; [reflexivity|]. cbn. intros v Hv. lia.
  - discriminate.
Qed.

(** The relative order of the vertices is not kept. *)
Theorem C28_order_refuted :
  ~ forall m m' U u w k l, mesh_fine m -> removeUnusedVertices m = Ok m' -> first_use U (m_cells m) ->
      Forall2 (Forall2 (renamed U)) (m_cells m) (m_cells m') ->
      nth_error U k = Some u -> nth_error U l = Some w -> u < w -> k < l.
Proof.
  intros H. destruct C28_example as [Hf E]. destruct (removeUnusedVertices_ok interval Hf) as (m' & U & E' & HU & _ & F & _).
  rewrite E in E'. injection E' as <-. assert (nth_error U 1 = Some 1 /\ nth_error U 0 = Some 3) as [H1 H3].
  { cbn [m_cells interval] in F. inversion F as [|c c' C C' Fc _]; subst. inversion Fc as [|v v' r r' (k & u & Hk & Ev & Ek) Fr]; subst.
    inversion Fr as [|? ? ? ? (l & w & Hl & Ew & El) _]; subst. clear -Hk Ev Ek Hl Ew El.
    assert (k = 0) as -> by lia. assert (u = 3) as -> by lia. assert (l = 1) as -> by lia. assert (w = 1) as -> by lia. auto. }
  specialize (H interval _ U 1 3 1 0 Hf E HU F H1 H3). lia.
Qed.
Print Assumptions C28_order_refuted.

(** A boundary edge with a vertex that is not in use becomes an edge with vertex
    -1. *)
Theorem C28_unused_boundary_edge_refuted :
  ~ forall m m' R R' e v, mesh_fine m -> removeUnusedVertices m = Ok m' -> m_boundaryEdges m = Some R -> m_boundaryEdges m' = Some R' ->
      In e R' -> In v e -> (0 <= v < Z.of_nat (length (m_vertices m')))%Z.
Proof.
  intros H. destruct C28_example as [Hf E]. specialize (H _ _ [[1; 2]]%Z [[1; -1]]%Z [1; -1]%Z (-1)%Z Hf E eq_refl eq_refl (or_introl eq_refl) (or_intror (or_introl eq_refl))). lia.
Qed.
Print Assumptions C28_unused_boundary_edge_refuted.

(** C36. reorderVertices(idx) makes vertex idx[k] vertex k, in the cells, the boundary
    vertices and the boundary edges, if no boundary faces have been computed.
    Missing: boundary faces, see below. *)
Theorem C36_reordering_partial : forall m idx, mesh_fine m -> m_boundaryFaces m = None -> NoDup idx -> length idx = length (m_vertices m) ->
  (forall u, In u idx -> u < length (m_vertices m)) ->
  exists m', reorderVertices m idx = Ok m' /\
    m_vertices m' = map (fun u => nth u (m_vertices m) []) idx /\
    Forall2 (Forall2 (renamed idx)) (m_cells m) (m_cells m') /\
    Forall2 (Forall2 (fun v v' => zpoint (m_vertices m') v' = zpoint (m_vertices m) v)) (m_cells m) (m_cells m') /\
    match m_boundaryVertices m, m_boundaryVertices m' with
    | Some bv, Some bv' => Forall2 (renamed idx) bv bv'
    | None, None => True
    | _, _ => False
    end /\ m_boundaryVertexTags m' = m_boundaryVertexTags m /\
    match m_boundaryEdges m, m_boundaryEdges m' with
    | Some R, Some R' => Forall2 (Forall2 (renamed idx)) R R'
    | None, None => True
    | _, _ => False
    end.
Proof. exact reorderVertices_ok. Qed.
Print Assumptions C36_reordering_partial.

Example C36_example :
  reorderVertices interval [2; 3; 1; 0] =
    Ok (Mesh (map (fun z => [qz z]) [7; 8; 6; 5]%Z) [[1; 2]]%Z 1 1 (Some [2; 0; 1]%Z) (Some [10; 11; 12]%Z) (Some [[2; 0]]%Z) None (Some [0%Z])).
Proof. vm_compute. reflexivity. Qed.

(** With boundary faces, the boundary edges are renumbered twice and the faces not at
    all: the reference tetrahedron with its vertices rotated. *)
Definition tetrahedron : mesh :=
  Mesh (map (map qz) [[0; 0; 0]; [1; 0; 0]; [0; 1; 0]; [0; 0; 1]]%Z) [[0; 1; 2; 3]]%Z 3 3 None None
    (Some [[0; 1]; [0; 2]; [0; 3]; [1; 2]; [1; 3]; [2; 3]]%Z) (Some [[0; 1; 2]; [0; 1; 3]; [0; 2; 3]; [1; 2; 3]]%Z) None.

Theorem C36_boundary_faces_refuted :
  ~ forall m idx m' R R' F F', mesh_fine m -> NoDup idx -> length idx = length (m_vertices m) ->
    (forall u, In u idx -> u < length (m_vertices m)) -> reorderVertices m idx = Ok m' ->
    m_boundaryEdges m = Some R -> m_boundaryEdges m' = Some R' -> m_boundaryFaces m = Some F -> m_boundaryFaces m' = Some F' ->
    Forall2 (Forall2 (fun v v' => zpoint (m_vertices m') v' = zpoint (m_vertices m) v)) R R' \/
    Forall2 (Forall2 (fun v v' => zpoint (m_vertices m') v' = zpoint (m_vertices m) v)) F F'.
Proof.
  intros H.
  assert (mesh_fine tetrahedron) as Hf.
  { split; [|split; [|split; [|split]]].
    - intros p Hp. cbn in Hp. repeat (destruct Hp as [<-|Hp]; [reflexivity|]). destruct Hp.
    - intros c [<-|[]]. split; [reflexivity|]. cbn. intros v Hv. lia.
    - exact I.
    - intros R E. injection E as <-. intros c Hc. cbn in Hc. repeat (destruct Hc as [<-|Hc]; [split; [reflexivity|cbn; intros v Hv; lia]|]). destruct Hc.
    - intros R E. injection E as <-. intros c Hc. cbn in Hc. repeat (destruct Hc as [<-|Hc]; [split; [reflexivity|cbn; intros v Hv; lia]|]). destruct Hc. }
  assert (exists m', reorderVertices tetrahedron [1; 2; 3; 0] = Ok m' /\ m_boundaryEdges m' = Some [[2; 3]; [2; 0]; [2; 1]; [3; 0]; [3; 1]; [0; 1]]%Z /\
    m_boundaryFaces m' = Some [[0; 1; 2]; [0; 1; 3]; [0; 2; 3]; [1; 2; 3]]%Z /\
    m_vertices m' = map (map qz) [[1; 0; 0]; [0; 1; 0]; [0; 0; 1]; [0; 0; 0]]%Z) as (m' & E & HR & HF & HV).
  { eexists. split; [vm_compute; reflexivity|]. cbn [m_boundaryEdges m_boundaryFaces m_vertices]. auto. }
  assert (NoDup [1; 2; 3; 0]) as N by (repeat constructor; cbn; lia).
  assert (forall u, In u [1; 2; 3; 0] -> u < length (m_vertices tetrahedron)) as Hu by (cbn; intros u Hu; lia).
  pose proof (H tetrahedron [1; 2; 3; 0] m' _ _ _ _ Hf N eq_refl Hu E eq_refl HR eq_refl HF) as H'. clear H. rename H' into H. rewrite HV in H. destruct H as [H|H].
  - inversion H as [|? ? ? ? H1 _]; subst. inversion H1 as [|? ? ? ? H2 _]; subst. apply (f_equal (map this)) in H2. vm_compute in H2. discriminate H2.
  - inversion H as [|? ? ? ? H1 _]; subst. inversion H1 as [|? ? ? ? H2 _]; subst. apply (f_equal (map this)) in H2. vm_compute in H2. discriminate H2.
Qed.
Print Assumptions C36_boundary_faces_refuted.
