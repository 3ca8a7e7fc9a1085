(** Meshes: encodings of edges and faces, uniform refinement. *)
From Coq Require Import Permutation.
From Verif Require Import Util Lin TupleDictModel MeshModel MeshSpec MeshProofs6 MeshGeom3.
Local Open Scope nat_scope.

(** C23. For vertex numbers of the 32-bit index type the 64-bit arithmetic of
    encode_edge is exact, decoding gives the edge back, and different edges have
    different codes. *)
Theorem C23_edge_codes :
  (forall e : Z * Z, (0 <= fst e < 2147483648)%Z -> (0 <= snd e < 2147483648)%Z ->
     encode_edge e = (2147483648 * fst e + snd e)%Z /\ decode_edge 32 (encode_edge e) = e) /\
  (forall e f : Z * Z, (0 <= fst e < 2147483648)%Z -> (0 <= snd e < 2147483648)%Z -> (0 <= fst f < 2147483648)%Z -> (0 <= snd f < 2147483648)%Z ->
     encode_edge e = encode_edge f -> e = f).
Proof. exact C23_edge_thm. Qed.
Print Assumptions C23_edge_codes.

Theorem C23_face_codes :
  (forall f, in_range3 f -> decode_face 32 (encode_face f) = f) /\
  (forall f g, in_range3 f -> in_range3 g -> encode_face f = encode_face g -> f = g).
Proof. exact C23_face_thm. Qed.
Print Assumptions C23_face_codes.

(** sortEdge and sortFace return the given numbers in increasing order. *)
Theorem C23_sorted : forall a b c,
  (exists x y, sortEdge Z.ltb a b = (x, y) /\ (x <= y)%Z /\ Permutation [a; b] [x; y]) /\
  (exists x y z, sortFace Z.ltb a b c = (x, y, z) /\ (x <= y <= z)%Z /\ Permutation [a; b; c] [x; y; z]).
Proof. exact C23_sort_thm. Qed.
Print Assumptions C23_sorted.

(** With 64-bit indices (myTypes64) different edges can have the same code. *)
Theorem C23_64bit_refuted :
  exists e f : Z * Z, e <> f /\ (0 <= fst e < 2 ^ 63)%Z /\ (0 <= snd e < 2 ^ 63)%Z /\ (0 <= fst f < 2 ^ 63)%Z /\ (0 <= snd f < 2 ^ 63)%Z /\
    encode_edge e = encode_edge f /\ decode_edge 64 (encode_edge e) <> e.
Proof.
  exists (0, 2147483648)%Z, (1, 0)%Z. split; [discriminate|]. cbn [fst snd].
  repeat split; vm_compute; congruence.
Qed.
Print Assumptions C23_64bit_refuted.

Example C23_example :
  encode_edge (2147483646, 2147483647)%Z = 4611686016279904255%Z /\
  decode_edge 32 4611686016279904255 = (2147483646, 2147483647)%Z /\
  decode_face 32 (encode_face (3, 2147483646, 2147483647)%Z) = (3, 2147483646, 2147483647)%Z /\
  sortFace Z.ltb 7%Z 2%Z 5%Z = (2, 5, 7)%Z.
Proof. vm_compute. auto. Qed.

(** C24. Refining a 1D mesh: old vertices are kept, one vertex per cell is added at
    its midpoint, each cell is replaced by its two halves. *)
Theorem C24_refinement_1D : forall dim V C, mesh_ok dim 2 V C -> fits_index V -> distinct_edges C ->
  exists E C' lookup, refineCy1D dim V C = Ok (refined_vertices V E, C', lookup) /\
    edge_list C E /\ children_of 2 C C' (halves V E) /\ lookup_of V E lookup.
Proof. exact C24_thm. Qed.
Print Assumptions C24_refinement_1D.

Theorem C24_halves : forall V C E C', mesh_ok 1 2 V C -> children_of 2 C C' (halves V E) ->
  splits 1 2 (1 + 1) len1 V (refined_vertices V E) C C'.
Proof. exact splits1. Qed.
Print Assumptions C24_halves.

(** In any dimension of the embedding space. *)
Theorem C24_halves_embedded : forall dim V E, (forall p, In p V -> length p = dim) ->
  forall c ch, halves V E c ch -> (forall v, In v c -> v < length V) ->
    (0 < dim -> forall t, In t ch -> (len1 (corners (refined_vertices V E) t) * (1 + 1) = len1 (corners V c))%Qc) /\
    (independent dim (corners V c) -> subdivides dim (corners V c) (map (corners (refined_vertices V E)) ch)).
Proof. exact halves_geometry. Qed.
Print Assumptions C24_halves_embedded.

(** Two cells with the same end points (in two dimensions: the same polygon side
    listed twice): a vertex of the refined mesh is never written. *)
Theorem C24_repeated_edge_refuted :
  exists V C, mesh_ok 1 2 V C /\ fits_index V /\ distinct_vertices C /\ refineCy1D 1 V C = Err EUninit.
Proof.
  exists [[qz 0]; [qz 1]], [[0; 1]; [1; 0]]. split; [|split; [|split]].
  - split; [intros p [<-|[<-|[]]]; reflexivity|]. intros c [<-|[<-|[]]]; (split; [reflexivity|]); intros v [<-|[<-|[]]]; cbn; lia.
  - unfold fits_index. cbn. lia.
  - intros c [<-|[<-|[]]]; repeat constructor; cbn; lia.
  - vm_compute. reflexivity.
Qed.
Print Assumptions C24_repeated_edge_refuted.

Definition show_mesh {L} (r : res (list (list Qc) * list (list nat) * L)) : res (list (list Q) * list (list nat) * L) :=
  '(V, C, l) <- r ;; Ok (map (map this) V, C, l).

Definition line : list (list Qc) := [[qz 0]; [qz 1]; [qz 3]].
Definition line_cells : list (list nat) := [[0; 1]; [2; 1]].
Example C24_example :
  mesh_ok 1 2 line line_cells /\ fits_index line /\ distinct_edges line_cells /\
  show_mesh (refineCy1D 1 line line_cells) =
    Ok ([[0]; [1]; [3]; [1 # 2]; [2]]%Q, [[0; 3]; [3; 1]; [2; 4]; [4; 1]], [(1%Z, 3); (2147483650%Z, 4)]).
Proof.
  split; [|split; [|split]].
  - split; [intros p [<-|[<-|[<-|[]]]]; reflexivity|]. intros c [<-|[<-|[]]]; (split; [reflexivity|]); intros v [<-|[<-|[]]]; cbn; lia.
  - unfold fits_index. cbn. lia.
  - assert (J : forall c a b e, c = [a; b] -> joins c e -> e = (Nat.min a b, Nat.max a b)).
    { intros c a b e -> (i & j & x & y & Hij & Hx & Hy & ->). destruct i as [|[|i]], j as [|[|j]]; cbn in *; try lia; try discriminate;
        try (destruct i; discriminate); try (destruct j; discriminate). inversion Hx; inversion Hy; subst; auto. }
    intros i j c d e Hc Hd Jc Jd. destruct i as [|[|i]], j as [|[|j]]; cbn in Hc, Hd; auto; try (destruct i; discriminate); try (destruct j; discriminate);
      inversion Hc; inversion Hd; subst; apply (J _ _ _ _ eq_refl) in Jc, Jd; rewrite Jc in Jd; discriminate.
  - vm_compute. reflexivity.
Qed.

(** C25. Refining a triangular mesh: old vertices are kept, one vertex per edge is
    added at its midpoint and shared by the cells at the edge, each triangle is
    replaced by four. *)
Theorem C25_refinement_hash : forall V C, mesh_ok 2 3 V C ->
  exists E C', refineCy2Dhash V C = Ok (refined_vertices V E, C', combine E (seq (length V) (length E))) /\
    edge_list C E /\ children_of 4 C C' (quarters V E).
Proof. exact C25_hash_thm. Qed.
Print Assumptions C25_refinement_hash.

Theorem C25_refinement_sort : forall qsort V C, sorts compareEdges qsort -> mesh_ok 2 3 V C -> fits_index V -> distinct_vertices C ->
  exists E C' lookup, refineCy2Dsort qsort V C = Ok (refined_vertices V E, C', lookup) /\
    edge_list C E /\ children_of 4 C C' (quarters V E) /\ lookup_of V E lookup.
Proof. exact C25_sort_thm. Qed.
Print Assumptions C25_refinement_sort.

(** Missing: meshes with a vertex that has more than 255 neighbours with larger
    numbers, see below. *)
Theorem C25_refinement_edgeVals_partial : forall dim V C, mesh_ok dim 3 V C -> fits_index V -> few_neighbours C ->
  exists E C' lookup, refineCy2DedgeVals dim V C = Ok (refined_vertices V E, C', lookup) /\
    edge_list C E /\ children_of 4 C C' (quarters V E) /\ lookup_of V E lookup.
Proof. exact C25_edgeVals_thm. Qed.
Print Assumptions C25_refinement_edgeVals_partial.

Theorem C25_quarters : forall V C E C', mesh_ok 2 3 V C -> children_of 4 C C' (quarters V E) ->
  splits 2 4 (1 + 1 + 1 + 1) area2 V (refined_vertices V E) C C'.
Proof. exact splits2. Qed.
Print Assumptions C25_quarters.

(** In any dimension of the embedding space; [area2] is that of the projection to
    the first two coordinates. *)
Theorem C25_quarters_embedded : forall dim V E, (forall p, In p V -> length p = dim) ->
  forall c ch, quarters V E c ch -> (forall v, In v c -> v < length V) ->
    (1 < dim -> forall t, In t ch -> (area2 (corners (refined_vertices V E) t) * (1 + 1 + 1 + 1) = area2 (corners V c))%Qc) /\
    (independent dim (corners V c) -> subdivides dim (corners V c) (map (corners (refined_vertices V E)) ch)).
Proof. exact quarters_geometry. Qed.
Print Assumptions C25_quarters_embedded.

(** 255 triangles around vertex 0, with 256 other corners: the row length of the
    edge dictionary, an 8-bit number, overflows. *)
Definition fan2 : list (list nat) := map (fun i => [0; i; S i]) (seq 1 255).
Definition fan_points (dim n : nat) : list (list Qc) := repeat (repeat 0%Qc dim) n.
Theorem C25_many_neighbours_refuted :
  exists V C, mesh_ok 2 3 V C /\ fits_index V /\ distinct_vertices C /\ refineCy2DedgeVals 2 V C = Err EOob.
Proof.
  exists (fan_points 2 257), fan2. split; [|split; [|split]].
  - split; [intros p Hp; apply repeat_spec in Hp; subst; reflexivity|]. intros c Hc. apply in_map_iff in Hc as (i & <- & Hi). apply in_seq in Hi.
    split; [reflexivity|]. unfold fan_points. rewrite repeat_length. intros v [<-|[<-|[<-|[]]]]; lia.
  - unfold fits_index, fan_points. rewrite repeat_length. vm_compute. discriminate.
  - intros c Hc. apply in_map_iff in Hc as (i & <- & Hi). apply in_seq in Hi. repeat constructor; cbn; lia.
  - vm_compute. reflexivity.
Qed.
Print Assumptions C25_many_neighbours_refuted.

(** Two triangles. *)
Definition square : list (list Qc) := [[qz 0; qz 0]; [qz 1; qz 0]; [qz 1; qz 1]; [qz 0; qz 1]].
Definition square_cells : list (list nat) := [[0; 1; 2]; [3; 0; 2]].
Definition square_points : list (list Q) := [[0; 0]; [1; 0]; [1; 1]; [0; 1]]%Q.
Example C25_example :
  mesh_ok 2 3 square square_cells /\ fits_index square /\ distinct_vertices square_cells /\ few_neighbours square_cells /\
  sorts compareEdges isort /\ (forall c, In c square_cells -> area2 (corners square c) <> 0%Qc) /\
  show_mesh (refineCy2Dhash square square_cells) =
    Ok (square_points ++ [[1 # 2; 0]; [1 # 2; 1 # 2]; [1; 1 # 2]; [0; 1 # 2]; [1 # 2; 1]]%Q,
        [[0; 4; 5]; [1; 6; 4]; [2; 5; 6]; [4; 6; 5]; [3; 7; 8]; [0; 5; 7]; [2; 8; 5]; [7; 5; 8]],
        [((0, 1), 4); ((0, 2), 5); ((1, 2), 6); ((0, 3), 7); ((2, 3), 8)]) /\
  show_mesh (refineCy2Dsort isort square square_cells) =
    Ok (square_points ++ [[1 # 2; 0]; [1 # 2; 1 # 2]; [0; 1 # 2]; [1; 1 # 2]; [1 # 2; 1]]%Q,
        [[0; 4; 5]; [1; 7; 4]; [2; 5; 7]; [4; 7; 5]; [3; 6; 8]; [0; 5; 6]; [2; 8; 5]; [6; 5; 8]],
        [(1%Z, 4); (2%Z, 5); (3%Z, 6); (2147483650%Z, 7); (4294967299%Z, 8)]) /\
  show_mesh (refineCy2DedgeVals 2 square square_cells) =
    Ok (square_points ++ [[1 # 2; 0]; [1 # 2; 1 # 2]; [1; 1 # 2]; [0; 1 # 2]; [1 # 2; 1]]%Q,
        [[0; 4; 5]; [1; 6; 4]; [2; 5; 6]; [4; 6; 5]; [3; 7; 8]; [0; 5; 7]; [2; 8; 5]; [7; 5; 8]],
        [(1%Z, 4); (2%Z, 5); (3%Z, 7); (2147483650%Z, 6); (4294967299%Z, 8)]).
Proof.
  assert (HM : mesh_ok 2 3 square square_cells).
  { split; [intros p [<-|[<-|[<-|[<-|[]]]]]; reflexivity|]. intros c [<-|[<-|[]]]; (split; [reflexivity|]); intros v [<-|[<-|[<-|[]]]]; cbn; lia. }
  split; [exact HM|]. split; [unfold fits_index; cbn; lia|]. split; [intros c [<-|[<-|[]]]; repeat constructor; cbn; lia|].
  split; [apply (few_small 2 3 square); auto; cbn; lia|]. split; [exact isort_sorts|].
  split; [intros c [<-|[<-|[]]] H; apply (f_equal this) in H; vm_compute in H; discriminate H|].
  split; [vm_compute; reflexivity|]. split; vm_compute; reflexivity.
Qed.

(** C26. Refining a tetrahedral mesh. Missing: meshes with a vertex that has more
    than 255 neighbours with larger numbers, see below. *)
Theorem C26_refinement_3D_partial : forall V C, mesh_ok 3 4 V C -> fits_index V -> few_neighbours C ->
  exists E C' lookup, refineCy3DedgeVals V C = Ok (refined_vertices V E, C', lookup) /\
    edge_list C E /\ children_of 8 C C' (eighths V E) /\ lookup_of V E lookup.
Proof. exact C26_thm. Qed.
Print Assumptions C26_refinement_3D_partial.

(** Each child has an eighth of the signed volume, whatever the diagonal, and the
    children subdivide a tetrahedron that is not degenerate. *)
Theorem C26_eighths : forall V C E C', mesh_ok 3 4 V C -> children_of 8 C C' (eighths V E) ->
  splits 3 8 (1 + 1 + 1 + 1 + 1 + 1 + 1 + 1) vol6 V (refined_vertices V E) C C'.
Proof. exact splits3. Qed.
Print Assumptions C26_eighths.

Definition fan3 : list (list nat) := map (fun i => [0; i; S i; S (S i)]) (seq 1 254).
Theorem C26_many_neighbours_refuted :
  exists V C, mesh_ok 3 4 V C /\ fits_index V /\ distinct_vertices C /\ refineCy3DedgeVals V C = Err EOob.
Proof.
  exists (fan_points 3 257), fan3. split; [|split; [|split]].
  - split; [intros p Hp; apply repeat_spec in Hp; subst; reflexivity|]. intros c Hc. apply in_map_iff in Hc as (i & <- & Hi). apply in_seq in Hi.
    split; [reflexivity|]. unfold fan_points. rewrite repeat_length. intros v [<-|[<-|[<-|[<-|[]]]]]; lia.
  - unfold fits_index, fan_points. rewrite repeat_length. vm_compute. discriminate.
  - intros c Hc. apply in_map_iff in Hc as (i & <- & Hi). apply in_seq in Hi. repeat constructor; cbn; lia.
  - vm_compute. reflexivity.
Qed.
Print Assumptions C26_many_neighbours_refuted.

(** Two tetrahedra with a common face. *)
Definition tets : list (list Qc) := [[qz 0; qz 0; qz 0]; [qz 2; qz 0; qz 0]; [qz 0; qz 2; qz 0]; [qz 0; qz 0; qz 4]; [qz 2; qz 2; qz 2]].
Definition tet_cells : list (list nat) := [[0; 1; 2; 3]; [4; 3; 2; 1]].
Example C26_example :
  mesh_ok 3 4 tets tet_cells /\ fits_index tets /\ few_neighbours tet_cells /\
  (forall c, In c tet_cells -> vol6 (corners tets c) <> 0%Qc) /\
  ('(_, C, l) <- show_mesh (refineCy3DedgeVals tets tet_cells) ;; Ok (C, map snd l)) =
    Ok ([[0; 5; 7; 9]; [5; 1; 6; 8]; [7; 6; 2; 10]; [9; 8; 10; 3]; [5; 8; 6; 9]; [9; 10; 8; 6]; [9; 10; 6; 7]; [5; 6; 7; 9];
         [4; 11; 12; 13]; [11; 3; 10; 8]; [12; 10; 2; 6]; [13; 8; 6; 1]; [11; 8; 10; 13]; [13; 6; 8; 10]; [13; 6; 10; 12]; [11; 10; 12; 13]], [5; 7; 9; 6; 8; 13; 10; 12; 11]).
Proof.
  assert (HM : mesh_ok 3 4 tets tet_cells).
  { split; [intros p [<-|[<-|[<-|[<-|[<-|[]]]]]]; reflexivity|]. intros c [<-|[<-|[]]]; (split; [reflexivity|]); intros v [<-|[<-|[<-|[<-|[]]]]]; cbn; lia. }
  split; [exact HM|]. split; [unfold fits_index; cbn; lia|].
  split; [apply (few_small 3 4 tets); auto; cbn; lia|].
  split; [intros c [<-|[<-|[]]] H; apply (f_equal this) in H; vm_compute in H; discriminate H|].
  vm_compute. reflexivity.
Qed.
