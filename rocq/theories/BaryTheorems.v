(** C29: barycentric coordinates, point location and cell centers. *)
From Verif Require Import Util Lin MeshSpec MeshModel BaryModel BarySpec BaryProofs.

(** C29. In 1D the computed coordinates sum to one and reproduce the point, they are the
    only ones that do, and end points get unit coordinates. This holds for every cell
    with distinct end points, every point (also outside of the cell), and whatever the
    result array contained. *)
Theorem C29_line p q x bary : length p = 1 -> length q = 1 -> length x = 1 -> length bary = 2 -> vat p 0 <> vat q 0 ->
  exists l, getBarycentricCoords1D [map Some p; map Some q] x bary = Ok (map Some l) /\ the_bary_coords 1 [p; q] x l /\
    (forall i, nth_error [p; q] i = Some x -> l = unit_coords 2 i).
Proof. exact (C29_line_lemma p q x bary). Qed.
Print Assumptions C29_line.

(** The same for triangles of non-zero area in the plane. *)
Theorem C29_triangle p q r x bary : length p = 2 -> length q = 2 -> length r = 2 -> length x = 2 -> length bary = 3 -> area2 [p; q; r] <> 0%Qc ->
  exists l, getBarycentricCoords2D [map Some p; map Some q; map Some r] x bary = Ok (map Some l) /\ the_bary_coords 2 [p; q; r] x l /\
    (forall i, nth_error [p; q; r] i = Some x -> l = unit_coords 3 i).
Proof. exact (C29_triangle_lemma p q r x bary). Qed.
Print Assumptions C29_triangle.

Example C29_triangle_example :
  area2 [[qz 1; qz 0]; [qz 3; qz 1]; [qz 0; qz 4]] <> 0%Qc /\
  show_buf (getBarycentricCoords2D [map Some [qz 1; qz 0]; map Some [qz 3; qz 1]; map Some [qz 0; qz 4]] [qz 4; qz (-3)] (alloc 3))
  = Ok [Some (1 # 1); Some (1 # 1); Some (-1 # 1)]%Q.
Proof. split; [discriminate|vm_compute; reflexivity]. Qed.

(** vertexInCell decides whether a point lies in a cell (boundary included), for
    intervals and triangles; with a tolerance it checks that no coordinate is below
    -tol. *)
Theorem C29_vertexInCell sq dim V C i c x mem bary : mesh_ok dim (dim + 1) V C -> nth_error C i = Some c -> measure dim (corners V c) <> 0%Qc ->
  length x = dim -> shape (dim + 1) dim mem -> length bary = dim + 1 ->
  exists b l, vertexInCell sq dim dim V C x i mem bary 0 = Ok (b, map (map Some) (corners V c), map Some l) /\ length l = dim + 1 /\
    (b = true <-> inside dim (corners V c) x).
Proof. exact (vertexInCell_inside sq dim V C i c x mem bary). Qed.
Print Assumptions C29_vertexInCell.

Theorem C29_vertexInCell_tolerance sq dim V C i c x mem bary tol : mesh_ok dim (dim + 1) V C -> nth_error C i = Some c -> measure dim (corners V c) <> 0%Qc ->
  length x = dim -> shape (dim + 1) dim mem -> length bary = dim + 1 ->
  exists b l, vertexInCell sq dim dim V C x i mem bary tol = Ok (b, map (map Some) (corners V c), map Some l) /\
    the_bary_coords dim (corners V c) x l /\ (b = true <-> forall w, In w l -> (- tol <= w)%Qc).
Proof. exact (vertexInCell_ok sq dim V C i c x mem bary tol). Qed.
Print Assumptions C29_vertexInCell_tolerance.

(** findCell returns the first of the candidates that contains the point, and -1 only if
    none of them does. Which candidates the k-d tree proposes is not modelled. *)
Theorem C29_findCell sq dim V C x cand : mesh_ok dim (dim + 1) V C -> (forall i c, nth_error C i = Some c -> measure dim (corners V c) <> 0%Qc) ->
  length x = dim -> (forall i, In i cand -> i < length C) -> forall mem bary, shape (dim + 1) dim mem -> length bary = dim + 1 ->
  exists r, findCell sq dim dim V C x cand mem bary = Ok r /\
    match r with
    | Some i => exists n c, nth_error cand n = Some i /\ nth_error C i = Some c /\ inside dim (corners V c) x /\
                 forall m j d, m < n -> nth_error cand m = Some j -> nth_error C j = Some d -> ~ inside dim (corners V d) x
    | None => forall j d, In j cand -> nth_error C j = Some d -> ~ inside dim (corners V d) x
    end.
Proof. exact (findCell_ok sq dim V C x cand). Qed.
Print Assumptions C29_findCell.

(** Two triangles that make up a square. *)
Definition square_V : list (list Qc) := [[0; 0]; [1; 0]; [0; 1]; [1; 1]]%Qc.
Definition square_C : list (list nat) := [[0; 1; 2]; [1; 3; 2]].
Example C29_findCell_example :
  mesh_ok 2 3 square_V square_C /\ (forall i c, nth_error square_C i = Some c -> measure 2 (corners square_V c) <> 0%Qc) /\
  (forall sq, findCell sq 2 2 square_V square_C [qz 1 / qz 2; qz 3 / qz 4]%Qc [0; 1] (alloc2 3 2) (alloc 3) = Ok (Some 1)) /\
  (forall sq, findCell sq 2 2 square_V square_C [qz 1 / qz 2; qz 5 / qz 4]%Qc [0; 1] (alloc2 3 2) (alloc 3) = Ok None).
Proof.
  split; [|split].
  - split.
    + intros p [<-|[<-|[<-|[<-|[]]]]]; reflexivity.
    + intros c [<-|[<-|[]]]; (split; [reflexivity|]); intros v Hv; cbn in *; intuition lia.
  - intros [|[|[|i]]] c Hi; cbn in Hi; try discriminate; injection Hi as <-; discriminate.
  - split; intros sq; vm_compute; reflexivity.
Qed.

(** Segments in the plane and in space: the code divides a signed difference of one
    coordinate by the length of the segment. What is right: segments parallel to a
    coordinate axis whose first end point is the one further along that axis, and longer
    than 1e-10. *)
Theorem C29_line_in_plane_partial sq a j p q x bary : is_sqrt sq -> ahead 2 j a p q -> (tiny < a)%Qc -> on_line 2 p q x ->
  length p = 2 -> length q = 2 -> length x = 2 -> length bary = 2 ->
  exists l, getBarycentricCoords1Din2D sq [map Some p; map Some q] x bary = Ok (map Some l) /\ the_bary_coords 2 [p; q] x l.
Proof. exact (bary1in2_ok sq a j p q x bary). Qed.
Print Assumptions C29_line_in_plane_partial.

Theorem C29_line_in_space_partial sq a j p q x bary : is_sqrt sq -> ahead 3 j a p q -> (tiny < a)%Qc -> on_line 3 p q x ->
  length p = 3 -> length q = 3 -> length x = 3 -> length bary = 2 ->
  exists l, getBarycentricCoords1Din3D sq [map Some p; map Some q] x bary = Ok (map Some l) /\ the_bary_coords 3 [p; q] x l.
Proof. exact (bary1in3_ok sq a j p q x bary). Qed.
Print Assumptions C29_line_in_space_partial.

Example C29_line_in_plane_example : ahead 2 1 (qz 2) [qz 5; qz 3] [qz 5; qz 1] /\ (tiny < qz 2)%Qc /\ on_line 2 [qz 5; qz 3] [qz 5; qz 1] [qz 5; qz 2].
Proof.
  split; [split; [lia|intros [|[|k]] Hk; [apply Qc_is_canon; vm_compute; reflexivity|apply Qc_is_canon; vm_compute; reflexivity|lia]]|]. split; [reflexivity|].
  exists (/ qz 2)%Qc. intros [|[|k]] Hk; [apply Qc_is_canon; vm_compute; reflexivity|apply Qc_is_canon; vm_compute; reflexivity|lia].
Qed.

(** For other segments the result is wrong, whatever square root is used: the segment
    from the origin to (1, 0) does not contain the origin according to vertexInCell. *)
Theorem C29_line_in_plane_refuted sq : is_sqrt sq -> let V := [[0; 0]; [1; 0]]%Qc in
  vertexInCell sq 2 1 V [[0; 1]] (point V 0) 0 [[None; None]; [None; None]] [None; None] 0 = Ok (false, map (map Some) V, map Some [- (1); 1 + 1]%Qc) /\
  inside 2 V (point V 0).
Proof. exact (line_refuted2 sq). Qed.
Print Assumptions C29_line_in_plane_refuted.

Theorem C29_line_in_space_refuted sq : is_sqrt sq -> let V := [[0; 0; 0]; [0; 0; 1]]%Qc in
  vertexInCell sq 3 1 V [[0; 1]] (point V 0) 0 [[None; None; None]; [None; None; None]] [None; None] 0 = Ok (false, map (map Some) V, map Some [- (1); 1 + 1]%Qc) /\
  inside 3 V (point V 0).
Proof. exact (line_refuted3 sq). Qed.
Print Assumptions C29_line_in_space_refuted.

(** Slanted segments are wrong as well: the corner (3, 4) of the segment to the origin
    gets the coordinates (3/5, 2/5). *)
Theorem C29_slanted_line_refuted sq : is_sqrt sq -> let p := [qz 3; qz 4] in let q := [0; 0]%Qc in
  exists l, getBarycentricCoords1Din2D sq [map Some p; map Some q] p [None; None] = Ok (map Some l) /\ map this l = [(3 # 5)%Q; (2 # 5)%Q].
Proof. exact (line_refuted_slanted sq). Qed.
Print Assumptions C29_slanted_line_refuted.

(** Triangles in space: right if the plane of the triangle does not contain the origin
    and the point is in that plane. *)
Theorem C29_surface_partial p q r x l bary : length p = 3 -> length q = 3 -> length r = 3 -> length x = 3 -> length bary = 3 ->
  vol6 [[0; 0; 0]%Qc; p; q; r] <> 0%Qc -> bary_coords 3 [p; q; r] x l ->
  getBarycentricCoords2Din3D [map Some p; map Some q; map Some r] x bary = Ok (map Some l).
Proof. exact (bary2in3_ok p q r x l bary). Qed.
Print Assumptions C29_surface_partial.

Example C29_surface_example : vol6 [[0; 0; 0]%Qc; [qz 2; 0; 0]; [0; qz 3; 0]; [0; 0; qz 1]]%Qc <> 0%Qc /\
  bary_coords 3 [[qz 2; 0; 0]; [0; qz 3; 0]; [0; 0; qz 1]]%Qc [qz 4; 0; - (1)]%Qc [qz 2; 0; - (1)]%Qc.
Proof.
  split; [discriminate|]. split; [reflexivity|]. split; [apply Qc_is_canon; vm_compute; reflexivity|].
  intros [|[|[|k]]] Hk; try lia; apply Qc_is_canon; vm_compute; reflexivity.
Qed.

(** Without these conditions: every triangle with a corner in the origin gives a singular
    system, here for all points; and (1, 1, 1) counts as a point of the triangle spanned
    by the unit vectors. *)
Theorem C29_surface_refuted : (forall x bary, length x = 3 -> length bary = 3 ->
   getBarycentricCoords2Din3D [map Some [0; 0; 0]%Qc; map Some [1; 0; 0]%Qc; map Some [0; 1; 0]%Qc] x bary = Err EDiv0) /\
  (forall sq, exists m b, let V := [[1; 0; 0]; [0; 1; 0]; [0; 0; 1]]%Qc in
     vertexInCell sq 3 2 V [[0; 1; 2]] [1; 1; 1]%Qc 0 (alloc2 3 3) (alloc 3) 0 = Ok (true, m, b) /\ ~ inside 3 V [1; 1; 1]%Qc).
Proof. exact surface_refuted. Qed.
Print Assumptions C29_surface_refuted.

(** The cell centers are the averages of the corners. *)
Theorem C29_cell_centers dim mdim V C : mesh_ok dim (mdim + 1) V C ->
  getCellCenters dim mdim V C = Ok (map (fun c => average dim (corners V c)) C).
Proof. exact (getCellCenters_ok dim mdim V C). Qed.
Print Assumptions C29_cell_centers.

Example C29_cell_centers_example :
  (r <- getCellCenters 2 2 square_V square_C ;; Ok (map (map this) r)) = Ok [[1 # 3; 1 # 3]; [2 # 3; 2 # 3]]%Q.
Proof. vm_compute. reflexivity. Qed.
