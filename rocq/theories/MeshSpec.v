(** Meshes and their uniform refinement. *)
From Coq Require Import Permutation.
From Verif Require Import Util Lin.

(** Vertices are rows of [dim] coordinates, cells rows of k vertex numbers. *)
Definition mesh_ok (dim k : nat) (V : list (list Qc)) (C : list (list nat)) : Prop :=
  (forall p, In p V -> length p = dim) /\
  (forall c, In c C -> length c = k /\ forall v, In v c -> v < length V).

(** Vertex numbers fit into 31 bits. *)
Definition fits_index (V : list (list Qc)) : Prop := (Z.of_nat (length V) <= 2147483648)%Z.

(** Three vertex numbers that fit into 31 bits. *)
Definition in_range3 (f : Z * Z * Z) : Prop := let '(a, b, c) := f in (0 <= a < 2147483648 /\ 0 <= b < 2147483648 /\ 0 <= c < 2147483648)%Z.

(** Edges of cells, as pairs of the smaller and the larger vertex number. *)
Definition joins (c : list nat) (e : nat * nat) : Prop :=
  exists i j a b, i < j /\ nth_error c i = Some a /\ nth_error c j = Some b /\ e = (Nat.min a b, Nat.max a b).
Definition edge_of (C : list (list nat)) (e : nat * nat) : Prop := exists c, In c C /\ joins c e.

(** All edges of the cells, each once. *)
Definition edge_list (C : list (list nat)) (E : list (nat * nat)) : Prop :=
  NoDup E /\ forall e, In e E <-> edge_of C e.

(** No cell has a vertex twice. *)
Definition distinct_vertices (C : list (list nat)) : Prop := forall c, In c C -> NoDup c.

(** No two cells of a 1D mesh have the same end points. *)
Definition distinct_edges (C : list (list nat)) : Prop :=
  forall i j c d e, nth_error C i = Some c -> nth_error C j = Some d -> joins c e -> joins d e -> i = j.

(** [sort] sorts lists by the comparison function of the C library. *)
Definition sorts (compare : nat * nat -> nat * nat -> Z) (sort : list (nat * nat) -> list (nat * nat)) : Prop :=
  forall l, Permutation l (sort l) /\
    forall i j e f, i < j -> nth_error (sort l) i = Some e -> nth_error (sort l) j = Some f -> (compare e f <= 0)%Z.

(** No vertex has more than 255 neighbours with a larger number. *)
Definition few_neighbours (C : list (list nat)) : Prop :=
  forall a bs, NoDup bs -> (forall b, In b bs -> edge_of C (a, b)) -> length bs <= 255.

Definition point (V : list (list Qc)) (a : nat) : list Qc := nth a V [].
Definition midpoint (p q : list Qc) : list Qc := tab (length p) (fun k => ((vat p k + vat q k) / (1 + 1))%Qc).

(** The vertices of the refined mesh: the old ones, then the midpoints of E. *)
Definition refined_vertices (V : list (list Qc)) (E : list (nat * nat)) : list (list Qc) :=
  V ++ map (fun e => midpoint (point V (fst e)) (point V (snd e))) E.

(** m is the number of the midpoint of the edge between a and b. *)
Definition mid (V : list (list Qc)) (E : list (nat * nat)) (a b m : nat) : Prop :=
  exists k, nth_error E k = Some (Nat.min a b, Nat.max a b) /\ m = length V + k.

(** C' consists of the children of the cells of C, k per cell, in order. *)
Definition children_of (k : nat) (C C' : list (list nat)) (children : list nat -> list (list nat) -> Prop) : Prop :=
  length C' = k * length C /\
  forall i c, nth_error C i = Some c ->
    exists ch, children c ch /\ length ch = k /\ forall j, j < k -> nth_error C' (k * i + j) = nth_error ch j.

Definition halves (V : list (list Qc)) (E : list (nat * nat)) (c : list nat) (ch : list (list nat)) : Prop :=
  exists a b m, c = [a; b] /\ mid V E a b m /\ ch = [[a; m]; [m; b]].

Definition quarters (V : list (list Qc)) (E : list (nat * nat)) (c : list nat) (ch : list (list nat)) : Prop :=
  exists v0 v1 v2 m01 m12 m02, c = [v0; v1; v2] /\
    mid V E v0 v1 m01 /\ mid V E v1 v2 m12 /\ mid V E v0 v2 m02 /\
    ch = [[v0; m01; m02]; [v1; m12; m01]; [v2; m02; m12]; [m01; m12; m02]].

(** The three ways of cutting the octahedron left by the four corners. *)
Definition cut01_23 m01 m02 m03 m12 m13 m23 : list (list nat) :=
  [[m01; m12; m02; m23]; [m01; m23; m03; m13]; [m01; m02; m03; m23]; [m01; m13; m12; m23]].
Definition cut02_13 m01 m02 m03 m12 m13 m23 : list (list nat) :=
  [[m01; m02; m03; m13]; [m01; m12; m02; m13]; [m02; m03; m13; m23]; [m02; m13; m12; m23]].
Definition cut03_12 m01 m02 m03 m12 m13 m23 : list (list nat) :=
  [[m01; m13; m12; m03]; [m03; m23; m13; m12]; [m03; m23; m12; m02]; [m01; m12; m02; m03]].

Definition dist2 (p q : list Qc) : Qc :=
  ((vat p 0 - vat q 0) * (vat p 0 - vat q 0) + (vat p 1 - vat q 1) * (vat p 1 - vat q 1) + (vat p 2 - vat q 2) * (vat p 2 - vat q 2))%Qc.

(** The octahedron is cut along a shortest diagonal. *)
Definition eighths (V : list (list Qc)) (E : list (nat * nat)) (c : list nat) (ch : list (list nat)) : Prop :=
  let V' := refined_vertices V E in
  let d := fun a b => dist2 (point V' a) (point V' b) in
  exists v0 v1 v2 v3 m01 m02 m03 m12 m13 m23 inner, c = [v0; v1; v2; v3] /\
    mid V E v0 v1 m01 /\ mid V E v0 v2 m02 /\ mid V E v0 v3 m03 /\
    mid V E v1 v2 m12 /\ mid V E v1 v3 m13 /\ mid V E v2 v3 m23 /\
    ch = [[v0; m01; m02; m03]; [m01; v1; m12; m13]; [m02; m12; v2; m23]; [m03; m13; m23; v3]] ++ inner /\
    ((inner = cut01_23 m01 m02 m03 m12 m13 m23 /\ (d m01 m23 < d m02 m13)%Qc /\ (d m01 m23 < d m03 m12)%Qc) \/
     (inner = cut02_13 m01 m02 m03 m12 m13 m23 /\ (d m02 m13 <= d m01 m23)%Qc /\ (d m02 m13 < d m03 m12)%Qc) \/
     (inner = cut03_12 m01 m02 m03 m12 m13 m23 /\ (d m03 m12 <= d m01 m23)%Qc /\ (d m03 m12 <= d m02 m13)%Qc)).

(** ** Geometry *)

(** The point with barycentric coordinates l with respect to the points ps. *)
Fixpoint combination (l : list Qc) (ps : list (list Qc)) (k : nat) : Qc :=
  match l, ps with
  | w :: l, p :: ps => (w * vat p k + combination l ps k)%Qc
  | _, _ => 0%Qc
  end.
Fixpoint total (l : list Qc) : Qc := match l with [] => 0%Qc | w :: l => (w + total l)%Qc end.

(** x lies in the simplex with corners ps, strictly inside it. *)
Definition inside (dim : nat) (ps : list (list Qc)) (x : list Qc) : Prop :=
  exists l, length l = length ps /\ (forall w, In w l -> (0 <= w)%Qc) /\ total l = 1%Qc /\
    forall k, k < dim -> vat x k = combination l ps k.
Definition strictly_inside (dim : nat) (ps : list (list Qc)) (x : list Qc) : Prop :=
  exists l, length l = length ps /\ (forall w, In w l -> (0 < w)%Qc) /\ total l = 1%Qc /\
    forall k, k < dim -> vat x k = combination l ps k.

(** No two sets of barycentric coordinates give the same point. *)
Definition independent (dim : nat) (ps : list (list Qc)) : Prop :=
  forall l l', length l = length ps -> length l' = length ps -> total l = 1%Qc -> total l' = 1%Qc ->
    (forall k, k < dim -> combination l ps k = combination l' ps k) -> l = l'.

Definition corners (V : list (list Qc)) (c : list nat) : list (list Qc) := map (point V) c.

(** Signed length, twice the signed area, six times the signed volume. *)
Definition len1 (ps : list (list Qc)) : Qc :=
  match ps with
  | [p; q] => (vat q 0 - vat p 0)%Qc
  | _ => 0%Qc
  end.
Definition area2 (ps : list (list Qc)) : Qc :=
  match ps with
  | [p; q; r] => ((vat q 0 - vat p 0) * (vat r 1 - vat p 1) - (vat q 1 - vat p 1) * (vat r 0 - vat p 0))%Qc
  | _ => 0%Qc
  end.
Definition vol6 (ps : list (list Qc)) : Qc :=
  match ps with
  | [p; q; r; s] =>
      let a := fun k => (vat q k - vat p k)%Qc in
      let b := fun k => (vat r k - vat p k)%Qc in
      let c := fun k => (vat s k - vat p k)%Qc in
      (a 0%nat * (b 1%nat * c 2%nat - b 2%nat * c 1%nat) - a 1%nat * (b 0%nat * c 2%nat - b 2%nat * c 0%nat) + a 2%nat * (b 0%nat * c 1%nat - b 1%nat * c 0%nat))%Qc
  | _ => 0%Qc
  end.

(** The cells ch subdivide the simplex ps: every point of ps is in one of them, all
    their points are in ps, and no point is inside two of them. *)
Definition subdivides (dim : nat) (ps : list (list Qc)) (ch : list (list (list Qc))) : Prop :=
  (forall x, inside dim ps x <-> exists qs, In qs ch /\ inside dim qs x) /\
  (forall i j qs rs x, i <> j -> nth_error ch i = Some qs -> nth_error ch j = Some rs ->
     strictly_inside dim qs x -> ~ inside dim rs x).

(** The children of a cell have an equal part of its signed measure, and subdivide
    it if it is not degenerate. [parts] is the number of children as a rational. *)
Definition splits (dim k : nat) (parts : Qc) (measure : list (list Qc) -> Qc) (V V' : list (list Qc)) (C C' : list (list nat)) : Prop :=
  length C' = k * length C /\
  forall i c, nth_error C i = Some c ->
    exists ch, length ch = k /\ (forall j, j < k -> nth_error C' (k * i + j) = nth_error ch j) /\
      (forall t, In t ch -> (measure (corners V' t) * parts)%Qc = measure (corners V c)) /\
      (measure (corners V c) <> 0%Qc -> subdivides dim (corners V c) (map (corners V') ch)).

(** The lookup table maps the code of each edge to the number of its midpoint. *)
Definition edge_code (e : nat * nat) : Z := (2147483648 * Z.of_nat (fst e) + Z.of_nat (snd e))%Z.
Definition lookup_of (V : list (list Qc)) (E : list (nat * nat)) (lookup : list (Z * nat)) : Prop :=
  Permutation lookup (combine (map edge_code E) (seq (length V) (length E))).
