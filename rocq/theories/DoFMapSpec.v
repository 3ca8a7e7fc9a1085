(** Numberings of degrees of freedom, without reference to how they are computed. *)
From Verif Require Import Util.

(** The parts of a mesh that carry DoFs: vertices, edges and faces, given by their
    vertex numbers in increasing order, and cells. *)
Inductive entity := EVertex (v : nat) | EEdge (a b : nat) | EFace (a b c : nat) | ECell (i : nat).

(** A DoF is given by the entity it belongs to and its position there. Positions on an
    edge count from the smaller to the larger vertex number. *)
Definition place := (entity * nat)%type.

Definition the_edge (a b : nat) : entity := EEdge (Nat.min a b) (Nat.max a b).
Definition the_face (a b c : nat) : entity :=
  let lo := Nat.min a (Nat.min b c) in let hi := Nat.max a (Nat.max b c) in EFace lo (a + b + c - lo - hi) hi.

(** Local edges and faces of the reference cells, as positions in the cell; edges have a
    direction. *)
Definition local_edges (manifold_dim : nat) : list (nat * nat) :=
  match manifold_dim with
  | 2 => [(0, 1); (1, 2); (2, 0)]
  | 3 => [(0, 1); (1, 2); (2, 0); (0, 3); (1, 3); (2, 3)]
  | _ => []
  end.
Definition local_faces (manifold_dim : nat) : list (nat * nat * nat) :=
  match manifold_dim with 3 => [(0, 1, 2); (0, 1, 3); (1, 2, 3); (0, 2, 3)] | _ => [] end.

(** The n DoFs on an entity, in the order of their positions or backwards. *)
Definition dofs_on (e : entity) (n : nat) (backwards : bool) : list place :=
  map (fun m => (e, if backwards then n - 1 - m else m)) (seq 0 n).

(** The local DoFs of the cell number i with vertices c, in the order of the columns of
    the array of DoF numbers. *)
Definition places (manifold_dim dpv dpe dpf dpc i : nat) (c : list nat) : list place :=
  flat_map (fun v => dofs_on (EVertex v) dpv false) c ++
  flat_map (fun ab => let x := nth (fst ab) c 0 in let y := nth (snd ab) c 0 in dofs_on (the_edge x y) dpe (y <? x)) (local_edges manifold_dim) ++
  flat_map (fun f => let '(x, y, z) := f in dofs_on (the_face (nth x c 0) (nth y c 0) (nth z c 0)) dpf false) (local_faces manifold_dim) ++
  dofs_on (ECell i) dpc false.

(** Some cell has d as number of its local DoF at place p. *)
Definition numbered (pl : nat -> list nat -> list place) (C : list (list nat)) (dofs : list (list Z)) (p : place) (d : Z) : Prop :=
  exists i c row j, nth_error C i = Some c /\ nth_error dofs i = Some row /\ nth_error (pl i c) j = Some p /\ nth_error row j = Some d.

(** The entities on the boundary that are given DoFs: those of the lists bv, be, bf. *)
Definition on_boundary (bv : list nat) (be : list (nat * nat)) (bf : list (nat * nat * nat)) (e : entity) : Prop :=
  (exists v, In v bv /\ e = EVertex v) \/ (exists a b, In (a, b) be /\ e = the_edge a b) \/ (exists a b c, In (a, b, c) bf /\ e = the_face a b c).

(** The cells before number [upto] have a DoF at e. *)
Definition in_cells (pl : nat -> list nat -> list place) (C : list (list nat)) (upto : nat) (e : entity) : Prop :=
  exists i c n, i < upto /\ nth_error C i = Some c /\ In (e, n) (pl i c).

(** Number of times a face occurs in the list bf and in the cells. *)
Definition face_eq_dec (x y : entity) : {x = y} + {x <> y}.
Proof. decide equality; apply Nat.eq_dec. Defined.
Definition face_uses (manifold_dim : nat) (C : list (list nat)) (bf : list (nat * nat * nat)) : list entity :=
  map (fun f => let '(x, y, z) := f in the_face x y z) bf ++
  flat_map (fun c => map (fun f => let '(x, y, z) := f in the_face (nth x c 0) (nth y c 0) (nth z c 0)) (local_faces manifold_dim)) C.

(** Input of the numbering: cells of the right size with valid vertices, lists of the
    boundary without repetitions, and no face that is used more than twice. *)
Definition dofmap_input (manifold_dim num_vertices : nat) (C : list (list nat)) (bv : list nat) (be : list (nat * nat)) (bf : list (nat * nat * nat)) : Prop :=
  manifold_dim <= 3 /\
  (forall c, In c C -> length c = manifold_dim + 1 /\ forall v, In v c -> v < num_vertices) /\
  NoDup bv /\ (forall v, In v bv -> v < num_vertices) /\
  NoDup (map (fun ab => the_edge (fst ab) (snd ab)) be) /\
  NoDup (map (fun f => let '(x, y, z) := f in the_face x y z) bf) /\
  (forall f, count_occ face_eq_dec (face_uses manifold_dim C bf) f <= 2).

(** Edges only in 2D and 3D, faces only in 3D; no boundary vertices of a 0D mesh. *)
Definition dofmap_counts (manifold_dim dpv dpe dpf : nat) (bv : list nat) (be : list (nat * nat)) (bf : list (nat * nat * nat)) : Prop :=
  (manifold_dim <= 1 -> dpe = 0) /\ (manifold_dim <= 2 -> dpf = 0) /\ (manifold_dim = 0 -> bv = []).

(** No cell runs along an edge of the list against the order of its vertex numbers. *)
Definition boundary_edges_forward (manifold_dim : nat) (C : list (list nat)) (be : list (nat * nat)) : Prop :=
  forall c a b, In c C -> In (a, b) (local_edges manifold_dim) ->
    (exists x y, In (x, y) be /\ the_edge x y = the_edge (nth a c 0) (nth b c 0)) -> nth a c 0 <= nth b c 0.

(** Number of DoFs an entity carries. *)
Definition dof_count (dpv dpe dpf dpc : nat) (e : entity) : nat :=
  match e with EVertex _ => dpv | EEdge _ _ => dpe | EFace _ _ _ => dpf | ECell _ => dpc end.

(** Only the cells before this number are given DoFs of their own. *)
Definition cells_with_dofs (num_cells : nat) (skipCellsAfter : Z) : nat :=
  if (skipCellsAfter =? -1)%Z then num_cells else Z.to_nat skipCellsAfter.

(** [dofs] numbers the places of the cells: places that get a DoF (those on the boundary
    and those in the first cells) have equal numbers exactly if they are equal; the
    numbers on the boundary are -1, ..., -num_boundary_dofs, the others are 0, ...,
    num_dofs-1; the remaining places hold a number that is no DoF. *)
Definition is_numbering (pl : nat -> list nat -> list place) (C : list (list nat)) (upto : nat) (bdry : entity -> Prop) (count : entity -> nat)
    (unassigned : Z) (dofs : list (list Z)) (num_dofs num_boundary_dofs : Z) : Prop :=
  let given e := bdry e \/ in_cells pl C upto e in
  length dofs = length C /\
  (forall i c row, nth_error C i = Some c -> nth_error dofs i = Some row -> length row = length (pl i c)) /\
  (forall p d p' d', numbered pl C dofs p d -> numbered pl C dofs p' d' -> given (fst p) -> given (fst p') -> (d = d' <-> p = p')) /\
  (forall p d, numbered pl C dofs p d -> bdry (fst p) -> - num_boundary_dofs <= d < 0)%Z /\
  (forall p d, numbered pl C dofs p d -> ~ bdry (fst p) -> in_cells pl C upto (fst p) -> 0 <= d < num_dofs)%Z /\
  (forall p d, numbered pl C dofs p d -> ~ given (fst p) -> d = unassigned) /\
  (forall d, 0 <= d < num_dofs -> exists p, ~ bdry (fst p) /\ in_cells pl C upto (fst p) /\ numbered pl C dofs p d)%Z /\
  ((forall e, bdry e -> (0 < count e)%nat -> in_cells pl C (length C) e) ->
   forall d, - num_boundary_dofs <= d < 0 -> exists p, bdry (fst p) /\ numbered pl C dofs p d)%Z.

(** Places of a vector valued space: [n] components at each place of the scalar space. *)
Definition component (n : nat) (p : place) (j : nat) : place := (fst p, snd p * n + j).
Definition product_places (n : nat) (pl : nat -> list nat -> list place) (i : nat) (c : list nat) : list place :=
  flat_map (fun p => map (component n p) (seq 0 n)) (pl i c).

(** Number of local DoFs of a cell. *)
Definition local_dofs (manifold_dim dpv dpe dpf dpc : nat) : nat :=
  (manifold_dim + 1) * dpv + length (local_edges manifold_dim) * dpe + length (local_faces manifold_dim) * dpf + dpc.
