(** Transfer between nested finite element spaces, without reference to how the
    operators are computed. *)
From Coq Require Qcabs.
From Verif Require Import Util Lin MeshSpec DoFMapSpec LocalModel RestrictionModel.

(** Number of DoFs per vertex, edge, face and cell of the spaces of piecewise
    polynomials. *)
Definition fe_counts (e : fe) (d : nat) : nat * nat * nat * nat :=
  match e, d with
  | P0, _ => (0, 0, 0, 1)
  | P1, _ => (1, 0, 0, 0)
  | P2, 1 => (1, 0, 0, 1)
  | P2, _ => (1, 1, 0, 0)
  | P3, 1 => (1, 0, 0, 2)
  | P3, 2 => (1, 2, 0, 1)
  | P3, _ => (1, 2, 1, 0)
  end.
Definition fe_places (e : fe) (d : nat) : nat -> list nat -> list place :=
  let '(dpv, dpe, dpf, dpc) := fe_counts e d in places d dpv dpe dpf dpc.
Definition fe_shapes (e : fe) (d : nat) : list (list Qc -> Qc) :=
  match e with P0 => [shapeP0] | P1 => shapesP1 d | P2 => shapesP2 d | P3 => shapesP3 d end.
(** The points at which one shape function is 1 and the others are 0. *)
Definition fe_nodes (e : fe) (d : nat) : list (list Qc) :=
  match e with P0 => [tab (S d) (fun _ => (/ qz (Z.of_nat (S d)))%Qc)] | P1 => nodesP1 d | P2 => nodesP2 d | P3 => nodesP3 d end.

(** Part of the boundary on which the functions are zero. *)
Definition bdata := (list nat * list (nat * nat) * list (nat * nat * nat))%type.
Definition on_bdata (b : bdata) : entity -> Prop := let '(bv, be, bf) := b in on_boundary bv be bf.

(** [dofs] numbers the DoFs of the space on the mesh with cells C: local DoFs on the
    boundary have negative numbers, the others have the numbers 0, ..., num_dofs-1, and
    they have the same number exactly if they are at the same place. *)
Definition fe_numbering (e : fe) (d : nat) (C : list (list nat)) (b : bdata) (dofs : list (list Z)) (num_dofs : nat) : Prop :=
  let is := numbered (fe_places e d) C dofs in
  length dofs = length C /\
  (forall i c row, nth_error C i = Some c -> nth_error dofs i = Some row -> length row = length (fe_places e d i c)) /\
  (forall p z, is p z -> on_bdata b (fst p) -> z < 0)%Z /\
  (forall p z, is p z -> ~ on_bdata b (fst p) -> 0 <= z < Z.of_nat num_dofs)%Z /\
  (forall p z p' z', is p z -> is p' z' -> 0 <= z -> (z = z' <-> p = p'))%Z /\
  (forall z, 0 <= z < Z.of_nat num_dofs -> exists p, is p z)%Z.

(** The value of the function with coefficients u at the point of a cell with barycentric
    coordinates l; [row] are the numbers of the DoFs of the cell. Coefficients of DoFs on
    the boundary are zero. *)
Definition coefficient (u : list Qc) (dof : Z) : Qc := if (0 <=? dof)%Z then vat u (Z.to_nat dof) else 0%Qc.
Definition fe_value (e : fe) (d : nat) (row : list Z) (u : list Qc) (l : list Qc) : Qc :=
  suml (map (fun p => coefficient u (fst p) * snd p l)%Qc (combine row (fe_shapes e d))).

(** C' is the refinement of C, with new vertices at the midpoints of the edges E. *)
Definition refinement (d : nat) (V : list (list Qc)) (E : list (nat * nat)) (C C' : list (list nat)) : Prop :=
  NoDup E /\
  match d with
  | 1 => children_of 2 C C' (halves V E)
  | 2 => children_of 4 C C' (quarters V E)
  | _ => children_of 8 C C' (eighths V E)
  end.
(** No two cells have the same vertices. *)
Definition distinct_cells (C : list (list nat)) : Prop :=
  forall i j c c', nth_error C i = Some c -> nth_error C j = Some c' -> incl c c' -> i = j.

(** The old vertices that a vertex of the refined mesh lies between. *)
Definition parents (num_vertices : nat) (E : list (nat * nat)) (v : nat) : list nat :=
  if v <? num_vertices then [v] else let e := nth (v - num_vertices) E (0, 0) in [fst e; snd e].
Definition vertices_of (C : list (list nat)) (e : entity) : list nat :=
  match e with EVertex v => [v] | EEdge a b => [a; b] | EFace a b c => [a; b; c] | ECell i => nth i C [] end.
(** The zero boundary of the fine space lies on that of the coarse space: an entity of the
    coarse mesh whose vertices are among the parents of the vertices of a fine boundary
    entity is on the boundary. *)
Definition boundary_contained (e : fe) (d num_vertices : nat) (E : list (nat * nat)) (C C' : list (list nat)) (b b' : bdata) : Prop :=
  forall x y, on_bdata b' y -> in_cells (fe_places e d) C (length C) x ->
    incl (vertices_of C x) (flat_map (parents num_vertices E) (vertices_of C' y)) -> on_bdata b x.

(** No DoF of the coarse space meets more than 65535 DoFs of the fine space. *)
Definition few_couplings (nsub : nat) (dofsC dofsF : list (list Z)) : Prop :=
  forall I Js, NoDup Js ->
    (forall J, In J Js -> exists i s row rowF, s < nsub /\ nth_error dofsC i = Some row /\ In I row /\ nth_error dofsF (nsub * i + s) = Some rowF /\ In J rowF) ->
    length Js < 2 ^ 16.

(** l are barycentric coordinates for d+1 points. *)
Definition coordinates (d : nat) (l : list Qc) : Prop := length l = S d /\ total l = 1%Qc.

(** The function with coefficients v on the mesh (V', C') is that with coefficients u on
    the mesh (V, C): every cell i of C consists of the cells nsub*i, ..., nsub*i+nsub-1 of C',
    and the values are equal at each point of these. *)
Definition same_fe_function (nsub dim d : nat) (coarse fine : fe) (V : list (list Qc)) (C : list (list nat)) (dofsC : list (list Z)) (u : list Qc)
    (V' : list (list Qc)) (C' : list (list nat)) (dofsF : list (list Z)) (v : list Qc) : Prop :=
  forall i c row s t rowF l l', s < nsub -> nth_error C i = Some c -> nth_error dofsC i = Some row ->
    nth_error C' (nsub * i + s) = Some t -> nth_error dofsF (nsub * i + s) = Some rowF ->
    independent dim (corners V c) -> coordinates d l -> coordinates d l' ->
    (forall k, k < dim -> combination l (corners V' t) k = combination l' (corners V c) k) ->
    fe_value fine d rowF v l = fe_value coarse d row u l'.

(** The coefficients v of a function on the same mesh are, up to eps times the size of the
    coefficients of a cell, the values at the nodes of the function with coefficients u. *)
Definition near_fe_function (eps : Qc) (d : nat) (coarse fine : fe) (dofsC : list (list Z)) (u : list Qc) (dofsF : list (list Z)) (v : list Qc) : Prop :=
  forall i row rowF k dof, nth_error dofsC i = Some row -> nth_error dofsF i = Some rowF -> nth_error rowF k = Some dof ->
    (Qcabs.Qcabs (coefficient v dof - fe_value coarse d row u (nth k (fe_nodes fine d) [])) <= eps * suml (map (fun z => Qcabs.Qcabs (coefficient u z)) row))%Qc.
