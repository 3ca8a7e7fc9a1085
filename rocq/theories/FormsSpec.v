(** Finite element functions, cell by cell. *)
From Verif Require Import Util Lin CSRModel MeshSpec LocalModel LocalSpec ReorderSpec AssemblyModel AssemblySpec FormsModel.
Local Open Scope Qc_scope.

(** The local shape functions of an element (theorem C31_shape_functions). *)
Definition shapes (el : element) (d : nat) : list (list Qc -> Qc) :=
  match el with P0 => [shapeP0] | P1 => shapesP1 d | P2 => shapesP2 d | P3 => shapesP3 d | N1e => [] end.

(** The sum of f(0), ..., f(n-1). *)
Definition psum (d n : nat) (f : nat -> poly d) : poly d := fold_right (padd d) (pconst d 0) (map f (seq 0 n)).
(** The function on cell i, as a polynomial on the reference simplex, whose coefficient with respect to
    the shape function of a degree of freedom z is coef(z). *)
Definition on_cell (d : nat) (ps : list (poly d)) (dofs : list (list Z)) (coef : Z -> Qc) (i : nat) : poly d :=
  psum d (length ps) (fun j => pscale d (coef (dof dofs i j)) (nth j ps (pconst d 0))).
(** Coefficients u for the interior degrees of freedom, zero on the boundary. *)
Definition interior (u : nat -> Qc) (z : Z) : Qc := if (z <? 0)%Z then 0 else u (Z.to_nat z).
(** The boundary data g, zero in the interior. *)
Definition lifting (g : list Qc) (z : Z) : Qc := if (z <? 0)%Z then vat g (Z.to_nat (- z - 1)) else 0.

(** All cells are simplices that are not flat; their determinants and gradients. *)
Definition solid (d : nat) (V : list (list Qc)) (C : list (list nat)) : Prop := forall c, In c C -> is_simplex d (corners V c).
Definition determinants (d : nat) (V : list (list Qc)) (C : list (list nat)) (Js : nat -> Qc) : Prop :=
  forall i c, nth_error C i = Some c -> magnitude (Js i) (det d (corners V c)).
Definition gradients (d : nat) (V : list (list Qc)) (C : list (list nat)) (gs : nat -> list (list Qc)) : Prop :=
  forall i c, nth_error C i = Some c -> gradients_of d (corners V c) (gs i).

(** The bilinear form of a matrix. *)
Definition form (n : nat) (M : mat) (v u : nat -> Qc) : Qc := sumf n (fun I => sumf n (fun J => v I * M I J * u J)).

(** Arguments of assembly: a mesh of simplices in their own dimension, a map with [dpe] degrees of freedom in a
    cell, of which no two interior ones are equal, and options that fit (see C38). *)
Definition arguments_ok (argsort : list nat -> list nat) (d : nat) (V : list (list Qc)) (C : list (list nat)) (dpe nb : nat) (dm : dofmap)
    (bd rhs : option (list Qc)) (A : option operator) (st en : option nat) (sss_format reorder : bool) (ci : option (list nat)) : Prop :=
  is_argsort argsort /\ mesh_ok d (d + 1) V C /\
  dm_dpe dm = dpe /\ dofs_ok (length C) dpe (dm_num dm) nb (dm_dofs dm) /\ dofs_distinct dpe (dm_dofs dm) /\
  range_fits (length C) en /\
  (A = None -> few_coupled (dm_dofs dm) (dm_dofs dm) dpe dpe (cell_range (length C) st en)) /\
  (A = None -> reorder = true -> (0 < dm_num dm)%nat) /\
  (forall g, bd = Some g -> (nb <= length g)%nat) /\
  (forall r, rhs = Some r -> length r = dm_num dm) /\
  (forall op, A = Some op -> op_ok (dm_num dm) op /\ forall I J, coupled (dm_dofs dm) (dm_dofs dm) dpe dpe (cell_range (length C) st en) I J -> op_stores op I J) /\
  (forall l, ci = Some l -> bd = None /\ match A with Some op => op_sss op | None => sss_format end = false /\ forall i, In i l -> In i (cell_range (length C) st en)).
(** The cells that contribute. *)
Definition chosen_cells (C : list (list nat)) (st en : option nat) (ci : option (list nat)) : list nat :=
  match ci with Some l => l | None => cell_range (length C) st en end.
(** The result is the (perhaps renumbered) map dm', the matrix of the form that has the value
    [B i] p q for functions p and q on cell i, added to the given matrix, and the contribution of the boundary data to the right-hand side. *)
Definition represents_form {T} (d : nat) (C : list (list nat)) (B : nat -> T -> T -> Qc) (on : list (list Z) -> (Z -> Qc) -> nat -> T) (dm : dofmap)
    (bd rhs : option (list Qc)) (A : option operator) (st en : option nat) (sss_format reorder : bool) (ci : option (list nat))
    (op : operator) (dm' : dofmap) (r : option (list Qc)) : Prop :=
  renumbered dm dm' /\ ((A <> None \/ reorder = false \/ dm_reordered dm = true) -> dm' = dm) /\
  op_sss op = match A with Some op => op_sss op | None => sss_format end /\ op_ok (dm_num dm) op /\
  (forall v u, form (dm_num dm) (op_matrix op) v u = (match A with Some op0 => form (dm_num dm) (op_matrix op0) v u | None => 0 end) +
    suml (map (fun i => B i (on (dm_dofs dm') (interior v) i) (on (dm_dofs dm') (interior u) i)) (chosen_cells C st en ci))) /\
  match bd with
  | Some g => exists r', r = Some r' /\ length r' = dm_num dm /\ forall v, sumf (dm_num dm) (fun I => v I * vat r' I) =
      (match rhs with Some r0 => sumf (dm_num dm) (fun I => v I * vat r0 I) | None => 0 end) -
      suml (map (fun i => B i (on (dm_dofs dm') (interior v) i) (on (dm_dofs dm') (lifting g) i)) (chosen_cells C st en ci))
  | None => r = rhs
  end.

(** Fields of edge elements: on cell i, the sum of the edge fields times coefficients. *)
Definition field_on_cell (C : list (list nat)) (dofs : list (list Z)) (coef : Z -> Qc) (i : nat) : list (poly 2) :=
  tab 3 (fun k => psum 2 3 (fun e => pscale 2 (coef (dof dofs i e)) (nth k (nth e (edge_fields (nth i C [])) []) (pconst 2 0)))).
