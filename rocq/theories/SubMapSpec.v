(** What DoFMaps are, and what it means that one is made from another. *)
From Verif Require Import Util Lin CSRModel SubMapModel.
Local Open Scope Z_scope.

(** The number of local degree of freedom [k] of cell [i]. *)
Definition grid := nat -> nat -> Z.
Definition the_grid (dm : dofmap) : grid := fun i k => nth (i * dofs_per_element dm + k) (dofs dm) 0.
(** The array has the right size. *)
Definition shaped (dm : dofmap) : Prop := length (dofs dm) = (num_cells dm * dofs_per_element dm)%nat.
(** Degrees of freedom are numbered 0, ..., n-1 and those on the boundary -1, ..., -nb,
    and no number is skipped. *)
Definition numbering (nc dpe : nat) (D : grid) (n nb : Z) : Prop :=
  0 <= n /\ 0 <= nb /\
  (forall i k, (i < nc)%nat -> (k < dpe)%nat -> - nb <= D i k < n) /\
  (forall v, - nb <= v < n -> exists i k, (i < nc)%nat /\ (k < dpe)%nat /\ D i k = v).
(** The same local degrees of freedom are the same ones globally. *)
Definition same_classes (nc dpe : nat) (D D' : grid) : Prop :=
  forall i k i' k', (i < nc)%nat -> (k < dpe)%nat -> (i' < nc)%nat -> (k' < dpe)%nat -> (D i k = D i' k' <-> D' i k = D' i' k').
(** [dm] is a DoFMap: sizes and numbers are right. *)
Definition is_dofmap (dm : dofmap) : Prop :=
  shaped dm /\ numbering (num_cells dm) (dofs_per_element dm) (the_grid dm) (num_dofs dm) (num_boundary_dofs dm).
(** [dm'] has nc cells and numbers anew what the grid [D] numbers; degrees of freedom
    are those of which [G] holds. *)
Definition renumbers (nc dpe : nat) (D : grid) (G : Z -> Prop) (dm' : dofmap) : Prop :=
  num_cells dm' = nc /\ dofs_per_element dm' = dpe /\ is_dofmap dm' /\
  same_classes nc dpe D (the_grid dm') /\
  (forall i k, (i < nc)%nat -> (k < dpe)%nat -> (0 <= the_grid dm' i k <-> G (D i k))).
(** The indicator of a degree of freedom is positive. *)
Definition indicated_dofs (ind : list Qc) (z : Z) : Prop := 0 <= z /\ (0 < vat ind (Z.to_nat z))%Qc.
(** A degree of freedom of a selected cell. *)
Definition on_selected (dm : dofmap) (sel : list nat) (z : Z) : Prop :=
  0 <= z /\ exists c k, In c sel /\ (k < dofs_per_element dm)%nat /\ the_grid dm c k = z.
(** The cells of a sub-mesh are some of those of the mesh. *)
Definition on_cells (D : grid) (sel : list nat) : grid := fun i k => D (nth i sel O) k.
Definition cells_of (dm : dofmap) (sel : list nat) : Prop := forall c, In c sel -> (c < num_cells dm)%nat.
(** [sub] keeps the degrees of freedom of the grid [D] and numbers its boundary anew. *)
Definition keeps (nc dpe : nat) (D : grid) (n : Z) (sub : dofmap) : Prop :=
  num_cells sub = nc /\ dofs_per_element sub = dpe /\ shaped sub /\ num_dofs sub = n /\ 0 <= num_boundary_dofs sub /\
  (forall i k, (i < nc)%nat -> (k < dpe)%nat -> (0 <= D i k -> the_grid sub i k = D i k) /\ (D i k < 0 -> - num_boundary_dofs sub <= the_grid sub i k < 0)) /\
  same_classes nc dpe D (the_grid sub) /\
  (forall v, - num_boundary_dofs sub <= v < 0 -> exists i k, (i < nc)%nat /\ (k < dpe)%nat /\ the_grid sub i k = v).
(** All nodes are degrees of freedom of [full]. *)
Definition full_of (dm full : dofmap) : Prop :=
  num_cells full = num_cells dm /\ dofs_per_element full = dofs_per_element dm /\ is_dofmap full /\ num_boundary_dofs full = 0 /\
  same_classes (num_cells dm) (dofs_per_element dm) (the_grid dm) (the_grid full).
(** [R] takes the value of the degree of freedom [D i k] to [D' i k], wherever both are. *)
Definition takes (nc dpe : nat) (D D' : grid) (n n' : nat) (R : mat) : Prop :=
  forall r c, (r < n')%nat -> (c < n)%nat ->
    ((exists i k, (i < nc)%nat /\ (k < dpe)%nat /\ D' i k = Z.of_nat r /\ D i k = Z.of_nat c) -> R r c = 1%Qc) /\
    (~ (exists i k, (i < nc)%nat /\ (k < dpe)%nat /\ D' i k = Z.of_nat r /\ D i k = Z.of_nat c) -> R r c = 0%Qc).
(** So a function with values [x] has, on the part, the values it had. *)
Definition copies (nc dpe : nat) (D D' : grid) (n : nat) (R : mat) : Prop :=
  forall x i k, (i < nc)%nat -> (k < dpe)%nat -> 0 <= D' i k -> mv n R x (Z.to_nat (D' i k)) = x (Z.to_nat (D i k)).
(** [P] is the transpose. *)
Definition transposed (n n' : nat) (R P : mat) : Prop := forall i j, (i < n)%nat -> (j < n')%nat -> P i j = R j i.
(** [dm] has [nC] components in every degree of freedom of [scalar]. *)
Definition product_of (scalar : dofmap) (nC : nat) (dm : dofmap) : Prop :=
  num_cells dm = num_cells scalar /\ dofs_per_element dm = (dofs_per_element scalar * nC)%nat /\ shaped dm /\
  num_dofs dm = Z.of_nat nC * num_dofs scalar /\
  (forall i k c, (i < num_cells scalar)%nat -> (k < dofs_per_element scalar)%nat -> (c < nC)%nat ->
     the_grid dm i (k * nC + c)%nat = if 0 <=? the_grid scalar i k then Z.of_nat nC * the_grid scalar i k + Z.of_nat c else Z.of_nat nC * (the_grid scalar i k + 1) - Z.of_nat c - 1).
