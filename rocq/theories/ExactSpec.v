(** Gradients and curls of finite element functions by their degrees of freedom. *)
From Verif Require Import Util Lin CSRModel MeshSpec AssemblyModel AssemblySpec FormsSpec.
Local Open Scope Qc_scope.

(** Local edge e of a triangle goes from its corner e to the next one. *)
Definition edge_ends (c : list nat) (e : nat) : nat * nat := (nth e c O, nth ((e + 1) mod 3) c O).
(** Degree of freedom I is the edge from the first to the second vertex of E(I), of which the second has the larger number. *)
Definition numbers_edges (C : list (list nat)) (dofs : list (list Z)) (E : nat -> nat * nat) : Prop :=
  forall i c e, nth_error C i = Some c -> (e < 3)%nat -> (0 <= dof dofs i e)%Z ->
    E (Z.to_nat (dof dofs i e)) = let '(a, b) := edge_ends c e in if (a <? b)%nat then (a, b) else (b, a).
(** The degree of freedom of a vertex v is num(v). *)
Definition numbers_vertices (C : list (list nat)) (dofs : list (list Z)) (num : nat -> Z) : Prop :=
  (forall i c k, nth_error C i = Some c -> (k < 3)%nat -> dof dofs i k = num (nth k c O)) /\
  (forall a b, (0 <= num a)%Z -> num a = num b -> a = b).
(** The degree of freedom of cell i is num(i). *)
Definition numbers_cells (C : list (list nat)) (dofs : list (list Z)) (num : nat -> Z) : Prop :=
  (forall i, (i < length C)%nat -> dof dofs i 0 = num i) /\
  (forall i j, (0 <= num i)%Z -> num i = num j -> i = j).
(** Every degree of freedom belongs to one of the cells. *)
Definition all_used (n dpe : nat) (dofs : list (list Z)) (cs : list nat) : Prop :=
  forall I, (I < n)%nat -> exists i e, In i cs /\ (e < dpe)%nat /\ dof dofs i e = Z.of_nat I.
(** Cells with three different vertices. *)
Definition triangles (C : list (list nat)) : Prop := forall c, In c C -> length c = 3%nat /\ NoDup c.
(** Edge e of the triangle points from the smaller to the larger number, or not. *)
Definition sign (c : list nat) (e : nat) : Qc := let '(a, b) := edge_ends c e in if (a <? b)%nat then 1 else - (1).
