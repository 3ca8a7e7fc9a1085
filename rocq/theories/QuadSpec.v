(** What a quadrature rule computes, and when it is exact. *)
From Verif Require Import Util Lin MeshSpec LocalSpec.
Local Open Scope Qc_scope.

(** A table of n nodes in d+1 barycentric coordinates, with weights. *)
Definition node_table (d n : nat) (nodes : list (list Qc)) (weights : list Qc) : Prop :=
  length nodes = S d /\ (forall row, In row nodes -> length row = n) /\ length weights = n.

(** The point with barycentric coordinates l in the simplex with corners vs. *)
Definition point_at (d : nat) (vs : list (list Qc)) (l : nat -> Qc) : list Qc :=
  tab d (fun m => sumf (S d) (fun k => l k * vat (nth k vs []) m)).
(** Barycentric coordinates of node i. *)
Definition coordinates (nodes : list (list Qc)) (i : nat) : nat -> Qc := fun k => vat (nth k nodes []) i.
(** The weighted sum of the values of f. *)
Definition weighted (d n : nat) (nodes : list (list Qc)) (weights : list Qc) (vs : list (list Qc)) (f : list Qc -> Qc) : Qc :=
  sumf n (fun i => vat weights i * f (point_at d vs (coordinates nodes i))).

(** vol is the volume of a simplex: the absolute value of the determinant over d!. *)
Definition is_volume (d : nat) (vs : list (list Qc)) (vol : Qc) : Prop := magnitude (vol * qz (Z.of_nat (fact d))) (det d vs).

(** On the simplex f is the polynomial p of the coordinates of the reference simplex. *)
Definition is_polynomial (d : nat) (vs : list (list Qc)) (f : list Qc -> Qc) (p : poly d) : Prop :=
  forall l, sumf (S d) l = 1 -> f (point_at d vs l) = value d p (fun k => l (S k)).
(** The integral of such a function over the simplex. *)
Definition integral_over (d : nat) (vs : list (list Qc)) (p : poly d) (v : Qc) : Prop :=
  exists J, magnitude J (det d vs) /\ v = J * integral d p.
(** On the reference simplex, of volume 1/d!, a rule gives the mean of every polynomial of
    degree at most k. *)
Definition exact_on_reference (d k n : nat) (nodes : list (list Qc)) (weights : list Qc) : Prop :=
  (forall i, (i < n)%nat -> sumf (S d) (coordinates nodes i) = 1) /\
  forall p, deg_le d k p = true ->
    sumf n (fun i => vat weights i * value d p (fun k => coordinates nodes i (S k))) = qz (Z.of_nat (fact d)) * integral d p.
