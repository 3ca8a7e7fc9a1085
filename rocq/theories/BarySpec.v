(** Barycentric coordinates, without reference to how they are computed. *)
From Verif Require Import Util Lin MeshSpec.

(** l are barycentric coordinates of x with respect to the corners ps. *)
Definition bary_coords (dim : nat) (ps : list (list Qc)) (x l : list Qc) : Prop :=
  length l = length ps /\ total l = 1%Qc /\ forall k, k < dim -> vat x k = combination l ps k.

(** ... and the only ones. *)
Definition the_bary_coords (dim : nat) (ps : list (list Qc)) (x l : list Qc) : Prop :=
  bary_coords dim ps x l /\ forall l', bary_coords dim ps x l' -> l' = l.

(** The coordinates of corner i. *)
Definition unit_coords (n i : nat) : list Qc := tab n (fun j => if j =? i then 1%Qc else 0%Qc).

(** Work space: n rows of m entries, with any contents. *)
Definition shape {A} (n m : nat) (mem : list (list A)) : Prop := length mem = n /\ forall r, In r mem -> length r = m.

(** Exact on squares. *)
Definition is_sqrt (sq : Qc -> Qc) : Prop := forall a, (0 <= a)%Qc -> sq (a * a)%Qc = a.

(** Average of points. *)
Definition average (dim : nat) (ps : list (list Qc)) : list Qc :=
  tab dim (fun k => (suml (map (fun p => vat p k) ps) / Q2Qc (inject_Z (Z.of_nat (length ps))))%Qc).

(** Signed measure of a cell of full dimension, up to a constant factor. *)
Definition measure (dim : nat) (ps : list (list Qc)) : Qc :=
  match dim with 1 => len1 ps | 2 => area2 ps | _ => 0%Qc end.

(** q + t (p - q) = x. *)
Definition on_line (dim : nat) (p q x : list Qc) : Prop :=
  exists t, forall k, k < dim -> vat x k = (vat q k + t * (vat p k - vat q k))%Qc.

(** p is the point at distance a from q in the direction of coordinate j. *)
Definition ahead (dim j : nat) (a : Qc) (p q : list Qc) : Prop :=
  j < dim /\ forall k, k < dim -> (vat p k - vat q k)%Qc = if k =? j then a else 0%Qc.
