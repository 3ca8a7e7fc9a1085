(** Schur complements of matrices. *)
From Verif Require Import Util Lin CSRModel DenseModel CompModel CompSpec.
Local Open Scope nat_scope.

(** The numbers below n that are not in I, in increasing order *)
Definition rest (n : nat) (I : list nat) : list nat := filter (fun k => negb (existsb (Nat.eqb k) I)) (seq 0 n).
(** Rows I and columns J of M *)
Definition sub_matrix (M : mat) (I J : list nat) : mat := fun i j => M (nth i I 0) (nth j J 0).
(** Entries I of a vector *)
Definition at_ (u : nat -> Qc) (I : list nat) : nat -> Qc := fun i => u (nth i I 0).
(** M_II - M_IJ D M_JI *)
Definition schur_matrix (M D : mat) (I J : list nat) : mat :=
  fun i j => (sub_matrix M I I i j - mm (length J) (sub_matrix M I J) (mm (length J) D (sub_matrix M J I)) i j)%Qc.
Definition inverts (n : nat) (A D : mat) : Prop := forall i j, i < n -> j < n -> mm n A D i j = if i =? j then 1%Qc else 0%Qc.
(** The unknowns kept are different ones; the solver writes D b; vectors of A and of the solver are
    older than b, and those allocated have the sizes asked for. *)
Definition schur_ready (lens : nat -> nat) (A D : expr) (I : list nat) (b n : nat) : Prop :=
  ok lens A /\ dims A = (n, n) /\ offers A false false = true /\ NoDup I /\ (forall i, In i I -> i < n) /\
  ok lens D /\ dims D = (length (rest n I), length (rest n I)) /\ offers D false false = true /\
  (forall id, In id (scratch A ++ scratch D) -> id < b) /\
  (forall k, k < 8 -> n <= lens (b + k)) /\ length (rest n I) <= lens (b + 8) /\ length (rest n I) <= lens (b + 9) /\ length I <= lens (b + 10).
