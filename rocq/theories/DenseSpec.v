(** Specification of the dense kernels. *)
From Verif Require Import Util Lin DenseModel.

(** [A] is an n x m array. *)
Definition wf_dense (n m : nat) (A : dense) : Prop := d_n A = n /\ d_m A = m /\ length (d_data A) = n * m.
(** Entries of a dense matrix. *)
Definition dmat (A : dense) : mat := fun i j => vat (d_data A) (i * d_m A + j).
