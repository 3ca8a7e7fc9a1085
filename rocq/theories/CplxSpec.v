(** Complex matrices and their products with vectors. *)
From Verif Require Import Util Lin CplxModel.

Definition cvat (x : list cplx) (i : nat) : cplx := nth i x (of_real 0%Qc).
Definition cmat : Type := nat -> nat -> cplx.
(** Sum of f 0, ..., f (n-1). *)
Fixpoint csumf (n : nat) (f : nat -> cplx) : cplx := match n with O => of_real 0%Qc | S k => cplus (csumf k f) (f k) end.
Definition cmv (m : nat) (A : cmat) (x : nat -> cplx) (i : nat) : cplx := csumf m (fun j => cmult (A i j) (x j)).
Definition real_mat (A : mat) : cmat := fun i j => of_real (A i j).
(** A + s B *)
Definition shifted (A B : mat) (s : cplx) : cmat := fun i j => cplus (of_real (A i j)) (cmult s (of_real (B i j))).
