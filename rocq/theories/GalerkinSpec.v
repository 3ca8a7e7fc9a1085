(** What restricting a matrix to a coarser space means: R*A*R.T. *)
From Verif Require Import Util Lin CSRModel CSRSpec SSSProofs OpsProofs OpsProofs4 GalerkinModel.
Local Open Scope Qc_scope.

(** The entry (i, j) of R*A*R.T for a matrix A with nf rows and columns. *)
Definition galerkin (nf : nat) (R A : mat) (i j : nat) : Qc :=
  sumf nf (fun k => sumf nf (fun m => R i k * A k m * R j m)).

(** The matrix an operator represents. *)
Definition op_matrix (A : sop) : mat := match A with SCsr A => matrix A | SSym A => sym_matrix A end.
(** A well formed n x n operator, columns strictly increasing in each row. *)
Definition op_ok (n : nat) (A : sop) : Prop :=
  match A with
  | SCsr A => wf_csr n n A /\ sorted_csr n A
  | SSym A => wf_sss n A /\ sorted_sss n A
  end.
Definition op_wf (n : nat) (A : sop) : Prop :=
  match A with SCsr A => wf_csr n n A | SSym A => wf_sss n A end.
(** Does the operator have a place for the entry (i, j)? *)
Definition holds (A : sop) (i j : nat) : Prop :=
  match A with
  | SCsr A => stored A i j
  | SSym A => i = j \/ ((j < i)%nat /\ stored_lower A i j) \/ ((i < j)%nat /\ stored_lower A j i)
  end.
(** The places for entries are the same. *)
Definition same_places (A B : sop) : Prop :=
  o_indptr B = o_indptr A /\ o_indices B = o_indices A /\ length (o_data B) = length (o_data A) /\
  match A, B with SCsr A, SCsr B => c_ncols A = c_ncols B | SSym A, SSym B => True | _, _ => False end.

(** Ac has become Ac + M at the places it has, and is unchanged elsewhere. *)
Definition added (n : nat) (M : mat) (Ac B : sop) : Prop :=
  op_ok n B /\ same_places Ac B /\
  forall i j, (i < n)%nat -> (j < n)%nat ->
    (holds Ac i j -> op_matrix B i j = op_matrix Ac i j + M i j) /\
    (~ holds Ac i j -> op_matrix B i j = op_matrix Ac i j).

(** A restriction operator: the identity and entries 1/2. *)
Definition restr_ok (nc nf : nat) (R : restr) : Prop :=
  (nc <= nf)%nat /\ wf_csr nc nf (CSR (r_ncols R) (r_indptr R) (r_indices R) (repeat half (length (r_indices R)))) /\
  sorted_csr nc (CSR (r_ncols R) (r_indptr R) (r_indices R) (repeat half (length (r_indices R)))).
Definition restr_matrix (R : restr) : mat := fun i k =>
  (if (i =? k)%nat then 1 else 0) +
  matrix (CSR (r_ncols R) (r_indptr R) (r_indices R) (repeat half (length (r_indices R)))) i k.

(** A is symmetric. *)
Definition symmetric (n : nat) (A : mat) : Prop := forall i j, (i < n)%nat -> (j < n)%nat -> A i j = A j i.
