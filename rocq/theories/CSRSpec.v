(** What a compressed row structure represents. *)
From Coq Require Import Sorted.
From Verif Require Import Util Lin SparsitySpec CSRModel.

(** Row [i] as a list of (column, value) pairs. *)
Definition rowlist (ip ind : list nat) (dat : list Qc) (i : nat) : list (nat * Qc) :=
  slice (combine ind dat) (nth i ip 0) (nth (S i) ip 0).

(** Entry (i, j): the sum of the values stored for column j in row i. *)
Definition ent (row : list (nat * Qc)) (j : nat) : Qc :=
  suml (map snd (filter (fun p => fst p =? j) row)).

(** Well formed offsets and columns for an n x m structure. *)
Definition wf_rows (n m : nat) (ip ind : list nat) (dat : list Qc) : Prop :=
  length ip = n + 1 /\
  (forall i, i < n -> nth i ip 0 <= nth (S i) ip 0) /\
  nth n ip 0 <= length ind /\
  length dat = length ind /\
  (forall j, In j ind -> j < m).

Definition wf_csr (n m : nat) (A : csr) : Prop :=
  c_ncols A = m /\ wf_rows n m (c_indptr A) (c_indices A) (c_data A).

(** The matrix a CSR object represents. *)
Definition matrix (A : csr) : mat :=
  fun i j => ent (rowlist (c_indptr A) (c_indices A) (c_data A) i) j.

(** Columns of each row strictly increasing. *)
Definition sorted_csr (n : nat) (A : csr) : Prop :=
  forall i, i < n -> StronglySorted lt (map fst (rowlist (c_indptr A) (c_indices A) (c_data A) i)).

(** No column is stored twice in a row. *)
Definition nodup_csr (n : nat) (A : csr) : Prop :=
  forall i, i < n -> NoDup (map fst (rowlist (c_indptr A) (c_indices A) (c_data A) i)).

(** Symmetric storage: strictly lower entries and a diagonal. *)
Definition wf_sss (n : nat) (A : sss) : Prop :=
  wf_rows n n (s_indptr A) (s_indices A) (s_data A) /\ length (s_diag A) = n /\
  forall i p, i < n -> In p (rowlist (s_indptr A) (s_indices A) (s_data A) i) -> fst p < i.

Definition lower (A : sss) : mat :=
  fun i j => ent (rowlist (s_indptr A) (s_indices A) (s_data A) i) j.

(** The symmetric matrix: strictly lower part, its transpose, the diagonal. *)
Definition sym_matrix (A : sss) : mat :=
  fun i j => (lower A i j + lower A j i + (if i =? j then vat (s_diag A) i else 0))%Qc.
