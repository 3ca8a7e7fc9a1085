(** Property theorems C10 (structural operations on CSR matrices).  Proofs are in
    OpsProofs*.v. *)
From Coq Require Import Sorted Permutation.
From Verif Require Import Util Lin CSRModel CSRSpec OpsProofs OpsProofs2 OpsProofs3 OpsProofs4.

(** C10, operations that keep the matrix. eliminate_zeros keeps every entry and
    stores no zero; sort_indices permutes each row into increasing column order;
    isSorted recognises strictly increasing rows. *)
Theorem C10_same_matrix :
  forall n m (A : csr), wf_csr n m A ->
    (exists B, csr_eliminate_zeros A = Ok B /\ wf_csr n m B /\
       (forall i j, i < n -> matrix B i j = matrix A i j) /\ (forall v, In v (c_data B) -> v <> 0%Qc)) /\
    (exists B, csr_sort_indices A = Ok B /\ wf_csr n m B /\
       (forall i, i < n ->
          Permutation (rowlist (c_indptr A) (c_indices A) (c_data A) i) (rowlist (c_indptr B) (c_indices B) (c_data B) i) /\
          StronglySorted le (map fst (rowlist (c_indptr B) (c_indices B) (c_data B) i))) /\
       (forall i j, i < n -> matrix B i j = matrix A i j) /\
       (nodup_csr n A -> sorted_csr n B)) /\
    (exists b, csr_isSorted A = Ok b /\ (b = true <-> sorted_csr n A)).
Proof. exact same_matrix_thm. Qed.
Print Assumptions C10_same_matrix.

(** C10, scaling. *)
Theorem C10_scaling :
  forall n m (A : csr), wf_csr n m A ->
    (forall s, length s = n -> exists B, csr_scaleLeft A s = Ok B /\ wf_csr n m B /\
       forall i j, i < n -> matrix B i j = (vat s i * matrix A i j)%Qc) /\
    (forall s, length s = m -> exists B, csr_scaleRight A s = Ok B /\ wf_csr n m B /\
       forall i j, i < n -> matrix B i j = (matrix A i j * vat s j)%Qc) /\
    (forall a, exists B, csr_scale A a = Ok B /\ wf_csr n m B /\
       forall i j, i < n -> matrix B i j = (a * matrix A i j)%Qc) /\
    (exists B, csr_setZero A = Ok B /\ wf_csr n m B /\ forall i j, i < n -> matrix B i j = 0%Qc).
Proof. exact scaling_thm. Qed.
Print Assumptions C10_scaling.

(** C10, transposition. With offsets starting at 0, transpose swaps the indices;
    the rows of the result are sorted if A repeats no column. *)
Theorem C10_transpose :
  forall n m (A : csr), wf_csr n m A -> nth 0 (c_indptr A) 0 = 0 ->
    exists B, csr_transpose A = Ok B /\ wf_csr m n B /\
      (forall i j, i < m -> j < n -> matrix B i j = matrix A j i) /\ (nodup_csr n A -> sorted_csr m B).
Proof. exact transpose_thm. Qed.
Print Assumptions C10_transpose.

(** C10, from_dense. Entries of absolute value above the tolerance are kept,
    the others become zero; with the default tolerance 0 nothing is lost. *)
Theorem C10_from_dense :
  forall n m (M : nat -> nat -> Qc) tol,
    exists B, csr_from_dense n m M tol = Ok B /\ wf_csr n m B /\ sorted_csr n B /\
      (forall i j, i < n -> j < m -> matrix B i j = if above tol (M i j) then M i j else 0%Qc) /\
      (tol = 0%Qc -> forall i j, i < n -> j < m -> matrix B i j = M i j).
Proof. exact from_dense_full. Qed.
Print Assumptions C10_from_dense.

(** C10, single entries of matrices with sorted rows, and the diagonal. getEntry
    reads the represented matrix, setEntry and addToEntry change exactly the
    addressed stored entry, the diagonal is extracted when no column is repeated. *)
Theorem C10_entries :
  forall n m (A : csr), wf_csr n m A ->
    (sorted_csr n A -> forall I J v, I < n ->
       csr_getEntry A I J = Ok (matrix A I J) /\
       (stored A I J ->
          (exists B, csr_setEntry A I J v = Ok B /\ wf_csr n m B /\
             forall i j, i < n -> matrix B i j = if (i =? I) && (j =? J) then v else matrix A i j) /\
          (exists B, csr_addToEntry A I J v = Ok B /\ wf_csr n m B /\
             forall i j, i < n -> matrix B i j = if (i =? I) && (j =? J) then (matrix A i j + v)%Qc else matrix A i j))) /\
    (nodup_csr n A -> csr_get_diagonal A = Ok (tab n (fun i => matrix A i i))).
Proof. exact entries_thm. Qed.
Print Assumptions C10_entries.

(** C10, entries that are not stored: addToEntry drops the value silently;
    setEntry does so in rows of fewer than 20 entries and raises IndexError in
    longer ones. *)
Theorem C10_missing_entries :
  forall n m (A : csr) I J v, wf_csr n m A -> sorted_csr n A -> I < n -> ~ stored A I J ->
    csr_addToEntry A I J v = Ok A /\
    csr_setEntry A I J v = (if nth (S I) (c_indptr A) 0 - nth I (c_indptr A) 0 <? 20 then Ok A else Err EIndex).
Proof. exact (fun n m A I J v wf srt => csr_missing_entry n m A wf srt I J v). Qed.
Print Assumptions C10_missing_entries.

(** [[6, 0, 2], [0, 0, 0]] with an unsorted row, a repeated column and a stored zero. *)
Example C10_example_wf :
  wf_csr 2 3 (CSR 3 [0; 3; 4] [2; 0; 0; 1] [qz 2; qz 1; qz 5; qz 0]) /\
  nth 0 (c_indptr (CSR 3 [0; 3; 4] [2; 0; 0; 1] [qz 2; qz 1; qz 5; qz 0])) 0 = 0.
Proof.
  split; [|reflexivity]. split; [reflexivity|]. split; [reflexivity|]. split.
  - intros [|[|i]] H; cbn; lia.
  - split; [cbn; lia|]. split; [reflexivity|]. intros j [<-|[<-|[<-|[<-|[]]]]]; lia.
Qed.

Example C10_example :
  let A := CSR 3 [0; 3; 4] [2; 0; 0; 1] [qz 2; qz 1; qz 5; qz 0] in
  (exists B, csr_eliminate_zeros A = Ok B /\ c_indptr B = [0; 3; 3] /\ c_indices B = [2; 0; 0]) /\
  (exists B, csr_sort_indices A = Ok B /\ c_indices B = [0; 0; 2; 1] /\ map this (c_data B) = [1%Q; 5%Q; 2%Q; 0%Q]) /\
  (exists B, csr_transpose A = Ok B /\ c_indptr B = [0; 2; 3; 4] /\ c_indices B = [0; 0; 1; 0]) /\
  csr_isSorted A = Ok false.
Proof. repeat split; try (eexists; repeat split; vm_compute; reflexivity). Qed.

Example C10_example_entries :
  let A := CSR 3 [0; 2; 3] [0; 2; 1] [qz 6; qz 2; qz 4] in
  wf_csr 2 3 A /\ sorted_csr 2 A /\ stored A 0 2 /\ ~ stored A 0 1 /\ nodup_csr 2 A.
Proof.
  cbn zeta. split; [|split; [|split; [|split]]].
  - split; [reflexivity|]. split; [reflexivity|]. split; [intros [|[|i]] H; cbn; lia|].
    split; [cbn; lia|]. split; [reflexivity|]. intros j [<-|[<-|[<-|[]]]]; lia.
  - intros [|[|i]] H; try lia; cbn; repeat constructor.
  - cbn. auto.
  - cbn. intros [H|[H|[]]]; lia.
  - intros [|[|i]] H; try lia; cbn; repeat constructor; cbn; intuition lia.
Qed.
