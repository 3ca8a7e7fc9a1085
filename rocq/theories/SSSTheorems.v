(** Property theorems C09 (symmetric storage).  Proofs are in SSSProofs.v and OpsProofs*.v. *)
From Verif Require Import Util Lin CSRModel CSRSpec SSSProofs OpsProofs OpsProofs3 OpsProofs4.

(** C09. For every well formed symmetric structure, matvec (one thread) returns
    (L + D + L^T) x and matvec_no_overwrite adds it; getEntry returns the entry
    of that matrix when the rows are sorted, for both index orders. *)
Theorem C09_symmetric_storage :
  forall n (A : sss), wf_sss n A ->
    (forall (x : list Qc) (y : buf Qc), length x = n -> length y = n ->
       sss_matvec A x y = Ok (map Some (tab n (mv n (sym_matrix A) (vat x))))) /\
    (forall x y : list Qc, length x = n -> length y = n ->
       sss_matvec_no_overwrite A x (map Some y)
       = Ok (map Some (tab n (fun i => vat y i + mv n (sym_matrix A) (vat x) i)%Qc))) /\
    (sorted_sss n A -> forall i j, i < n -> j < n ->
       sss_getEntry A i j = Ok (sym_matrix A i j) /\ sss_getEntry A j i = Ok (sym_matrix A i j)).
Proof. exact sss_thm. Qed.
Print Assumptions C09_symmetric_storage.

(** C09, assembly. addToEntry(I, J) with J <= I and a stored entry adds the value
    to the entries (I, J) and (J, I) of the matrix; calls with I < J do nothing,
    so that adding every pair (i, j) of a symmetric local matrix adds each entry
    once. *)
Theorem C09_addToEntry :
  forall n (A : sss) I J v, wf_sss n A -> sorted_sss n A -> I < n ->
    (J <= I -> (J < I -> stored_lower A I J) ->
       exists B, sss_addToEntry A I J v = Ok B /\ wf_sss n B /\
         forall i j, i < n -> j < n -> sym_matrix B i j
           = if ((i =? I) && (j =? J)) || ((i =? J) && (j =? I)) then (sym_matrix A i j + v)%Qc else sym_matrix A i j) /\
    (I < J -> sss_addToEntry A I J v = Ok A).
Proof. exact (fun n A I J v wf srt HI => conj (sss_addToEntry_ok n A wf srt I J v HI) (sss_addToEntry_upper A I J v)). Qed.
Print Assumptions C09_addToEntry.

(** C09, conversions. A symmetric CSR matrix with stored diagonal and no
    repeated columns converts to symmetric storage of the same matrix, and back;
    to_lower_csc returns the lower triangle by columns. *)
Theorem C09_conversions :
  (forall n (A : csr), wf_csr n n A -> nodup_csr n A -> (forall i, i < n -> stored A i i) ->
     (forall i j, i < n -> j < n -> matrix A i j = matrix A j i) ->
     exists B, csr_to_sss A = Ok B /\ wf_sss n B /\ forall i j, i < n -> j < n -> sym_matrix B i j = matrix A i j) /\
  (forall n (A : sss), wf_sss n A ->
     exists B, sss_to_csr A = Ok B /\ wf_csr n n B /\ forall i j, i < n -> j < n -> matrix B i j = sym_matrix A i j) /\
  (forall n (A : sss), wf_sss n A ->
     exists B, sss_to_lower_csc A = Ok B /\ wf_csr n n B /\
       forall i j, i < n -> j < n -> matrix B i j = (lower A j i + (if i =? j then vat (s_diag A) i else 0))%Qc).
Proof. exact (conj to_sss_thm (conj sss_to_csr_thm sss_to_lower_csc_thm)). Qed.
Print Assumptions C09_conversions.

(** C09, conversion of a symmetric CSR matrix without stored diagonal entries:
    false. The diagonal of the result is uninitialised memory. *)
Theorem C09_missing_diagonal_refuted :
  exists A, wf_csr 1 1 A /\ nodup_csr 1 A /\
    (forall i j, i < 1 -> j < 1 -> matrix A i j = matrix A j i) /\ csr_to_sss A = Err EUninit.
Proof. exact to_sss_missing_diag. Qed.
Print Assumptions C09_missing_diagonal_refuted.

(** The matrix [[2, 0, 5], [0, 3, 7], [5, 7, 4]]. *)
Example C09_example_wf : wf_sss 3 (SSS [0; 0; 0; 2] [0; 1] [qz 5; qz 7] [qz 2; qz 3; qz 4]).
Proof.
  split; [|split; [reflexivity|]].
  - split; [reflexivity|]. split; [intros [|[|[|i]]] H; cbn; lia|].
    split; [cbn; lia|]. split; [reflexivity|]. intros j [<-|[<-|[]]]; lia.
  - intros [|[|[|i]]] p Hi; cbn; try lia; intros []; try easy; subst; cbn; try lia.
    destruct H as [<-|[]]. cbn. lia.
Qed.

Example C09_example :
  let A := SSS [0; 0; 0; 2] [0; 1] [qz 5; qz 7] [qz 2; qz 3; qz 4] in
  show_buf (sss_matvec A [qz 1; qz 10; qz 100] [None; None; None]) = Ok [Some 502%Q; Some 730%Q; Some 475%Q] /\
  show_one (sss_getEntry A 0 2) = Ok 5%Q /\ show_one (sss_getEntry A 2 1) = Ok 7%Q /\
  (exists B, sss_to_csr A = Ok B /\ c_indptr B = [0; 2; 4; 7] /\ c_indices B = [0; 2; 1; 2; 2; 0; 1]).
Proof. repeat split; try (vm_compute; reflexivity). eexists; repeat split; vm_compute; reflexivity. Qed.
