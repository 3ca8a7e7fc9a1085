(** Dense kernels: C16 and C35. *)
From Verif Require Import Util Lin CSRModel CSRSpec TriModel DenseModel DenseSpec DenseProofs.

(** C16. gemv computes beta*y + A x for every shape and every beta; for beta = 0
    the previous content of y, even uninitialised, does not matter. *)
Theorem C16_gemv : forall n m A x, wf_dense n m A -> length x = m ->
  (forall y : buf Qc, length y = n -> gemv A x y 0%Qc = Ok (map Some (tab n (mv m (dmat A) (vat x))))) /\
  (forall y beta, length y = n -> beta <> 0%Qc ->
     gemv A x (map Some y) beta = Ok (map Some (tab n (fun i => beta * vat y i + mv m (dmat A) (vat x) i)%Qc))).
Proof. exact gemv_thm. Qed.
Print Assumptions C16_gemv.

(** C16, transpose. Full claim: gemvT computes beta*y + A^T x for every shape and
    every beta. Missing: beta <> 0 for a matrix that is not square, where the code
    fails, see [C16_gemvT_refuted]. *)
Theorem C16_gemvT_partial : forall n m A x, wf_dense n m A -> length x = n ->
  (forall y : buf Qc, length y = m -> gemvT A x y 0%Qc = Ok (map Some (tab m (mv n (mt (dmat A)) (vat x))))) /\
  (forall y beta, n = m -> length y = m -> beta <> 0%Qc ->
     gemvT A x (map Some y) beta = Ok (map Some (tab m (fun i => beta * vat y i + mv n (mt (dmat A)) (vat x) i)%Qc))).
Proof. exact gemvT_thm. Qed.
Print Assumptions C16_gemvT_partial.

(** C16 fails for gemvT with beta <> 0: with fewer rows than columns some entries
    of y are not scaled, with more rows than columns the scaling loop leaves y. *)
Theorem C16_gemvT_refuted :
  (exists A x y beta, wf_dense 1 2 A /\ length x = 1 /\ length y = 2 /\ beta <> 0%Qc /\
     exists z, gemvT A x (map Some y) beta = Ok (map Some z) /\
       vat z 1 <> (beta * vat y 1 + mv 1 (mt (dmat A)) (vat x) 1)%Qc) /\
  (exists A x y beta, wf_dense 2 1 A /\ length x = 2 /\ length y = 1 /\ beta <> 0%Qc /\
     gemvT A x (map Some y) beta = Err EOob).
Proof. exact gemvT_not_square. Qed.
Print Assumptions C16_gemvT_refuted.

(** The operator method that adds the transposed product calls gemvT with beta = 1,
    and so writes outside of y for every operator with more rows than columns. *)
Theorem C16_transposed_add_refuted : forall n m A x y, wf_dense n m A -> m < n -> length x = n -> length y = m ->
  dense_matvecTrans_no_overwrite A x (map Some y) = Err EOob.
Proof. exact dense_trans_add_oob. Qed.
Print Assumptions C16_transposed_add_refuted.

(** C16 fails for gemvF with the default beta = 0: the product is added to the
    previous content of y. For beta <> 0 it is right. *)
Theorem C16_gemvF_partial : forall n m A x y beta, wf_dense n m A -> length x = m -> length y = n -> beta <> 0%Qc ->
  gemvF A x (map Some y) beta = Ok (map Some (tab n (fun i => beta * vat y i + mv m (dmat A) (vat x) i)%Qc)).
Proof. exact gemvF_thm. Qed.
Print Assumptions C16_gemvF_partial.

Theorem C16_gemvF_refuted : forall n m A x y, wf_dense n m A -> length x = m -> length y = n ->
  exists z, gemvF A x (map Some y) 0%Qc = Ok (map Some z) /\
    forall i, i < n -> vat y i <> 0%Qc -> vat z i <> mv m (dmat A) (vat x) i.
Proof. exact gemvF_wrong. Qed.
Print Assumptions C16_gemvF_refuted.

Example C16_example_gemv :
  let A := Dense 2 3 (map qz [1; 2; 3; 4; 5; 6]%Z) in
  wf_dense 2 3 A /\
  show_buf (gemv A (map qz [1; 0; -1]%Z) (alloc 2) 0%Qc) = Ok [Some (-2)%Q; Some (-2)%Q] /\
  show_buf (gemv A (map qz [1; 0; -1]%Z) (map Some (map qz [1; 10]%Z)) (qz 3)) = Ok [Some 1%Q; Some 28%Q] /\
  show_buf (gemvT A (map qz [1; 2]%Z) (alloc 3) 0%Qc) = Ok [Some 9%Q; Some 12%Q; Some 15%Q] /\
  show_buf (gemvF A (map qz [1; 0; -1]%Z) (map Some (map qz [1; 10]%Z)) (qz 3)) = Ok [Some 1%Q; Some 28%Q].
Proof. repeat split; vm_compute; reflexivity. Qed.
Example C16_example_square :
  let A := Dense 2 2 (map qz [1; 2; 3; 4]%Z) in
  wf_dense 2 2 A /\
  show_buf (gemvT A (map qz [1; 2]%Z) (map Some (map qz [1; 1]%Z)) (qz 2)) = Ok [Some 9%Q; Some 12%Q].
Proof. repeat split; vm_compute; reflexivity. Qed.

(** C35. Products of dense matrices, simultaneous products with several vectors,
    diagonal operators, and Jacobi's method as solver for the diagonal. *)
Theorem C35_dense_products :
  (forall n m p A B (C : buf Qc), wf_dense n m A -> wf_dense m p B -> length C = n * p ->
     exists c, matmat A B C = Ok (map Some c) /\ length c = n * p /\
       forall i k, i < n -> k < p -> vat c (i * p + k) = mm m (dmat A) (dmat B) i k) /\
  (forall n m nv A x (y : buf Qc), wf_dense n m A -> length x = m * nv -> length y = n * nv ->
     exists c, dense_matvec_multi A nv x y = Ok (map Some c) /\ length c = n * nv /\
       forall i k, i < n -> k < nv -> vat c (i * nv + k) = mv m (dmat A) (fun j => vat x (j * nv + k)) i).
Proof. exact (conj matmat_ok multi_ok). Qed.
Print Assumptions C35_dense_products.

Theorem C35_diagonal_operators :
  (forall data x (y : buf Qc), length x = length data -> length y = length data ->
     diag_matvec data x y = Ok (map Some (tab (length data) (fun i => vat data i * vat x i)%Qc))) /\
  (forall data x y, length x = length data -> length y = length data ->
     diag_matvec_no_overwrite data x (map Some y)
       = Ok (map Some (tab (length data) (fun i => vat y i + vat data i * vat x i)%Qc))).
Proof. exact (conj diag_matvec_ok diag_matvec_add_ok). Qed.
Print Assumptions C35_diagonal_operators.

Theorem C35_jacobi : forall n A b (x : buf Qc), wf_csr n n A -> nodup_csr n A ->
  (forall i, i < n -> matrix A i i <> 0%Qc) -> length b = n -> length x = n ->
  exists z, jacobi_solve A b x = Ok (map Some z) /\ length z = n /\
    forall i, i < n -> (matrix A i i * vat z i = vat b i)%Qc.
Proof. exact jacobi_solve_ok. Qed.
Print Assumptions C35_jacobi.

Example C35_example :
  let A := Dense 2 3 (map qz [1; 2; 3; 4; 5; 6]%Z) in
  let B := Dense 3 2 (map qz [1; 0; 0; 1; 1; 1]%Z) in
  wf_dense 2 3 A /\ wf_dense 3 2 B /\
  show_buf (matmat A B (alloc 4)) = Ok [Some 4%Q; Some 5%Q; Some 10%Q; Some 11%Q] /\
  show_buf (dense_matvec_multi A 2 (d_data B) (alloc 4)) = Ok [Some 4%Q; Some 5%Q; Some 10%Q; Some 11%Q] /\
  show_buf (diag_matvec (map qz [2; 3]%Z) (map qz [5; 7]%Z) (alloc 2)) = Ok [Some 10%Q; Some 21%Q] /\
  show_buf (jacobi_solve (CSR 2 [0; 2; 3] [1; 0; 1] (map qz [1; 2; 4]%Z)) (map qz [6; 12]%Z) (alloc 2)) = Ok [Some 3%Q; Some 3%Q].
Proof. repeat split; vm_compute; reflexivity. Qed.
