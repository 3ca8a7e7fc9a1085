(** Property theorems C08 (CSR matrix-vector kernels).  Proofs are in CSRProofs.v. *)
From Verif Require Import Util Lin CSRModel CSRSpec CSRProofs.

(** C08. For every well formed CSR structure (unsorted rows and repeated columns
    included) and whatever the output buffer y contained, matvec writes A x,
    residual writes b - A x (b if the guess is zero), and matvec_no_overwrite
    adds A x to y. *)
Theorem C08_matvec :
  forall n m (A : csr) cplx (x : list Qc), wf_csr n m A -> length x = m ->
    (forall y : buf Qc, length y = n ->
       csr_matvec cplx A x y = Ok (map Some (tab n (mv m (matrix A) (vat x))))) /\
    (forall y : list Qc, length y = n ->
       csr_matvec_no_overwrite cplx A x (map Some y)
       = Ok (map Some (tab n (fun i => vat y i + mv m (matrix A) (vat x) i)%Qc))) /\
    (forall (b : list Qc) (y : buf Qc), length b = n -> length y = n ->
       csr_residual A x b y false = Ok (map Some (tab n (fun i => vat b i - mv m (matrix A) (vat x) i)%Qc)) /\
       csr_residual A x b y true = Ok (map Some b)).
Proof. exact csr_kernels_ok. Qed.
Print Assumptions C08_matvec.

(** C08, transposed kernels of the REAL instantiation: A^T x and y + A^T x. *)
Theorem C08_matvecTrans_partial :
  forall n m (A : csr) (x : list Qc), wf_csr n m A -> length x = n ->
    (forall y : buf Qc, length y = m ->
       csr_matvecTrans false A x y = Ok (map Some (tab m (mv n (mt (matrix A)) (vat x))))) /\
    (forall y : list Qc, length y = m ->
       csr_matvecTrans_no_overwrite false A x (map Some y)
       = Ok (map Some (tab m (fun j => vat y j + mv n (mt (matrix A)) (vat x) j)%Qc))).
Proof. exact csr_trans_kernels_ok. Qed.
Print Assumptions C08_matvecTrans_partial.

(** C08, transposed kernels of the COMPLEX instantiation: the transposition flag
    is ignored, and for a 2 x 2 matrix A x is returned instead of A^T x. *)
Theorem C08_complex_matvecTrans_refuted :
  exists (A : csr) (x : list Qc), wf_csr 2 2 A /\ length x = 2 /\
    forall y : buf Qc, length y = 2 ->
      csr_matvecTrans true A x y <> Ok (map Some (tab 2 (mv 2 (mt (matrix A)) (vat x)))).
Proof. exact complex_trans_wrong. Qed.
Print Assumptions C08_complex_matvecTrans_refuted.

(** A 2 x 3 matrix with an unsorted row and a repeated column:
    [[1 + 5, 0, 2], [0, 4, 0]]. *)
Example C08_example_wf :
  wf_csr 2 3 (CSR 3 [0; 3; 4] [2; 0; 0; 1] [qz 2; qz 1; qz 5; qz 4]).
Proof.
  split; [reflexivity|]. split; [reflexivity|]. split.
  - intros [|[|i]] H; cbn; lia.
  - split; [cbn; lia|]. split; [reflexivity|]. intros j [<-|[<-|[<-|[<-|[]]]]]; lia.
Qed.

Example C08_example :
  let A := CSR 3 [0; 3; 4] [2; 0; 0; 1] [qz 2; qz 1; qz 5; qz 4] in
  show_buf (csr_matvec false A [qz 1; qz 10; qz 100] [None; Some (qz 7)]) = Ok [Some 206%Q; Some 40%Q] /\
  show_buf (csr_matvecTrans false A [qz 1; qz 10] [None; Some (qz 7); None]) = Ok [Some 6%Q; Some 40%Q; Some 2%Q] /\
  show_buf (csr_residual A [qz 1; qz 10; qz 100] [qz 0; qz 1] [None; None] false)
  = Ok [Some (-206)%Q; Some (-39)%Q].
Proof. repeat split; vm_compute; reflexivity. Qed.
