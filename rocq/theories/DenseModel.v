(** Model of the dense kernels used when BLAS is disabled
    (base/PyNucleus_base/opt_false_blas.pxi), of the dense and diagonal operators
    (DenseLinearOperator_{SCALAR}.pxi, DiagonalLinearOperator_{SCALAR}.pxi) and of
    jacobi_solver (solvers.pyx).

    Simplifications: exact rational values; the complex branches have the same
    statements as the real ones. *)
From Verif Require Import Util Lin CSRModel TriModel.

(** A two-dimensional array with [d_n] rows and [d_m] columns, stored by rows. *)
Record dense := Dense { d_n : nat; d_m : nat; d_data : list Qc }.
(** Position of entry (i, k) of an N x K array stored by rows. *)
Definition ix (N K i k : nat) : res nat := if (i <? N) && (k <? K) then Ok (i * K + k) else Err EOob.
Definition dget (A : dense) (i j : nat) : res Qc := p <- ix (d_n A) (d_m A) i j ;; aget (d_data A) p.

(** opt_false_blas.pxi:81-110 *)
Definition gemv (A : dense) (x : list Qc) (y : buf Qc) (beta : Qc) : res (buf Qc) :=
  for_range 0 (d_n A) (fun i y =>
    s <- for_range 0 (d_m A) (fun j s => a <- dget A i j ;; xj <- aget x j ;; Ok (s + a * xj)%Qc) 0%Qc ;;
    if Qc_eq_bool beta 0 then wr y i s
    else o <- rd y i ;; wr y i (beta * o + s)%Qc) y.

(** [for i in range(k): y[i] *= beta] *)
Definition scale_first (k : nat) (beta : Qc) (y : buf Qc) : res (buf Qc) :=
  for_range 0 k (fun i y => o <- rd y i ;; wr y i (o * beta)%Qc) y.

(** opt_false_blas.pxi:113-129; [A] gives the entries, whatever the storage order *)
Definition gemvF (A : dense) (x : list Qc) (y : buf Qc) (beta : Qc) : res (buf Qc) :=
  y0 <- (if Qc_eq_bool beta 0 then Ok y else scale_first (d_n A) beta y) ;;
  for_range 0 (d_m A) (fun j y =>
    for_range 0 (d_n A) (fun i y =>
      a <- dget A i j ;; xj <- aget x j ;; addto y i (a * xj)%Qc) y) y0.

(** opt_false_blas.pxi:132-152; the scaling loop runs over A.shape[0] although y
    has A.shape[1] entries *)
Definition gemvT (A : dense) (x : list Qc) (y : buf Qc) (beta : Qc) : res (buf Qc) :=
  y0 <- (if Qc_eq_bool beta 0 then set0 y else scale_first (d_n A) beta y) ;;
  for_range 0 (d_m A) (fun i y =>
    for_range 0 (d_n A) (fun j y =>
      a <- dget A j i ;; xj <- aget x j ;; addto y i (a * xj)%Qc) y) y0.

(** opt_false_blas.pxi:155-169; C has A.shape[0] rows and B.shape[1] columns *)
Definition matmat (A B : dense) (C : buf Qc) : res (buf Qc) :=
  C0 <- set0 C ;;
  for_range 0 (d_n A) (fun i C =>
    for_range 0 (d_n B) (fun j C =>
      for_range 0 (d_m B) (fun k C =>
        p <- ix (d_n A) (d_m B) i k ;;
        a <- dget A i j ;; b <- dget B j k ;; addto C p (a * b)%Qc) C) C) C0.

(** DenseLinearOperator_{SCALAR}.pxi:14-18, 20-24, 43-47, 49-53 *)
Definition dense_matvec (A : dense) x y := gemv A x y 0%Qc.
Definition dense_matvec_no_overwrite (A : dense) x y := gemv A x y 1%Qc.
Definition dense_matvecTrans (A : dense) x y := gemvT A x y 0%Qc.
Definition dense_matvecTrans_no_overwrite (A : dense) x y := gemvT A x y 1%Qc.

(** DenseLinearOperator_{SCALAR}.pxi:26-41; x has A.num_columns rows, y has
    A.num_rows rows, both [nv] columns; temp is allocated uninitialised *)
Definition dense_matvec_multi (A : dense) (nv : nat) (x : list Qc) (y : buf Qc) : res (buf Qc) :=
  y0 <- set0 y ;;
  '(y1, _) <- for_range 0 (d_n A) (fun i '(y, temp) =>
    temp0 <- set0 temp ;;
    temp1 <- for_range 0 (d_m A) (fun j temp =>
      for_range 0 nv (fun k temp =>
        a <- dget A i j ;; p <- ix (d_m A) nv j k ;; xv <- aget x p ;; addto temp k (a * xv)%Qc) temp) temp0 ;;
    y1 <- for_range 0 nv (fun k y => t <- rd temp1 k ;; p <- ix (d_n A) nv i k ;; wr y p t) y ;;
    Ok (y1, temp1)) (y0, alloc nv) ;;
  Ok y1.

(** DiagonalLinearOperator_{SCALAR}.pxi:13-21, 23-30 *)
Definition diag_matvec (data x : list Qc) (y : buf Qc) : res (buf Qc) :=
  y0 <- set0 y ;;
  for_range 0 (length data) (fun i y => d <- aget data i ;; xi <- aget x i ;; wr y i (d * xi)%Qc) y0.
Definition diag_matvec_no_overwrite (data x : list Qc) (y : buf Qc) : res (buf Qc) :=
  for_range 0 (length data) (fun i y => d <- aget data i ;; xi <- aget x i ;; addto y i (d * xi)%Qc) y.

(** solvers.pyx:233-242 with invDiagonal (DiagonalLinearOperator_{SCALAR}.pxi:86-88)
    for a CSR matrix *)
Definition jacobi_solve (A : csr) (b : list Qc) (x : buf Qc) : res (buf Qc) :=
  d <- csr_get_diagonal A ;;
  inv <- for_range 0 (length d) (fun i inv => v <- aget d i ;; w <- qdiv 1 v ;; aset inv i w) d ;;
  diag_matvec inv b x.
