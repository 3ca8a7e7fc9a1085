(** Model of the complex operators made of real ones, and of the operators that join two or three
    (base/PyNucleus_base/linear_operators.pyx:108-161, 1021-1139, cited as LO). A complex number is a
    pair of exact rationals. Complex vectors are lists and buffers of their own; real vectors that
    operators keep are buffers of the heap of CompModel. *)
From Verif Require Import Util Lin CSRModel DenseModel SmootherModel CompModel.

Definition cplx : Type := (Qc * Qc)%type.
Definition cplus (a b : cplx) : cplx := (fst a + fst b, snd a + snd b)%Qc.
Definition cmult (a b : cplx) : cplx := (fst a * fst b - snd a * snd b, fst a * snd b + snd a * fst b)%Qc.
(** A REAL_t where a COMPLEX_t is expected *)
Definition of_real (a : Qc) : cplx := (a, 0%Qc).
Definition c_I : cplx := (0, 1)%Qc.

(** for i in range(self.num_columns): self.temporaryMemory[i] = x[i].real (or .imag), LO:1034-1035, 1039-1040 *)
Definition put_part (part : cplx -> Qc) (x : list cplx) (v : view) (h : heap) : res heap :=
  ts <- vread h v ;;
  ts <- for_range 0 (v_len v) (fun i ts => a <- aget x i ;; wr ts i (part a)) ts ;;
  vwrite h v ts.
(** wrapRealToComplex, LO:1021-1045; [t], [t2] are temporaryMemory and temporaryMemory2 *)
Definition wrap_matvec (o : lop) (t t2 : nat) (x : list cplx) (y : buf cplx) (h : heap) : res (buf cplx * heap) :=
  let v := View t 0 (l_cols o) in
  let v2 := View t2 0 (l_rows o) in
  h <- put_part fst x v h ;;
  h <- call o false false v v2 h ;;
  ts <- vread h v2 ;;
  y <- for_range 0 (l_rows o) (fun i y => a <- rd ts i ;; wr y i (of_real a)) y ;;
  h <- put_part snd x v h ;;
  h <- call o false false v v2 h ;;
  ts <- vread h v2 ;;
  y <- for_range 0 (l_rows o) (fun i y => b <- rd y i ;; a <- rd ts i ;; wr y i (cplus b (cmult c_I (of_real a)))) y ;;
  Ok (y, h).

(** temp = 0.0; for j in range(indptr[i], indptr[i+1]): temp += data[j]*x[indices[j]]
    (LO:1070-1072, 1107-1109, 1112-1114) *)
Definition row_product (A : csr) (x : list cplx) (i : nat) : res cplx :=
  for_row (c_indptr A) i (fun jj temp =>
    d <- aget (c_data A) jj ;; j <- aget (c_indices A) jj ;; xj <- aget x j ;;
    Ok (cplus temp (cmult (of_real d) xj))) (of_real 0%Qc).
(** wrapRealToComplexCSR.matvec, LO:1061-1074 *)
Definition wrapCSR_matvec (A : csr) (x : list cplx) (y : buf cplx) : res (buf cplx) :=
  for_range 0 (c_nrows A) (fun i y => temp <- row_product A x i ;; wr y i temp) y.

(** HelmholtzShiftOperator, LO:1083-1139; num_rows is that of S *)
Record helmholtz := Helmholtz { h_S : csr; h_M : csr; h_shift : cplx; h_diagonal : buf cplx }.
(** setShift, LO:1091-1099 *)
Definition setShift (H : helmholtz) (shift : cplx) : res helmholtz :=
  d1 <- csr_get_diagonal (h_S H) ;;
  d2 <- csr_get_diagonal (h_M H) ;;
  d <- for_range 0 (c_nrows (h_S H)) (fun i d =>
    a <- aget d1 i ;; b <- aget d2 i ;; wr d i (cplus (of_real a) (cmult shift (of_real b)))) (h_diagonal H) ;;
  Ok (Helmholtz (h_S H) (h_M H) shift d).
(** The constructor, LO:1084-1089 *)
Definition new_helmholtz (S M : csr) (shift : cplx) : res helmholtz :=
  setShift (Helmholtz S M (of_real 0%Qc) (alloc (c_nrows S))) shift.
(** matvec, LO:1101-1120 *)
Definition helmholtz_matvec (H : helmholtz) (x : list cplx) (y : buf cplx) : res (buf cplx) :=
  y <- for_range 0 (c_nrows (h_S H)) (fun i y => temp <- row_product (h_S H) x i ;; wr y i temp) y ;;
  for_range 0 (c_nrows (h_S H)) (fun i y => temp <- row_product (h_M H) x i ;; b <- rd y i ;; wr y i (cplus b (cmult (h_shift H) temp))) y.

(** Triple_Product_Linear_Operator, LO:109-140: the constructor without given scratch vectors, then
    matvec; [t] is temporaryMemory, [t2] temporaryMemory2 *)
Definition triple_product (A B C : lop) (t t2 : nat) : res (view -> view -> heap -> res heap) :=
  _ <- guard (l_cols A =? l_rows B) EAssert ;;
  _ <- guard (l_cols B =? l_rows C) EAssert ;;
  let v := View t 0 (l_cols B) in
  let v2 := View t2 0 (l_cols A) in
  Ok (fun x y h =>
    h <- call C false false x v h ;;
    h <- call B false false v v2 h ;;
    call A false false v2 y h).
(** split_CSR_LinearOperator.matvec, LO:153-158 *)
Definition split_matvec (A1 A2 : csr) (x : list Qc) (y : buf Qc) : res (buf Qc) :=
  y <- csr_matvec false A1 x y ;; csr_matvec_no_overwrite false A2 x y.
(** split_CSR_LinearOperator.__init__, LO:144-151: the number of columns is set to that of rows; then
    __call__ (LinearOperator_{SCALAR}.pxi:38-60) checks the shapes *)
Definition split_call (A1 A2 : csr) (x : list Qc) (y : buf Qc) : res (buf Qc) :=
  _ <- guard (c_nrows A1 =? length x) EAssert ;;
  _ <- guard (c_nrows A1 =? length y) EAssert ;;
  split_matvec A1 A2 x y.
