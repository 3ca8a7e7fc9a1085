(** Model of Schur complements (base/PyNucleus_base/SchurComplement_{SCALAR}.pxi, cited as SC), real
    instantiation, on the heap of CompModel. Simplifications: exact rationals; the solver invA22 is an
    operator that writes D b. Vectors that are allocated get the numbers b, b + 1, ... *)
From Verif Require Import Util Lin CSRModel DenseModel SmootherModel CompModel.

(** CSR_LinearOperator(indices, arange(len+1), ones(len)) with num_columns = n, SC:14-15, 23-24 *)
Definition selection (n : nat) (indices : list nat) : csr :=
  CSR n (seq 0 (length indices + 1)) indices (repeat 1%Qc (length indices)).
(** temp = ones(n); for dof in indices: temp[dof] = False; np.where(temp)[0], SC:18-21 *)
Definition others (n : nat) (indices : list nat) : res (list nat) :=
  temp <- for_list indices (fun dof temp => aset temp dof false) (repeat true n) ;;
  Ok (filter (fun k => nth k temp false) (seq 0 n)).
(** R * A * P, SC:27-30, by LinearOperator_{SCALAR}.pxi:107-119 *)
Definition sandwich (R : csr) (A : expr) (P : csr) (b : nat) : expr := matmul (matmul (ECSR R) A b) (ECSR P) (b + 1).
(** A11, A12, A21, A22, SC:13-30 *)
Definition schur_blocks (A : expr) (indices : list nat) (b : nat) : res (expr * expr * expr * expr) :=
  let n := fst (shape_of A) in
  let R1 := selection n indices in
  P1 <- csr_transpose R1 ;;
  indices2 <- others n indices ;;
  let R2 := selection n indices2 in
  P2 <- csr_transpose R2 ;;
  Ok (sandwich R1 A P1 b, sandwich R1 A P2 (b + 2), sandwich R2 A P1 (b + 4), sandwich R2 A P2 (b + 6)).
(** updateScaled, opt_false_blas.pxi:37-45 *)
Definition v_updateScaled (x y : view) (alpha : Qc) (h : heap) : res heap :=
  xs <- vread h x ;; ys <- vread h y ;;
  xs <- for_range 0 (v_len x) (fun i xs => a <- rd xs i ;; b <- rd ys i ;; wr xs i (a + alpha * b)%Qc) xs ;;
  vwrite h x xs.
(** The constructor (SC:9-39), then matvec (SC:41-49) and matvec_no_overwrite (SC:51-59, [add] = true) *)
Definition schur (A D : expr) (indices : list nat) (b : nat) : res (bool -> view -> view -> heap -> res heap) :=
  '(e11, e12, e21, e22) <- schur_blocks A indices b ;;
  A11 <- build e11 ;; A12 <- build e12 ;; A21 <- build e21 ;; A22 <- build e22 ;; invA22 <- build D ;;
  let t := View (b + 8) 0 (l_rows A22) in
  let t2 := View (b + 9) 0 (l_rows A22) in
  let t3 := View (b + 10) 0 (l_rows A11) in
  Ok (fun add x y h =>
    h <- l_mv A21 false false x t h ;;
    h <- call invA22 false false t t2 h ;;
    h <- l_mv A12 false false t2 t3 h ;;
    h <- l_mv A11 false add x y h ;;
    v_updateScaled y t3 (- (1))%Qc h).
