(** Property theorems C55 (restriction of matrices to coarser spaces).  Proofs are
    in GalerkinProofs*.v. *)
From Coq Require Import Sorted.
From Verif Require Import Util Lin CSRModel CSRSpec SSSProofs OpsProofs OpsProofs4 GalerkinModel GalerkinSpec GalerkinProofs4 GalerkinProofs5.
Local Open Scope nat_scope.

(** C55, restriction given as a CSR matrix. multiply adds R*A*R.T to the entries
    Ac has places for, for A and Ac in either format except A in CSR and Ac in
    symmetric format. *)
Theorem C55_product :
  forall nc nf R A Ac, wf_csr nc nf R -> sorted_csr nc R -> op_ok nf A -> op_ok nc Ac ->
    (forall A' Ac', A = SCsr A' -> Ac = SSym Ac' -> False) ->
    exists B, multiply R A Ac = Ok B /\ added nc (galerkin nf (matrix R) (op_matrix A)) Ac B.
Proof. exact multiply_thm. Qed.
Print Assumptions C55_product.

(** C55, A in CSR and Ac in symmetric format. The entries below the diagonal are
    added, the diagonal is left as it was. *)
Theorem C55_product_mixed :
  forall nc nf R A Ac, wf_csr nc nf R -> sorted_csr nc R -> op_ok nf (SCsr A) -> op_ok nc (SSym Ac) ->
    exists B, multiply R (SCsr A) (SSym Ac) = Ok (SSym B) /\ op_ok nc (SSym B) /\ s_diag B = s_diag Ac /\
      forall i j, i < nc -> j < i -> holds (SSym Ac) i j ->
        sym_matrix B i j = (sym_matrix Ac i j + galerkin nf (matrix R) (matrix A) i j)%Qc.
Proof. exact multiply_mixed. Qed.
Print Assumptions C55_product_mixed.

(** C55, refuted: multiply adds R*A*R.T for all formats (symmetric A in CSR
    format, Ac in symmetric format). *)
Theorem C55_product_mixed_refuted :
  ~ forall nc nf R A Ac, nc < nf -> wf_csr nc nf R -> sorted_csr nc R -> op_ok nf (SCsr A) -> symmetric nf (matrix A) ->
      op_ok nc (SSym Ac) ->
      exists B, multiply R (SCsr A) (SSym Ac) = Ok B /\ added nc (galerkin nf (matrix R) (matrix A)) (SSym Ac) B.
Proof. exact mixed_refuted. Qed.
Print Assumptions C55_product_mixed_refuted.

(** C55, restrictionOp (identity and entries 1/2). multiply_restr adds R*A*R.T if
    A and Ac have the same format. *)
Theorem C55_restriction :
  forall nc nf R A Ac, restr_ok nc nf R -> op_ok nf A -> op_ok nc Ac ->
    (forall A' Ac', A = SCsr A' -> Ac = SSym Ac' -> False) -> (forall A' Ac', A = SSym A' -> Ac = SCsr Ac' -> False) ->
    exists B, multiply_restr R A Ac = Ok B /\ added nc (galerkin nf (restr_matrix R) (op_matrix A)) Ac B.
Proof. exact multiply_restr_thm. Qed.
Print Assumptions C55_restriction.

(** C55, restrictionOp with A in symmetric and Ac in CSR format. The diagonal of A
    is missing from the diagonal of the sum. *)
Theorem C55_restriction_mixed :
  forall nc nf R A Ac, restr_ok nc nf R -> op_ok nf (SSym A) -> op_ok nc (SCsr Ac) ->
    exists B, multiply_restr R (SSym A) (SCsr Ac) = Ok B /\
      added nc (fun i j => galerkin nf (restr_matrix R) (sym_matrix A) i j - (if (i =? j)%nat then vat (s_diag A) i else 0))%Qc (SCsr Ac) B.
Proof. exact multiply_restr_mixed. Qed.
Print Assumptions C55_restriction_mixed.

(** C55, refuted: multiply_restr adds R*A*R.T for A in symmetric and Ac in CSR
    format. *)
Theorem C55_restriction_mixed_refuted :
  ~ forall nc nf R A Ac, restr_ok nc nf R -> op_ok nf (SSym A) -> op_ok nc (SCsr Ac) ->
      exists B, multiply_restr R (SSym A) (SCsr Ac) = Ok B /\ added nc (galerkin nf (restr_matrix R) (sym_matrix A)) (SCsr Ac) B.
Proof. exact restr_mixed_refuted. Qed.
Print Assumptions C55_restriction_mixed_refuted.

(** C55, prolongation given as a CSR matrix. multiply2 adds P.T*A*P, whatever the
    order of the entries in the rows of P and A; for A in CSR and Ac in symmetric
    format if A is symmetric. *)
Theorem C55_prolongation :
  forall nc nf P, wf_csr nf nc P -> forall A Ac, op_wf nf A -> op_ok nc Ac ->
    (forall A' Ac', A = SCsr A' -> Ac = SSym Ac' -> symmetric nf (matrix A')) ->
    exists B, multiply2 P A Ac = Ok B /\ added nc (galerkin nf (fun i k => matrix P k i) (op_matrix A)) Ac B.
Proof. exact multiply2_thm. Qed.
Print Assumptions C55_prolongation.

(** C55, restrictMatrix chooses by the shape. A restriction and a prolongation
    that are not square are told apart. *)
Theorem C55_restrictMatrix :
  forall nc nf R A Ac, nc <> nf -> op_ok nf A -> op_ok nc Ac -> (forall A' Ac', A = SCsr A' -> Ac = SSym Ac' -> False) ->
    (wf_csr nc nf R -> sorted_csr nc R ->
       exists B, restrictMatrix R A Ac = Ok B /\ added nc (galerkin nf (matrix R) (op_matrix A)) Ac B) /\
    (wf_csr nf nc R ->
       exists B, restrictMatrix R A Ac = Ok B /\ added nc (galerkin nf (fun i k => matrix R k i) (op_matrix A)) Ac B).
Proof.
  exact (fun nc nf R A Ac Hne OA OC Hm => conj
    (fun WR SR => restrictMatrix_restriction nc nf R A Ac Hne WR SR OA OC Hm)
    (fun WP => restrictMatrix_prolongation nc nf R A Ac Hne WP (op_ok_wf nf A OA) OC
       (fun A' Ac' E1 E2 => match Hm A' Ac' E1 E2 with end))).
Qed.
Print Assumptions C55_restrictMatrix.

(** C55, square R. Both R*A*R.T and R.T*A*R are added. *)
Theorem C55_square :
  forall n R A Ac, wf_csr n n R -> sorted_csr n R -> op_ok n A -> op_ok n Ac ->
    (forall A' Ac', A = SCsr A' -> Ac = SSym Ac' -> False) ->
    exists B, restrictMatrix R A Ac = Ok B /\
      added n (fun i j => galerkin n (matrix R) (op_matrix A) i j + galerkin n (fun i k => matrix R k i) (op_matrix A) i j)%Qc Ac B.
Proof. exact restrictMatrix_square. Qed.
Print Assumptions C55_square.

(** C55, refuted: restrictMatrix adds R*A*R.T for square R. *)
Theorem C55_square_refuted :
  ~ forall n R A Ac, wf_csr n n R -> sorted_csr n R -> op_ok n A -> op_ok n Ac ->
      (forall A' Ac', A = SCsr A' -> Ac = SSym Ac' -> False) ->
      exists B, restrictMatrix R A Ac = Ok B /\ added n (galerkin n (matrix R) (op_matrix A)) Ac B.
Proof. exact square_refuted. Qed.
Print Assumptions C55_square_refuted.

(** * Examples: linear elements on a line, two coarse and five fine nodes in the
    order 2, 0, 3, 1, 4 *)
Definition ex_hat : restr := Restr 5 [0; 2; 4] [2; 3; 3; 4].
Definition ex_R : csr := CSR 5 [0; 3; 6] [0; 2; 3; 1; 3; 4] [qz 1; half; half; qz 1; half; half].
Definition ex_P : csr := CSR 2 [0; 1; 2; 3; 5; 6] [0; 1; 0; 1; 0; 1] [qz 1; qz 1; half; half; half; half].
Definition ex_A : sss := SSS [0; 0; 0; 1; 3; 4] [0; 0; 1; 1] [qz (-1); qz (-1); qz (-1); qz (-1)] [qz 2; qz 2; qz 2; qz 2; qz 2].
Definition ex_A_csr : csr := CSR 5 [0; 3; 6; 8; 11; 13] [0; 2; 3; 1; 3; 4; 0; 2; 0; 1; 3; 1; 4]
  [qz 2; qz (-1); qz (-1); qz 2; qz (-1); qz (-1); qz (-1); qz 2; qz (-1); qz (-1); qz 2; qz (-1); qz 2].
Definition ex_Ac : sss := SSS [0; 0; 1] [0] [qz 0] [qz 10; qz 0].
Definition ex_Ac_csr : csr := CSR 2 [0; 2; 4] [0; 1; 0; 1] [qz 10; qz 0; qz 0; qz 0].

Example C55_example_ok :
  restr_ok 2 5 ex_hat /\ (wf_csr 2 5 ex_R /\ sorted_csr 2 ex_R) /\ wf_csr 5 2 ex_P /\ op_ok 5 (SSym ex_A) /\ op_ok 5 (SCsr ex_A_csr) /\
  op_ok 2 (SSym ex_Ac) /\ op_ok 2 (SCsr ex_Ac_csr) /\ symmetric 5 (matrix ex_A_csr).
Proof.
  assert (W : forall n m A, c_ncols A = m -> wf_rows n m (c_indptr A) (c_indices A) (c_data A) -> wf_csr n m A) by (intros; split; assumption).
  split; [split; [lia|split; [apply W; [reflexivity|rows_ok]|sorted_ok]]|].
  split; [split; [apply W; [reflexivity|rows_ok]|sorted_ok]|].
  split; [apply W; [reflexivity|rows_ok]|].
  split; [split; [split; [rows_ok|split; [reflexivity|lower_ok]]|sorted_ok]|].
  split; [split; [apply W; [reflexivity|rows_ok]|sorted_ok]|].
  split; [split; [split; [rows_ok|split; [reflexivity|lower_ok]]|sorted_ok]|].
  split; [split; [apply W; [reflexivity|rows_ok]|sorted_ok]|].
  intros i j Hi Hj. small_lt; apply Qc_is_canon; vm_compute; reflexivity.
Qed.
(** the values of the result, the diagonal of a symmetric operator last *)
Definition ex_out (r : res sop) : list Q :=
  match r with
  | Ok (SCsr B) => map this (c_data B)
  | Ok (SSym B) => map this (s_data B ++ s_diag B)
  | Err _ => []
  end.
(** the coarse matrix is 1 on the diagonal, -1/2 beside it *)
Example C55_example :
  ex_out (multiply_restr ex_hat (SSym ex_A) (SSym ex_Ac)) = [(-1 # 2)%Q; 11%Q; 1%Q] /\
  ex_out (multiply ex_R (SSym ex_A) (SSym ex_Ac)) = [(-1 # 2)%Q; 11%Q; 1%Q] /\
  ex_out (restrictMatrix ex_R (SSym ex_A) (SCsr ex_Ac_csr)) = [11%Q; (-1 # 2)%Q; (-1 # 2)%Q; 1%Q] /\
  ex_out (multiply_restr ex_hat (SCsr ex_A_csr) (SCsr ex_Ac_csr)) = [11%Q; (-1 # 2)%Q; (-1 # 2)%Q; 1%Q] /\
  ex_out (restrictMatrix ex_P (SCsr ex_A_csr) (SSym ex_Ac)) = [(-1 # 2)%Q; 11%Q; 1%Q] /\
  ex_out (multiply_restr ex_hat (SSym ex_A) (SCsr ex_Ac_csr)) = [9%Q; (-1 # 2)%Q; (-1 # 2)%Q; (-1)%Q] /\
  ex_out (multiply ex_R (SCsr ex_A_csr) (SSym ex_Ac)) = [(-1 # 2)%Q; 10%Q; 0%Q].
Proof. vm_compute. tauto. Qed.
(** a square matrix: restrictMatrix with the identity adds A twice *)
Example C55_example_square :
  ex_out (restrictMatrix (CSR 2 [0; 1; 2] [0; 1] [qz 1; qz 1]) (SSym ex_Ac) (SCsr ex_Ac_csr)) = [30%Q; 0%Q; 0%Q; 0%Q].
Proof. vm_compute. reflexivity. Qed.
