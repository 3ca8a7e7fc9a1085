(** Property theorems C11 (triangular and LU solves) and C12 (incomplete
    Cholesky).  Proofs are in TriProofs*.v. *)
From Verif Require Import Util Lin CSRModel CSRSpec TriModel TriSpec TriProofs4.

(** C11, kernels. Each substitution kernel returns the only solution of its
    triangular system. The column-oriented ones treat the previous content of y
    as an offset that is subtracted from the right-hand side (the callers pass
    zeros); the row-oriented ones ignore it. *)
Theorem C11_substitution_kernels :
  forall n (ip ind : list nat) (dat b : list Qc), length b = n ->
    (lower_cols n ip ind dat -> forall y0 : list Qc, length y0 = n ->
       exists y, forward_solve_csc ip ind dat b (map Some y0) false = Ok (map Some y) /\
         the_solution n (colmat ip ind dat) (tab n (fun i => vat b i - vat y0 i)%Qc) y) /\
    (lower_cols n ip ind dat -> forall y0 : list Qc, length y0 = n ->
       exists y, forward_solve_csc ip ind dat b (map Some y0) true = Ok (map Some y) /\
         the_solution n (with_diag (colmat ip ind dat) (fun _ => 1%Qc)) (tab n (fun i => vat b i - vat y0 i)%Qc) y) /\
    (upper_cols n ip ind dat -> forall y0 : list Qc, length y0 = n ->
       exists y, backward_solve_csc ip ind dat b (map Some y0) = Ok (map Some y) /\
         the_solution n (colmat ip ind dat) (tab n (fun i => vat b i - vat y0 i)%Qc) y) /\
    (diag_rows n ip ind dat -> forall y0 : buf Qc, length y0 = n ->
       exists y, backward_solve_csr ip ind dat b y0 = Ok (map Some y) /\
         the_solution n (upper_part (rowmat ip ind dat)) b y) /\
    (strict_above n ip ind dat -> forall diag : list Qc, length diag = n -> (forall i, i < n -> vat diag i <> 0%Qc) ->
       (forall y0 : list Qc, length y0 = n -> exists y, forward_solve_sss ip ind dat diag b (map Some y0) false = Ok (map Some y) /\
          the_solution n (with_diag (colmat ip ind dat) (vat diag)) (tab n (fun i => vat b i - vat y0 i)%Qc) y) /\
       (forall y0 : buf Qc, length y0 = n -> exists y, backward_solve_sss ip ind dat diag b y0 = Ok (map Some y) /\
          the_solution n (with_diag (rowmat ip ind dat) (vat diag)) b y)).
Proof. exact kernels_thm. Qed.
Print Assumptions C11_substitution_kernels.

(** C11, LU. With factors in SuperLU's convention (Pr A Pc = L U, that is
    A[i,j] = (L U)[perm_r[i], perm_c[j]]), unit diagonal entries stored in L,
    solve_LU, lu_solver.solve and ilu_solver.solve return the only solution of
    A x = b, whatever the previous content of the result vector and of the
    work vectors. *)
Theorem C11_LU_solve :
  forall n (Lip Lind : list nat) (Ldat : list Qc) (Uip Uind : list nat) (Udat : list Qc) (perm_r perm_c : list nat) (A : mat) (b : list Qc),
    lower_cols n Lip Lind Ldat -> upper_cols n Uip Uind Udat ->
    (forall i, i < n -> colmat Lip Lind Ldat i i = 1%Qc) ->
    is_perm n perm_r -> is_perm n perm_c ->
    (forall i j, i < n -> j < n ->
       A i j = mm n (colmat Lip Lind Ldat) (colmat Uip Uind Udat) (nth i perm_r 0) (nth j perm_c 0)) ->
    length b = n ->
    exists x, the_solution n A b x /\
      solve_LU Lip Lind Ldat Uip Uind Udat perm_r perm_c b = Ok (map Some x) /\
      forall x0 temp1 temp2 : buf Qc, length x0 = n -> length temp1 = n -> length temp2 = n ->
        lu_solver_solve Lip Lind Ldat Uip Uind Udat perm_r perm_c b x0 temp1 = Ok (map Some x) /\
        ilu_solver_solve Lip Lind Ldat Uip Uind Udat perm_r perm_c b x0 temp1 temp2 = Ok (map Some x).
Proof. exact lu_thm. Qed.
Print Assumptions C11_LU_solve.

(** C11, Cholesky. solve_cholesky and the solve phase of ichol_solver return the
    only solution of L L^T x = b. *)
Theorem C11_cholesky_solve :
  forall n (ip ind : list nat) (dat b : list Qc), length b = n ->
    (lower_cols n ip ind dat ->
       exists x, solve_cholesky ip ind dat b = Ok (map Some x) /\
         the_solution n (mm n (colmat ip ind dat) (mt (colmat ip ind dat))) b x) /\
    (strict_above n ip ind dat -> forall idiag : list Qc, length idiag = n -> (forall i, i < n -> vat idiag i <> 0%Qc) ->
       forall x0 temp : buf Qc, length x0 = n -> length temp = n ->
       exists x, ichol_solver_solve ip ind dat idiag b x0 temp = Ok (map Some x) /\
         let L := with_diag (colmat ip ind dat) (fun i => / vat idiag i)%Qc in
         the_solution n (mm n L (mt L)) b x).
Proof. exact cholesky_thm. Qed.
Print Assumptions C11_cholesky_solve.

(** C12, as stated: false. The dense symmetric matrix
    [[4,2,2],[2,5,3],[2,3,6]] = L0 L0^T with L0 = [[2,0,0],[1,2,0],[1,1,2]]: the
    routine returns 1/2 instead of 1 in position (2, 1), so that (L L^T)[2,1] is
    2 and not A[2,1] = 3 (updates use column entries before they are divided by
    the pivot). *)
Theorem C12_incomplete_cholesky_refuted :
  exists (A : csr) (L0 : mat) (ind ip : list nat) (dat : list Qc) (diag : list Qc),
    wf_csr 3 3 A /\ sorted_csr 3 A /\
    (forall i j, i < 3 -> j < 3 -> matrix A i j = mm 3 L0 (mt L0) i j) /\
    (forall i j, i < 3 -> i < j < 3 -> L0 i j = 0%Qc) /\ (forall i, i < 3 -> (0 < L0 i i)%Qc) /\
    ichol_csr rat_sqrt A = Ok (ind, ip, dat, map Some diag) /\
    let L := with_diag (colmat ip ind dat) (vat diag) in
    L 2 1 <> L0 2 1 /\ mm 3 L (mt L) 2 1 <> matrix A 2 1.
Proof. exact ichol_wrong. Qed.
Print Assumptions C12_incomplete_cholesky_refuted.

(** A = [[6,4,3],[17,0,9],[1,2,0]] with Pr A Pc = L U, L = [[1,0,0],[2,1,0],[0,3,1]], U = [[2,0,1],[0,3,4],[0,0,5]],
    perm_r = [1,2,0], perm_c = [2,0,1]. *)
Example C11_example_factors :
  lower_cols 3 [0; 2; 4; 5] [0; 1; 1; 2; 2] [qz 1; qz 2; qz 1; qz 3; qz 1] /\
  upper_cols 3 [0; 1; 2; 5] [0; 1; 0; 1; 2] [qz 2; qz 3; qz 1; qz 4; qz 5] /\
  (forall i, i < 3 -> colmat [0; 2; 4; 5] [0; 1; 1; 2; 2] [qz 1; qz 2; qz 1; qz 3; qz 1] i i = 1%Qc) /\
  is_perm 3 [1; 2; 0] /\ is_perm 3 [2; 0; 1].
Proof. exact lu_example_factors. Qed.

Example C11_example :
  let s := solve_LU [0; 2; 4; 5] [0; 1; 1; 2; 2] [qz 1; qz 2; qz 1; qz 3; qz 1]
                    [0; 1; 2; 5] [0; 1; 0; 1; 2] [qz 2; qz 3; qz 1; qz 4; qz 5] [1; 2; 0] [2; 0; 1] in
  show_buf (s [qz 23; qz 44; qz 5]) = Ok [Some (1 # 1)%Q; Some (2 # 1)%Q; Some (3 # 1)%Q].
Proof. vm_compute. reflexivity. Qed.

Example C11_example_cholesky :
  show_buf (solve_cholesky [0; 2; 3] [0; 1; 1] [qz 2; qz 1; qz 3] [qz 8; qz 22]) = Ok [Some (1 # 1)%Q; Some (2 # 1)%Q].
Proof. vm_compute. reflexivity. Qed.
