(** Model of the substitution kernels, the LU / incomplete LU / Cholesky solve
    phases and incomplete Cholesky (base/PyNucleus_base/linalg.pyx, solvers.pyx,
    opt_false_mkl_trisolve.pxi).

    Simplifications: values are exact rationals; dividing by zero (which gives
    inf or nan in the code) is the error [EDiv0]; the factorisations themselves
    (scipy's splu, spilu) are inputs. *)
From Verif Require Import Util Lin CSRModel.

Definition qdiv (a b : Qc) : res Qc := if Qc_eq_bool b 0 then Err EDiv0 else Ok (a / b)%Qc.

(** [for i in range(n-1, -1, -1)] *)
Definition for_back {S} (n : nat) (f : nat -> S -> res S) (s : S) : res S :=
  for_range_down n 0 (fun i => f (i - 1)) s.

(** [x[:] = 0] *)
Definition set0 (y : buf Qc) : res (buf Qc) := for_range 0 (length y) (fun i y => wr y i 0%Qc) y.

(** linalg.pyx:156-197; columns of the factor in (ip, ind, dat); the complex
    branch has the same statements *)
Definition forward_solve_csc (ip ind : list nat) (dat b : list Qc) (y : buf Qc) (unitDiagonal : bool) : res (buf Qc) :=
  for_range 0 (length b) (fun j y =>
    i1 <- aget ip j ;; i2 <- aget ip (j + 1) ;;
    bj <- aget b j ;; yj <- rd y j ;;
    v <- (if unitDiagonal then Ok (bj - yj)%Qc else d <- aget dat i1 ;; qdiv (bj - yj) d) ;;
    y1 <- wr y j v ;;
    for_range (i1 + 1) i2 (fun i y =>
      k <- aget ind i ;; d <- aget dat i ;; yj <- rd y j ;; addto y k (d * yj)%Qc) y1) y.

(** linalg.pyx:201-219 and 223-241; [inverse] selects the second one, in which
    [diag] holds the reciprocals of the diagonal *)
Definition forward_solve_sss_gen (inverse : bool) (ip ind : list nat) (dat diag b : list Qc) (y : buf Qc) (unitDiagonal : bool) : res (buf Qc) :=
  for_range 0 (length b) (fun j y =>
    bj <- aget b j ;; yj <- rd y j ;;
    v <- (if unitDiagonal then Ok (bj - yj)%Qc
          else d <- aget diag j ;; if inverse then Ok ((bj - yj) * d)%Qc else qdiv (bj - yj) d) ;;
    y1 <- wr y j v ;;
    for_row ip j (fun i y =>
      k <- aget ind i ;; d <- aget dat i ;; yj <- rd y j ;; addto y k (d * yj)%Qc) y1) y.
Definition forward_solve_sss := forward_solve_sss_gen false.
Definition forward_solve_sss_noInverse := forward_solve_sss_gen true.

(** linalg.pyx:245-265 *)
Definition backward_solve_csc (ip ind : list nat) (dat b : list Qc) (y : buf Qc) : res (buf Qc) :=
  for_back (length b) (fun j y =>
    i1 <- aget ip j ;; i2 <- aget ip (j + 1) ;;
    _ <- guard (1 <=? i2) EOob ;;
    bj <- aget b j ;; yj <- rd y j ;;
    d <- aget dat (i2 - 1) ;;
    v <- qdiv (bj - yj) d ;;
    y1 <- wr y j v ;;
    for_range i1 (i2 - 1) (fun i y =>
      k <- aget ind i ;; d <- aget dat i ;; yj <- rd y j ;; addto y k (d * yj)%Qc) y1) y.

(** linalg.pyx:280-285: the while loop of backward_solve_csr, from position
    [jj] - 1 (so that the position 0 - 1 is an access out of bounds) *)
Fixpoint back_row (ind : list nat) (dat : list Qc) (y : buf Qc) (i : nat) (jj : nat) (temp : Qc) : res (nat * Qc) :=
  match jj with
  | O => Err EOob
  | S k =>
      j <- aget ind k ;;
      if i <? j then
        d <- aget dat k ;; yj <- rd y j ;; back_row ind dat y i k (temp - d * yj)%Qc
      else Ok (k, temp)
  end.
(** linalg.pyx:269-285; [rb] reads b[i]: in solve_cholesky b and y are the same
    array *)
Definition backward_solve_csr_gen (rb : buf Qc -> nat -> res Qc) (n : nat) (ip ind : list nat) (dat : list Qc) (y : buf Qc) : res (buf Qc) :=
  for_back n (fun i y =>
    temp <- rb y i ;;
    hi <- aget ip (i + 1) ;;
    '(jj, temp) <- back_row ind dat y i hi temp ;;
    d <- aget dat jj ;;
    v <- qdiv temp d ;;
    wr y i v) y.
Definition backward_solve_csr (ip ind : list nat) (dat b : list Qc) (y : buf Qc) : res (buf Qc) :=
  backward_solve_csr_gen (fun _ i => aget b i) (length b) ip ind dat y.

(** linalg.pyx:289-302 and 306-319 *)
Definition backward_solve_sss_gen (inverse : bool) (ip ind : list nat) (dat diag b : list Qc) (y : buf Qc) : res (buf Qc) :=
  for_back (length b) (fun i y =>
    t <- aget b i ;;
    temp <- for_row ip i (fun jj temp =>
      d <- aget dat jj ;; k <- aget ind jj ;; yk <- rd y k ;; Ok (temp - d * yk)%Qc) t ;;
    d <- aget diag i ;;
    v <- (if inverse then Ok (temp * d)%Qc else qdiv temp d) ;;
    wr y i v) y.
Definition backward_solve_sss := backward_solve_sss_gen false.
Definition backward_solve_sss_noInverse := backward_solve_sss_gen true.

(** [for i in range(n): temp[perm[i]] = b[i]] *)
Definition permute_in (n : nat) (perm : list nat) (b : list Qc) (t : buf Qc) : res (buf Qc) :=
  for_range 0 n (fun i t => p <- aget perm i ;; bi <- aget b i ;; wr t p bi) t.
(** [for i in range(n): x[i] = temp[perm[i]]] *)
Definition permute_out (n : nat) (perm : list nat) (t x : buf Qc) : res (buf Qc) :=
  for_range 0 n (fun i x => p <- aget perm i ;; v <- rd t p ;; wr x i v) x.

(** linalg.pyx:323-341.  The kernels read their right-hand side as initialised
    memory ([all_init]) *)
Definition solve_LU (Lip Lind : list nat) (Ldat : list Qc) (Uip Uind : list nat) (Udat : list Qc)
    (perm_r perm_c : list nat) (b : list Qc) : res (buf Qc) :=
  let n := length b in
  temp2 <- permute_in n perm_r b (alloc n) ;;
  t2 <- all_init temp2 ;;
  temp1 <- forward_solve_csc Lip Lind Ldat t2 (repeat (Some 0%Qc) n) true ;;
  temp2' <- set0 temp2 ;;
  t1 <- all_init temp1 ;;
  temp2'' <- backward_solve_csc Uip Uind Udat t1 temp2' ;;
  permute_out n perm_c temp2'' temp1.

(** solvers.pyx:147-167, the branch with triangular factors; [temp] is temp_mem *)
Definition lu_solver_solve (Lip Lind : list nat) (Ldat : list Qc) (Uip Uind : list nat) (Udat : list Qc)
    (perm_r perm_c : list nat) (b : list Qc) (x temp : buf Qc) : res (buf Qc) :=
  let n := length perm_c in
  temp <- permute_in n perm_r b temp ;;
  x0 <- set0 x ;;
  t <- all_init temp ;;
  x1 <- forward_solve_csc Lip Lind Ldat t x0 true ;;
  temp0 <- set0 temp ;;
  t1 <- all_init x1 ;;
  temp1 <- backward_solve_csc Uip Uind Udat t1 temp0 ;;
  permute_out n perm_c temp1 x1.

(** solvers.pyx:208-223 and linalg.pyx:370-382 *)
Definition ilu_solver_solve (Lip Lind : list nat) (Ldat : list Qc) (Uip Uind : list nat) (Udat : list Qc)
    (perm_r perm_c : list nat) (b : list Qc) (x temp1 temp2 : buf Qc) : res (buf Qc) :=
  let n := length x in
  temp1 <- set0 temp1 ;;
  temp2 <- permute_in n perm_r b temp2 ;;
  t2 <- all_init temp2 ;;
  temp1 <- forward_solve_csc Lip Lind Ldat t2 temp1 true ;;
  temp2 <- set0 temp2 ;;
  t1 <- all_init temp1 ;;
  temp2 <- backward_solve_csc Uip Uind Udat t1 temp2 ;;
  permute_out n perm_c temp2 x.

(** linalg.pyx:391-402 *)
Definition solve_cholesky (ip ind : list nat) (dat b : list Qc) : res (buf Qc) :=
  let n := length b in
  temp <- forward_solve_csc ip ind dat b (repeat (Some 0%Qc) n) false ;;
  backward_solve_csr_gen (fun y i => rd y i) n ip ind dat temp.

(** opt_false_mkl_trisolve.pxi:34-43; [idiag] holds the reciprocals computed at
    the end of setup (lines 29-30) *)
Definition ichol_solver_solve (ip ind : list nat) (dat idiag b : list Qc) (x temp : buf Qc) : res (buf Qc) :=
  temp0 <- set0 temp ;;
  temp1 <- forward_solve_sss_noInverse ip ind dat idiag b temp0 false ;;
  t1 <- all_init temp1 ;;
  backward_solve_sss_noInverse ip ind dat idiag t1 x.

(** linalg.pyx:92-97: the search for row [k] in column i from position [hh] on *)
Fixpoint ichol_find (ind : list nat) (n hh k : nat) : res (option nat) :=
  match n with
  | O => Ok None
  | S n' => h <- aget ind hh ;; if h =? k then Ok (Some hh) else ichol_find ind n' (S hh) k
  end.

(** linalg.pyx:69-72: search of the diagonal entry of row i *)
Fixpoint ichol_diag (ind : list nat) (dat : list Qc) (i n ii : nat) (diag : buf Qc) : res (buf Qc) :=
  match n with
  | O => Ok diag
  | S n' =>
      j <- aget ind ii ;;
      if j =? i then v <- aget dat ii ;; wr diag i v else ichol_diag ind dat i n' (S ii) diag
  end.

(** linalg.pyx:44-98; [sq] is the square root *)
Definition ichol_csr (sq : Qc -> Qc) (A : csr) : res (list nat * list nat * list Qc * buf Qc) :=
  let n := c_nrows A in
  (* step 1 *)
  ip0 <- for_range 0 n (fun i ip =>
    for_row (c_indptr A) i (fun jj ip =>
      j <- aget (c_indices A) jj ;;
      if j <? i then q <- aget ip (j + 1) ;; aset ip (j + 1) (q + 1) else Ok ip) ip) (repeat 0 (n + 1)) ;;
  ip1 <- for_range 0 n (fun i ip =>
    a <- aget ip i ;; b <- aget ip (i + 1) ;; aset ip (i + 1) (b + a)) ip0 ;;
  (* step 2 *)
  nnz <- aget ip1 n ;;
  '(ip2, ind, dat, diag) <- for_range 0 n (fun i '(ip, ind, dat, diag) =>
    lo <- aget (c_indptr A) i ;; hi <- aget (c_indptr A) (i + 1) ;;
    diag' <- ichol_diag (c_indices A) (c_data A) i (hi - lo) lo diag ;;
    '(ip', ind', dat') <- for_row (c_indptr A) i (fun jj '(ip, ind, dat) =>
      j <- aget (c_indices A) jj ;;
      if j <? i then
        p <- aget ip j ;;
        ind' <- wr ind p i ;;
        v <- aget (c_data A) jj ;;
        dat' <- aset dat p v ;;
        ip' <- aset ip j (p + 1) ;;
        Ok (ip', ind', dat')
      else Ok (ip, ind, dat)) (ip, ind, dat) ;;
    Ok (ip', ind', dat', diag')) (ip1, alloc nnz, repeat 0%Qc nnz, alloc n) ;;
  ip3 <- for_range_down n 0 (fun i ip => p <- aget ip (i - 1) ;; aset ip i p) ip2 ;;
  ip4 <- aset ip3 0 0 ;;
  indl <- all_init ind ;;
  B <- csr_sort_indices (CSR n ip4 indl dat) ;;
  (* step 3 *)
  '(dat3, diag3) <- for_range 0 n (fun i '(dat, diag) =>
    di <- rd diag i ;;
    diag1 <- wr diag i (sq di) ;;
    lo <- aget ip4 i ;; hi <- aget ip4 (i + 1) ;;
    for_range lo hi (fun jj '(dat, diag) =>
      v <- aget dat jj ;;
      di <- rd diag i ;;
      w <- qdiv v di ;;
      dat1 <- aset dat jj w ;;
      j <- aget (c_indices B) jj ;;
      dj <- rd diag j ;;
      diag' <- wr diag j (dj - w * w)%Qc ;;
      lo' <- aget ip4 j ;; hi' <- aget ip4 (j + 1) ;;
      dat2 <- for_range lo' hi' (fun kk dat =>
        k <- aget (c_indices B) kk ;;
        o <- ichol_find (c_indices B) (hi - jj) jj k ;;
        match o with
        | Some hh =>
            a <- aget dat kk ;; c <- aget dat hh ;; d <- aget dat jj ;;
            aset dat kk (a - c * d)%Qc
        | None => Ok dat
        end) dat1 ;;
      Ok (dat2, diag')) (dat, diag1)) (c_data B, diag) ;;
  Ok (c_indices B, ip4, dat3, diag3).
