(** Model of the compressed row (CSR) operator kernels
    (base/PyNucleus_base/CSR_LinearOperator_{SCALAR}.pxi,
    opt_false_mkl.pxi, linear_operators.pyx).

    Simplifications: indices are natural numbers; values are exact rationals
    (the COMPLEX instantiation is covered as far as its entries are real; where
    its code differs there is a flag); output vectors are buffers whose cells may
    be uninitialised; arrays allocated by a function and handed to the result
    object must be completely initialised ([all_init]). *)
From Coq Require Import Qcabs.
From Verif Require Import Util Lin.

(** CSR_LinearOperator_decl_{SCALAR}.pxi; [c_ncols] is num_columns, num_rows is
    indptr.shape[0]-1 *)
Record csr := CSR { c_ncols : nat; c_indptr : list nat; c_indices : list nat; c_data : list Qc }.
Definition c_nrows (A : csr) : nat := length (c_indptr A) - 1.

(** [for jj in range(indptr[i], indptr[i+1])] *)
Definition for_row {S} (ip : list nat) (i : nat) (f : nat -> S -> res S) (s : S) : res S :=
  lo <- aget ip i ;; hi <- aget ip (i + 1) ;; for_range lo hi f s.

(** opt_false_mkl.pxi:8-41; [cplx] is [SCALAR_t is COMPLEX_t], in which case
    [trans] is ignored (lines 12-22) *)
Definition spmv (cplx : bool) (A : csr) (x : list Qc) (y : buf Qc) (overwrite trans : bool) : res (buf Qc) :=
  if cplx || negb trans then
    for_range 0 (c_nrows A) (fun i y =>
      temp <- for_row (c_indptr A) i (fun jj temp =>
                j <- aget (c_indices A) jj ;;
                d <- aget (c_data A) jj ;;
                xj <- aget x j ;;
                Ok (temp + d * xj)%Qc) 0%Qc ;;
      if overwrite then wr y i temp else addto y i temp) y
  else
    y0 <- (if overwrite then for_range 0 (length y) (fun i y => wr y i 0%Qc) y else Ok y) ;;
    for_range 0 (c_nrows A) (fun i y =>
      temp <- aget x i ;;
      for_row (c_indptr A) i (fun jj y =>
        j <- aget (c_indices A) jj ;;
        d <- aget (c_data A) jj ;;
        addto y j (d * temp)%Qc) y) y0.

(** opt_false_mkl.pxi:44-63 *)
Definition spres (A : csr) (x rhs : list Qc) (result : buf Qc) : res (buf Qc) :=
  for_range 0 (c_nrows A) (fun i result =>
    r <- aget rhs i ;;
    temp <- for_row (c_indptr A) i (fun jj temp =>
              j <- aget (c_indices A) jj ;;
              d <- aget (c_data A) jj ;;
              xj <- aget x j ;;
              Ok (temp - d * xj)%Qc) r ;;
    wr result i temp) result.

(** opt_false_blas.pxi:8-12 *)
Definition assign (y : buf Qc) (x : list Qc) : res (buf Qc) :=
  for_range 0 (length x) (fun i y => v <- aget x i ;; wr y i v) y.

(** CSR_LinearOperator_{SCALAR}.pxi:21-25 *)
Definition csr_matvec (cplx : bool) (A : csr) (x : list Qc) (y : buf Qc) := spmv cplx A x y true false.
(** CSR_LinearOperator_{SCALAR}.pxi:37-41 *)
Definition csr_matvec_no_overwrite (cplx : bool) (A : csr) x y := spmv cplx A x y false false.
(** CSR_LinearOperator_{SCALAR}.pxi:43-47 *)
Definition csr_matvecTrans (cplx : bool) (A : csr) x y := spmv cplx A x y true true.
(** CSR_LinearOperator_{SCALAR}.pxi:49-53 *)
Definition csr_matvecTrans_no_overwrite (cplx : bool) (A : csr) x y := spmv cplx A x y false true.
(** CSR_LinearOperator_{SCALAR}.pxi:27-35 *)
Definition csr_residual (A : csr) (x rhs : list Qc) (result : buf Qc) (simpleResidual : bool) : res (buf Qc) :=
  if simpleResidual then assign result rhs else spres A x rhs result.

(** The search shared by setEntry, addToEntry, getEntry
    (CSR_LinearOperator_{SCALAR}.pxi:129-148, 150-170, 172-190): linear below 20
    entries; None: not found *)
Fixpoint entry_linear (ind : list nat) (n i : nat) (J : nat) : res (option nat) :=
  match n with
  | O => Ok None
  | S n' => j <- aget ind i ;; if j =? J then Ok (Some i) else entry_linear ind n' (S i) J
  end.
Fixpoint entry_bisect (fuel : nat) (ind : list nat) (low high : nat) (J : nat) : res (option nat) :=
  match fuel with
  | O => Err EFuel
  | S f =>
      j <- aget ind low ;;
      if j =? J then Ok (Some low)
      else if high - low <=? 1 then Ok None
      else
        let mid := (low + high) / 2 in
        k <- aget ind mid ;;
        if k <=? J then entry_bisect f ind mid high J else entry_bisect f ind low mid J
  end.
Definition entry_find (ip ind : list nat) (I J : nat) : res (option nat * bool) :=
  low <- aget ip I ;; high <- aget ip (I + 1) ;;
  if high - low <? 20 then o <- entry_linear ind (high - low) low J ;; Ok (o, true)
  else o <- entry_bisect (S (high - low)) ind low high J ;; Ok (o, false).

(** CSR_LinearOperator_{SCALAR}.pxi:172-190; a missing entry falls off the end of
    the function in the linear case, which returns 0 *)
Definition csr_getEntry (A : csr) (I J : nat) : res Qc :=
  '(o, _) <- entry_find (c_indptr A) (c_indices A) I J ;;
  match o with Some k => aget (c_data A) k | None => Ok 0%Qc end.

(** CSR_LinearOperator_{SCALAR}.pxi:129-148; a missing entry is ignored in the
    linear case and raises IndexError in the other *)
Definition csr_setEntry (A : csr) (I J : nat) (val : Qc) : res csr :=
  '(o, lin) <- entry_find (c_indptr A) (c_indices A) I J ;;
  match o with
  | Some k => d <- aset (c_data A) k val ;; Ok (CSR (c_ncols A) (c_indptr A) (c_indices A) d)
  | None => if lin then Ok A else Err EIndex
  end.

(** CSR_LinearOperator_{SCALAR}.pxi:150-170 *)
Definition csr_addToEntry (A : csr) (I J : nat) (val : Qc) : res csr :=
  '(o, _) <- entry_find (c_indptr A) (c_indices A) I J ;;
  match o with
  | Some k =>
      v <- aget (c_data A) k ;;
      d <- aset (c_data A) k (v + val)%Qc ;;
      Ok (CSR (c_ncols A) (c_indptr A) (c_indices A) d)
  | None => Ok A
  end.

(** CSR_LinearOperator_{SCALAR}.pxi:230-241; the inner loop stops at the first
    diagonal entry *)
Fixpoint diag_search (A : csr) (i n jj : nat) (d : list Qc) : res (list Qc) :=
  match n with
  | O => Ok d
  | S n' =>
      j <- aget (c_indices A) jj ;;
      if j =? i then v <- aget (c_data A) jj ;; aset d i v
      else diag_search A i n' (S jj) d
  end.
Definition csr_get_diagonal (A : csr) : res (list Qc) :=
  for_range 0 (c_nrows A) (fun i d =>
    lo <- aget (c_indptr A) i ;; hi <- aget (c_indptr A) (i + 1) ;;
    diag_search A i (hi - lo) lo d) (repeat 0%Qc (c_nrows A)).

(** CSR_LinearOperator_{SCALAR}.pxi:343-351 *)
Definition csr_scaleLeft (A : csr) (scaling : list Qc) : res csr :=
  _ <- guard (c_nrows A =? length scaling) EAssert ;;
  data <- for_range 0 (c_nrows A) (fun i data =>
    d <- aget scaling i ;;
    for_row (c_indptr A) i (fun jj data =>
      v <- aget data jj ;; aset data jj (v * d)%Qc) data) (c_data A) ;;
  Ok (CSR (c_ncols A) (c_indptr A) (c_indices A) data).

(** CSR_LinearOperator_{SCALAR}.pxi:353-360 *)
Definition csr_scaleRight (A : csr) (scaling : list Qc) : res csr :=
  _ <- guard (c_ncols A =? length scaling) EAssert ;;
  data <- for_range 0 (c_nrows A) (fun i data =>
    for_row (c_indptr A) i (fun jj data =>
      j <- aget (c_indices A) jj ;;
      s <- aget scaling j ;;
      v <- aget data jj ;; aset data jj (v * s)%Qc) data) (c_data A) ;;
  Ok (CSR (c_ncols A) (c_indptr A) (c_indices A) data).

(** opt_false_blas.pxi:48-56 through CSR_LinearOperator_{SCALAR}.pxi:340-341 *)
Definition csr_scale (A : csr) (alpha : Qc) : res csr :=
  data <- for_range 0 (length (c_data A)) (fun i data =>
    v <- aget data i ;; aset data i (v * alpha)%Qc) (c_data A) ;;
  Ok (CSR (c_ncols A) (c_indptr A) (c_indices A) data).

(** CSR_LinearOperator_{SCALAR}.pxi:362-366 *)
Definition csr_setZero (A : csr) : res csr :=
  data <- for_range 0 (length (c_data A)) (fun i data => aset data i 0%Qc) (c_data A) ;;
  Ok (CSR (c_ncols A) (c_indptr A) (c_indices A) data).

Definition Qc_nonzero (v : Qc) : bool := negb (Qc_eq_bool v 0).

(** CSR_LinearOperator_{SCALAR}.pxi:368-395 *)
Definition csr_eliminate_zeros (A : csr) : res csr :=
  ipn <- for_range 0 (c_nrows A) (fun i ipn =>
    p <- aget ipn i ;;
    ipn1 <- aset ipn (i + 1) p ;;
    for_row (c_indptr A) i (fun jj ipn =>
      v <- aget (c_data A) jj ;;
      if Qc_nonzero v then q <- aget ipn (i + 1) ;; aset ipn (i + 1) (q + 1) else Ok ipn) ipn1)
    (repeat 0 (c_nrows A + 1)) ;;
  nnz <- aget ipn (c_nrows A) ;;
  '(ind, dat, k) <- for_range 0 (c_nrows A) (fun i st =>
    for_row (c_indptr A) i (fun jj '(ind, dat, k) =>
      v <- aget (c_data A) jj ;;
      if Qc_nonzero v then
        j <- aget (c_indices A) jj ;;
        ind' <- wr ind k j ;;
        dat' <- wr dat k v ;;
        Ok (ind', dat', k + 1)
      else Ok (ind, dat, k)) st)
    (alloc nnz, alloc nnz, 0) ;;
  indl <- all_init ind ;;
  datl <- all_init dat ;;
  Ok (CSR (c_ncols A) ipn indl datl).

Definition above (tol v : Qc) : bool := if Qclt_le_dec tol (Qcabs v) then true else false.

(** CSR_LinearOperator_{SCALAR}.pxi:89-121; the matrix is given by its shape and
    entries *)
Definition csr_from_dense (n m : nat) (M : nat -> nat -> Qc) (tolerance : Qc) : res csr :=
  ip0 <- for_range 0 n (fun i ip =>
    for_range 0 m (fun j ip =>
      if above tolerance (M i j) then q <- aget ip (i + 1) ;; aset ip (i + 1) (q + 1) else Ok ip) ip)
    (repeat 0 (n + 1)) ;;
  ip <- for_range 0 n (fun i ip =>
    a <- aget ip i ;; b <- aget ip (i + 1) ;; aset ip (i + 1) (b + a)) ip0 ;;
  nnz <- aget ip n ;;
  '(ind, dat) <- for_range 0 n (fun i st =>
    '(ind, dat, k) <- for_range 0 m (fun j '(ind, dat, k) =>
      if above tolerance (M i j) then
        p <- aget ip i ;;
        ind' <- wr ind (p + k) j ;;
        dat' <- wr dat (p + k) (M i j) ;;
        Ok (ind', dat', k + 1)
      else Ok (ind, dat, k)) (fst st, snd st, 0) ;;
    Ok (ind, dat)) (alloc nnz, alloc nnz) ;;
  indl <- all_init ind ;;
  datl <- all_init dat ;;
  Ok (CSR m ip indl datl).

(** CSR_LinearOperator_{SCALAR}.pxi:452-480 (branch with data): insertion sort
    of each row.  [sift] is the while loop: it moves entries up while they are
    larger than j and writes (j, d) into the hole *)
Fixpoint sift (lo j : nat) (d : Qc) (kk : nat) (st : list nat * list Qc) : res (list nat * list Qc) :=
  match kk with
  | O => ind <- aset (fst st) 0 j ;; dat <- aset (snd st) 0 d ;; Ok (ind, dat)
  | S k =>
      if lo <? kk then
        c <- aget (fst st) k ;;
        if j <? c then
          ind <- aset (fst st) kk c ;;
          v <- aget (snd st) k ;;
          dat <- aset (snd st) kk v ;;
          sift lo j d k (ind, dat)
        else ind <- aset (fst st) kk j ;; dat <- aset (snd st) kk d ;; Ok (ind, dat)
      else ind <- aset (fst st) kk j ;; dat <- aset (snd st) kk d ;; Ok (ind, dat)
  end.
Definition csr_sort_indices (A : csr) : res csr :=
  _ <- guard (length (c_indices A) =? length (c_data A)) ENotImpl ;;
  '(ind, dat) <- for_range 0 (c_nrows A) (fun i st =>
    lo <- aget (c_indptr A) i ;; hi <- aget (c_indptr A) (i + 1) ;;
    for_range lo hi (fun jj st =>
      j <- aget (fst st) jj ;;
      d <- aget (snd st) jj ;;
      sift lo j d jj st) st) (c_indices A, c_data A) ;;
  Ok (CSR (c_ncols A) (c_indptr A) ind dat).

(** linear_operators.pyx:39-95, the branch for objects with data, not in place *)
Definition csr_transpose (A : csr) : res csr :=
  let nrow := c_nrows A in let ncol := c_ncols A in
  nnz <- aget (c_indptr A) nrow ;;
  ip0 <- for_range 0 nrow (fun i ip =>
    for_row (c_indptr A) i (fun jj ip =>
      c <- aget (c_indices A) jj ;;
      q <- aget ip (c + 1) ;; aset ip (c + 1) (q + 1)) ip) (repeat 0 (ncol + 1)) ;;
  ip1 <- for_range 1 (ncol + 1) (fun j ip =>
    a <- aget ip j ;; b <- aget ip (j - 1) ;; aset ip j (a + b)) ip0 ;;
  '(ip2, ind, dat) <- for_range 0 nrow (fun i st =>
    for_row (c_indptr A) i (fun jj '(ip, ind, dat) =>
      c <- aget (c_indices A) jj ;;
      p <- aget ip c ;;
      ind' <- wr ind p i ;;
      v <- aget (c_data A) jj ;;
      dat' <- wr dat p v ;;
      ip' <- aset ip c (p + 1) ;;
      Ok (ip', ind', dat')) st) (ip1, alloc nnz, alloc nnz) ;;
  '(ip3, _) <- for_range 0 (ncol + 1) (fun i '(ip, temp) =>
    t <- aget ip i ;; ip' <- aset ip i temp ;; Ok (ip', t)) (ip2, 0) ;;
  indl <- all_init ind ;;
  datl <- all_init dat ;;
  Ok (CSR nrow ip3 indl datl).

(** SSS_LinearOperator_{SCALAR}.pxi: strictly lower part by rows plus diagonal *)
Record sss := SSS { s_indptr : list nat; s_indices : list nat; s_data : list Qc; s_diag : list Qc }.
Definition s_nrows (A : sss) : nat := length (s_indptr A) - 1.

(** SSS_LinearOperator_{SCALAR}.pxi:44-50 and 59-65 (sequential code) *)
Definition sss_rows (A : sss) (x : list Qc) (y : buf Qc) : res (buf Qc) :=
  for_range 0 (s_nrows A) (fun i y =>
    dg <- aget (s_diag A) i ;;
    xi <- aget x i ;;
    '(y1, temp) <- for_row (s_indptr A) i (fun jj '(y, temp) =>
       k <- aget (s_indices A) jj ;;
       d <- aget (s_data A) jj ;;
       xk <- aget x k ;;
       y' <- addto y k (d * xi)%Qc ;;
       Ok (y', temp + d * xk)%Qc) (y, (dg * xi)%Qc) ;;
    addto y1 i temp) y.
(** SSS_LinearOperator_{SCALAR}.pxi:26-51, NoThreads = 1 *)
Definition sss_matvec (A : sss) (x : list Qc) (y : buf Qc) : res (buf Qc) :=
  y0 <- for_range 0 (length y) (fun i y => wr y i 0%Qc) y ;;
  sss_rows A x y0.
(** SSS_LinearOperator_{SCALAR}.pxi:53-66 *)
Definition sss_matvec_no_overwrite (A : sss) (x : list Qc) (y : buf Qc) : res (buf Qc) := sss_rows A x y.

(** SSS_LinearOperator_{SCALAR}.pxi:131-155 *)
Definition sss_getEntry (A : sss) (I J : nat) : res Qc :=
  if I =? J then aget (s_diag A) I
  else
    '(o, _) <- entry_find (s_indptr A) (s_indices A) (if I <? J then J else I) (if I <? J then I else J) ;;
    match o with Some k => aget (s_data A) k | None => Ok 0%Qc end.

(** SSS_LinearOperator_{SCALAR}.pxi:104-129 *)
Definition sss_addToEntry (A : sss) (I J : nat) (val : Qc) : res sss :=
  if I =? J then
    v <- aget (s_diag A) I ;; d <- aset (s_diag A) I (v + val)%Qc ;;
    Ok (SSS (s_indptr A) (s_indices A) (s_data A) d)
  else if J <? I then
    '(o, _) <- entry_find (s_indptr A) (s_indices A) I J ;;
    match o with
    | Some k => v <- aget (s_data A) k ;; d <- aset (s_data A) k (v + val)%Qc ;;
                Ok (SSS (s_indptr A) (s_indices A) d (s_diag A))
    | None => Ok A
    end
  else Ok A.

(** SSS_LinearOperator_{SCALAR}.pxi:78-102; entries above the diagonal are
    ignored *)
Definition sss_setEntry (A : sss) (I J : nat) (val : Qc) : res sss :=
  if I =? J then
    d <- aset (s_diag A) I val ;; Ok (SSS (s_indptr A) (s_indices A) (s_data A) d)
  else if J <? I then
    '(o, lin) <- entry_find (s_indptr A) (s_indices A) I J ;;
    match o with
    | Some k => d <- aset (s_data A) k val ;; Ok (SSS (s_indptr A) (s_indices A) d (s_diag A))
    | None => if lin then Ok A else Err EIndex
    end
  else Ok A.

(** CSR_LinearOperator_{SCALAR}.pxi:192-228 *)
Definition csr_to_sss (A : csr) : res sss :=
  let n := c_nrows A in
  ip0 <- for_range 0 n (fun i ip =>
    for_row (c_indptr A) i (fun jj ip =>
      j <- aget (c_indices A) jj ;;
      if j <? i then q <- aget ip (i + 1) ;; aset ip (i + 1) (q + 1) else Ok ip) ip) (repeat 0 (n + 1)) ;;
  ip1 <- for_range 0 n (fun i ip =>
    a <- aget ip i ;; b <- aget ip (i + 1) ;; aset ip (i + 1) (b + a)) ip0 ;;
  nnz <- aget ip1 (length ip1 - 1) ;;
  '(ip2, ind, dat, diag) <- for_range 0 n (fun i st =>
    for_row (c_indptr A) i (fun jj '(ip, ind, dat, diag) =>
      j <- aget (c_indices A) jj ;;
      if j <? i then
        p <- aget ip i ;;
        ind' <- wr ind p j ;;
        v <- aget (c_data A) jj ;;
        dat' <- wr dat p v ;;
        ip' <- aset ip i (p + 1) ;;
        Ok (ip', ind', dat', diag)
      else if j =? i then
        v <- aget (c_data A) jj ;;
        diag' <- wr diag i v ;;
        Ok (ip, ind, dat, diag')
      else Ok (ip, ind, dat, diag)) st) (ip1, alloc nnz, alloc nnz, alloc n) ;;
  ip3 <- for_range_down n 0 (fun i ip => p <- aget ip (i - 1) ;; aset ip i p) ip2 ;;
  ip4 <- aset ip3 0 0 ;;
  indl <- all_init ind ;;
  datl <- all_init dat ;;
  dgl <- all_init diag ;;
  Ok (SSS ip4 indl datl dgl).

(** SSS_LinearOperator_{SCALAR}.pxi:160-200 and 240-242 *)
Definition sss_to_csr (A : sss) : res csr :=
  let n := s_nrows A in
  ip0 <- for_range 0 n (fun i ip =>
    q <- aget ip (i + 1) ;; ip1 <- aset ip (i + 1) (q + 1) ;;
    for_row (s_indptr A) i (fun jj ip =>
      j <- aget (s_indices A) jj ;;
      q <- aget ip (i + 1) ;; ip' <- aset ip (i + 1) (q + 1) ;;
      q' <- aget ip' (j + 1) ;; aset ip' (j + 1) (q' + 1)) ip1) (repeat 0 (n + 1)) ;;
  ip1 <- for_range 0 n (fun i ip =>
    a <- aget ip i ;; b <- aget ip (i + 1) ;; aset ip (i + 1) (b + a)) ip0 ;;
  nnz <- aget ip1 (length ip1 - 1) ;;
  let put c x v '(ip, ind, dat) :=
    p <- aget ip c ;; ind' <- wr ind p x ;; dat' <- wr dat p v ;; ip' <- aset ip c (p + 1) ;; Ok (ip', ind', dat') in
  '(ip2, ind, dat) <- for_range 0 n (fun i st =>
    dg <- aget (s_diag A) i ;;
    st1 <- put i i dg st ;;
    for_row (s_indptr A) i (fun jj st =>
      j <- aget (s_indices A) jj ;;
      v <- aget (s_data A) jj ;;
      st' <- put i j v st ;;
      put j i v st') st1) (ip1, alloc nnz, alloc nnz) ;;
  ip3 <- for_range_down n 0 (fun i ip => p <- aget ip (i - 1) ;; aset ip i p) ip2 ;;
  ip4 <- aset ip3 0 0 ;;
  indl <- all_init ind ;;
  datl <- all_init dat ;;
  Ok (CSR n ip4 indl datl).

(** SSS_LinearOperator_{SCALAR}.pxi:202-238: columns of the lower triangle; the
    result is (indptr, indices, data) by columns *)
Definition sss_to_lower_csc (A : sss) : res csr :=
  let n := s_nrows A in
  ip0 <- for_range 0 n (fun i ip =>
    q <- aget ip (i + 1) ;; ip1 <- aset ip (i + 1) (q + 1) ;;
    for_row (s_indptr A) i (fun jj ip =>
      j <- aget (s_indices A) jj ;;
      q <- aget ip (j + 1) ;; aset ip (j + 1) (q + 1)) ip1) (repeat 0 (n + 1)) ;;
  ip1 <- for_range 0 n (fun i ip =>
    a <- aget ip i ;; b <- aget ip (i + 1) ;; aset ip (i + 1) (b + a)) ip0 ;;
  nnz <- aget ip1 (length ip1 - 1) ;;
  let put c x v '(ip, ind, dat) :=
    p <- aget ip c ;; ind' <- wr ind p x ;; dat' <- wr dat p v ;; ip' <- aset ip c (p + 1) ;; Ok (ip', ind', dat') in
  '(ip2, ind, dat) <- for_range 0 n (fun i st =>
    dg <- aget (s_diag A) i ;;
    st1 <- put i i dg st ;;
    for_row (s_indptr A) i (fun jj st =>
      j <- aget (s_indices A) jj ;;
      v <- aget (s_data A) jj ;;
      put j i v st) st1) (ip1, alloc nnz, alloc nnz) ;;
  ip3 <- for_range_down n 0 (fun i ip => p <- aget ip (i - 1) ;; aset ip i p) ip2 ;;
  ip4 <- aset ip3 0 0 ;;
  indl <- all_init ind ;;
  datl <- all_init dat ;;
  Ok (CSR n ip4 indl datl).

(** CSR_LinearOperator_{SCALAR}.pxi:315-332 *)
Fixpoint row_increasing (ind : list nat) (n k p : nat) : res bool :=
  match n with
  | O => Ok true
  | S n' => q <- aget ind k ;; if q <=? p then Ok false else row_increasing ind n' (S k) q
  end.
Definition csr_isSorted (A : csr) : res bool :=
  nnz <- aget (c_indptr A) (length (c_indptr A) - 1) ;;
  for_range 0 (c_nrows A) (fun i ok =>
    if negb ok then Ok ok
    else
      s <- aget (c_indptr A) i ;;
      if s =? nnz then Ok ok
      else
        p <- aget (c_indices A) s ;;
        lo <- aget (c_indptr A) i ;; hi <- aget (c_indptr A) (i + 1) ;;
        row_increasing (c_indices A) (hi - (lo + 1)) (lo + 1) p) true.
