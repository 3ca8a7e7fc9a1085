(** Model of the preconditioners and smoothers of the multilevel solver
    (multilevelSolver/PyNucleus_multilevelSolver/smoothers.pyx,
    smoothers_{SCALAR}.pxi).

    Simplifications: values are exact rationals, division by zero is [EDiv0]; no
    overlaps (sequential code); operators are CSR, SSS or TimeStepper operators
    of CSR matrices (other operators are first converted to CSR,
    smoothers.pyx:71-75, csr_matrix has the same arrays); scratch vectors owned
    by an object are fresh buffers at each call (their contents are arbitrary
    anyway); memoryview attributes that were never assigned raise when used,
    which is [EUninit]. *)
From Verif Require Import Util Lin CSRModel TriModel.

(** * Vector kernels *)

(** base/PyNucleus_base/opt_false_blas.pxi:14-18 *)
Definition assignScaled (y : buf Qc) (x : list Qc) (alpha : Qc) : res (buf Qc) :=
  for_range 0 (length x) (fun i y => v <- aget x i ;; wr y i (alpha * v)%Qc) y.
(** opt_false_blas.pxi:21-25 *)
Definition assign3 (z : buf Qc) (x : list Qc) (alpha : Qc) (y : buf Qc) (beta : Qc) : res (buf Qc) :=
  for_range 0 (length x) (fun i z => v <- aget x i ;; w <- rd y i ;; wr z i (alpha * v + beta * w)%Qc) z.
(** opt_false_blas.pxi:21-25 called with the same array for [z] and [x] *)
Definition assign3_own (z : buf Qc) (alpha : Qc) (y : buf Qc) (beta : Qc) : res (buf Qc) :=
  for_range 0 (length z) (fun i z => v <- rd z i ;; w <- rd y i ;; wr z i (alpha * v + beta * w)%Qc) z.
(** opt_false_blas.pxi:27-35 *)
Definition update (x y : buf Qc) : res (buf Qc) :=
  for_range 0 (length x) (fun i x => v <- rd x i ;; w <- rd y i ;; wr x i (v + w)%Qc) x.
(** opt_false_blas.pxi:47-55 *)
Definition scaleScalar (x : buf Qc) (alpha : Qc) : res (buf Qc) :=
  for_range 0 (length x) (fun i x => v <- rd x i ;; wr x i (v * alpha)%Qc) x.

(** * Operators *)

(** TimeStepperLinearOperator over CSR matrices,
    LinearOperator_{SCALAR}.pxi:328-342 (the size assertions are part of it) *)
Record tstep := TStep { ts_M : csr; ts_S : csr; ts_facS : Qc; ts_facM : Qc }.

(** LinearOperator_{SCALAR}.pxi:344-362 *)
Definition ts_matvec (T : tstep) (x : list Qc) (y : buf Qc) : res (buf Qc) :=
  let z := alloc (c_nrows (ts_M T)) in
  if Qc_eq_bool (ts_facS T) 0 then
    y <- csr_matvec false (ts_M T) x y ;;
    if Qc_eq_bool (ts_facM T) 1 then Ok y else scaleScalar y (ts_facM T)
  else
    y <- csr_matvec false (ts_S T) x y ;;
    y <- (if Qc_eq_bool (ts_facS T) 1 then Ok y else scaleScalar y (ts_facS T)) ;;
    if Qc_eq_bool (ts_facM T) 1 then csr_matvec_no_overwrite false (ts_M T) x y
    else z <- csr_matvec false (ts_M T) x z ;; assign3_own y 1 z (ts_facM T).

(** LinearOperator_{SCALAR}.pxi:183-194 *)
Definition ts_residual (T : tstep) (x rhs : list Qc) (result : buf Qc) (simpleResidual : bool) : res (buf Qc) :=
  if simpleResidual then assign result rhs
  else r <- ts_matvec T x result ;; assign3_own r (- (1)) (map Some rhs) 1.

Inductive operator := OpCSR (A : csr) | OpSSS (A : sss) | OpTS (T : tstep).

(** * SOR *)

(** smoothers.pyx:35-79 *)
Record sor := SOR {
  sor_A : operator;
  sor_D : list Qc;
  sor_diag : option (list Qc);   (* A_diagonal; None: never assigned *)
  sor_omega : Qc;
  sor_pre : bool; sor_post : bool;
  sor_fwd : bool }.

(** smoothers.pyx:47-79; the branch at line 60 that would assign A_diagonal is
    not reached, because SSS operators are caught by the test at line 55 *)
Definition sor_init (A : operator) (D : list Qc) (omega : Qc) (pre post : bool) : res sor :=
  match A with
  | OpCSR _ | OpSSS _ => Ok (SOR A D None omega pre post false)
  | OpTS T =>
      _ <- guard (nth (c_nrows (ts_M T)) (c_indptr (ts_M T)) 0 =? nth (c_nrows (ts_S T)) (c_indptr (ts_S T)) 0) EAssert ;;
      Ok (SOR A D None omega pre post false)
  end.

(** smoothers.pyx:153-157 *)
Definition sor_setPre (P : sor) : sor := SOR (sor_A P) (sor_D P) (sor_diag P) (sor_omega P) (sor_pre P) (sor_post P) (sor_pre P).
Definition sor_setPost (P : sor) : sor := SOR (sor_A P) (sor_D P) (sor_diag P) (sor_omega P) (sor_pre P) (sor_post P) (sor_post P).

(** smoothers.pyx:96-100 (and 134-138, 220-224): the inner loop of the forward
    sweep, [coef j] being the coefficient at position j *)
Fixpoint sor_row_fwd (ind : list nat) (coef : nat -> res Qc) (y : buf Qc) (i : nat) (n j : nat) (t : Qc) : res Qc :=
  match n with
  | O => Ok t
  | S n' =>
      k <- aget ind j ;;
      if i <=? k then Ok t
      else c <- coef j ;; v <- rd y k ;; sor_row_fwd ind coef y i n' (j + 1) (t - c * v)%Qc
  end.
(** smoothers.pyx:105-109 (and 143-147, 233-237): the inner loop of the backward
    sweep, from position lo+n-1 down to lo *)
Fixpoint sor_row_bwd (ind : list nat) (coef : nat -> res Qc) (y : buf Qc) (i : nat) (lo n : nat) (t : Qc) : res Qc :=
  match n with
  | O => Ok t
  | S n' =>
      k <- aget ind (lo + n') ;;
      if k <=? i then Ok t
      else c <- coef (lo + n') ;; v <- rd y k ;; sor_row_bwd ind coef y i lo n' (t - c * v)%Qc
  end.

(** smoothers.pyx:94-101; [src] gives the entry of the vector the sweep reads *)
Definition sor_forward (ip ind : list nat) (coef : nat -> res Qc) (D : list Qc) (omega : Qc)
    (src : nat -> buf Qc -> res Qc) (y : buf Qc) : res (buf Qc) :=
  for_range 0 (length D) (fun i y =>
    t <- src i y ;;
    lo <- aget ip i ;; hi <- aget ip (i + 1) ;;
    t <- sor_row_fwd ind coef y i (hi - lo) lo t ;;
    d <- aget D i ;;
    v <- qdiv (omega * t)%Qc d ;;
    wr y i v) y.
(** smoothers.pyx:103-110 *)
Definition sor_backward (ip ind : list nat) (coef : nat -> res Qc) (D : list Qc) (omega : Qc)
    (src : nat -> buf Qc -> res Qc) (y : buf Qc) : res (buf Qc) :=
  for_back (length D) (fun i y =>
    t <- src i y ;;
    hi <- aget ip (i + 1) ;; lo <- aget ip i ;;
    t <- sor_row_bwd ind coef y i lo (hi - lo) t ;;
    d <- aget D i ;;
    v <- qdiv (omega * t)%Qc d ;;
    wr y i v) y.

(** [self.A_diagonal[i]] *)
Definition attr_get (a : option (list Qc)) (i : nat) : res Qc :=
  match a with None => Err EUninit | Some l => aget l i end.

(** smoothers.pyx:81-151 *)
Definition sor_matvec (P : sor) (x : list Qc) (result : buf Qc) : res (buf Qc) :=
  result <- set0 result ;;
  match sor_A P with
  | OpCSR A =>
      (if sor_fwd P then sor_forward else sor_backward)
        (c_indptr A) (c_indices A) (aget (c_data A)) (sor_D P) (sor_omega P) (fun i _ => aget x i) result
  | OpSSS A =>
      if sor_fwd P then
        for_range 0 (length (sor_D P)) (fun i y =>
          t <- aget x i ;;
          t <- for_row (s_indptr A) i (fun jj t =>
                 k <- aget (s_indices A) jj ;; d <- aget (s_data A) jj ;; v <- rd y k ;; Ok (t - d * v)%Qc) t ;;
          d <- attr_get (sor_diag P) i ;;
          v <- qdiv (sor_omega P * t)%Qc d ;;
          wr y i v) result
      else
        result <- set0 result ;;
        for_back (length (sor_D P)) (fun i y =>
          t <- aget x i ;; o <- rd y i ;;
          d <- attr_get (sor_diag P) i ;;
          v <- qdiv (t - sor_omega P * o)%Qc d ;;
          y <- wr y i v ;;
          for_row (s_indptr A) i (fun jj y =>
            k <- aget (s_indices A) jj ;; d <- aget (s_data A) jj ;; o <- rd y i ;; addto y k (d * o)%Qc) y) result
  | OpTS T =>
      (if sor_fwd P then sor_forward else sor_backward)
        (c_indptr (ts_S T)) (c_indices (ts_S T))
        (fun j => s <- aget (c_data (ts_S T)) j ;; m <- aget (c_data (ts_M T)) j ;;
                  Ok (ts_facS T * s + ts_facM T * m)%Qc)
        (sor_D P) (sor_omega P) (fun i _ => aget x i) result
  end.

(** * SSOR: smoothers.pyx:207-244, for CSR matrices *)
Definition ssor_matvec (A : csr) (D : list Qc) (omega : Qc) (x : list Qc) (result : buf Qc) : res (buf Qc) :=
  result <- set0 result ;;
  result <- sor_forward (c_indptr A) (c_indices A) (aget (c_data A)) D omega (fun i _ => aget x i) result ;;
  result <- for_range 0 (length D) (fun i y =>
              v <- rd y i ;; d <- aget D i ;; q <- qdiv d omega ;; wr y i (v * q)%Qc) result ;;
  result <- sor_backward (c_indptr A) (c_indices A) (aget (c_data A)) D omega (fun i y => rd y i) result ;;
  for_range 0 (length D) (fun i y => v <- rd y i ;; wr y i (v * ((1 + 1) - omega))%Qc) result.

(** * Gauss-Seidel *)

(** smoothers.pyx:264-271 *)
Record gs := GS {
  gs_A : operator; gs_D : list Qc; gs_prec : option sor;
  gs_preSteps : nat; gs_postSteps : nat;
  gs_pre : bool; gs_post : bool }.

(** smoothers.pyx:273-313 *)
Definition gs_init (A : operator) (D : list Qc) (preSteps postSteps : nat) (pre post : bool) : res gs :=
  p <- match A with
       | OpCSR _ => Ok None
       | _ => P <- sor_init A D 1 pre post ;; Ok (Some P)
       end ;;
  Ok (GS A D p preSteps postSteps pre post).

(** smoothers.pyx:342-346 and 350-354 *)
Definition gs_row (A : csr) (D rhs : list Qc) (i : nat) (y : buf Qc) : res (buf Qc) :=
  t <- aget rhs i ;;
  t <- for_row (c_indptr A) i (fun j t =>
         d <- aget (c_data A) j ;; k <- aget (c_indices A) j ;; v <- rd y k ;; Ok (t - d * v)%Qc) t ;;
  d <- aget D i ;; v <- rd y i ;;
  w <- qdiv (t + d * v)%Qc d ;;
  wr y i w.

(** LinearOperator.residual of the operators that use the preconditioner path *)
Definition op_residual (A : operator) (x rhs : list Qc) (result : buf Qc) (simpleResidual : bool) : res (buf Qc) :=
  match A with
  | OpCSR A => csr_residual A x rhs result simpleResidual
  | OpSSS A => if simpleResidual then assign result rhs
               else r <- sss_matvec A x result ;; assign3_own r (- (1)) (map Some rhs) 1
  | OpTS T => ts_residual T x rhs result simpleResidual
  end.

(** smoothers.pyx:315-379 *)
Definition gs_eval (G : gs) (rhs y : list Qc) (postsmoother : bool) : res (list Qc) :=
  let steps := if postsmoother then gs_postSteps G else gs_preSteps G in
  let sweep := if postsmoother then gs_post G else gs_pre G in
  match gs_A G with
  | OpCSR A =>
      r <- for_range 0 steps (fun _ y =>
             (if sweep then for_range 0 (c_nrows A) else for_back (c_nrows A)) (gs_row A (gs_D G) rhs) y) (map Some y) ;;
      all_init r
  | _ =>
      r <- for_range 0 steps (fun _ y =>
             yl <- all_init y ;;
             t <- op_residual (gs_A G) yl rhs (alloc (length (gs_D G))) false ;;
             tl <- all_init t ;;
             P <- match gs_prec G with None => Err EType | Some P => Ok P end ;;
             let P := if sweep then sor_setPost P else sor_setPre P in
             t2 <- sor_matvec P tl (alloc (length (gs_D G))) ;;
             update y t2) (map Some y) ;;
      all_init r
  end.

(** * Separable smoothers *)

(** smoothers_{SCALAR}.pxi:88-111: [residual] and [prec] are the operator's
    residual and the preconditioner's matvec *)
Fixpoint sep_loop (n : nat) (residual : list Qc -> list Qc -> buf Qc -> bool -> res (buf Qc))
    (prec : list Qc -> buf Qc -> res (buf Qc)) (steps : nat) (b : list Qc) (y : buf Qc) (simple : bool) : res (buf Qc) :=
  match steps with
  | O => Ok y
  | S k =>
      yl <- all_init y ;;
      t <- residual yl b (alloc n) simple ;;
      tl <- all_init t ;;
      t2 <- prec tl (alloc n) ;;
      y <- update y t2 ;;
      sep_loop n residual prec k b y false
  end.
Definition sep_eval (n : nat) residual prec (steps : nat) (b y : list Qc) (simpleResidual : bool) : res (list Qc) :=
  r <- sep_loop n residual prec steps b (map Some y) simpleResidual ;; all_init r.

(** smoothers_{SCALAR}.pxi:117-131 *)
Definition jacobi_invD (D : list Qc) (omega : Qc) : res (list Qc) :=
  r <- for_range 0 (length D) (fun i y => d <- aget D i ;; q <- qdiv omega d ;; wr y i q) (alloc (length D)) ;;
  all_init r.
Definition jacobi_prec (D : list Qc) (omega : Qc) (x : list Qc) (y : buf Qc) : res (buf Qc) :=
  invD <- jacobi_invD D omega ;;
  for_range 0 (length D) (fun i y => v <- aget x i ;; d <- aget invD i ;; wr y i (v * d)%Qc) y.

(** * Chebyshev *)

(** np.poly: the coefficients, highest first, of the monic polynomial with the
    given roots; one root multiplies by (t - r) *)
Definition poly_step (p : list Qc) (r : Qc) : list Qc :=
  tab (length p + 1) (fun k => vat p k - r * (if k =? 0 then 0 else vat p (k - 1)))%Qc.
Definition np_poly (roots : list Qc) : list Qc := fold_left poly_step roots [1%Qc].

(** smoothers.pyx:418-424, from the scaled roots on; np.polyval at zero is the
    last coefficient *)
Definition cheb_coeffs (roots : list Qc) : res (list Qc) :=
  let p := np_poly roots in
  let c := last p 0%Qc in
  if Qc_eq_bool c 0 then Err EDiv0 else Ok (map (fun v => - (v / c))%Qc (removelast p)).

(** smoothers.pyx:426-436 *)
Definition cheb_matvec (A : csr) (coeffs : list Qc) (x : list Qc) (y : buf Qc) : res (buf Qc) :=
  c0 <- aget coeffs 0 ;;
  y <- assignScaled y x c0 ;;
  for_list (tl coeffs) (fun c y =>
    yl <- all_init y ;;
    t <- csr_matvec false A yl (alloc (c_nrows A)) ;;
    assign3 y x c t 1) y.
