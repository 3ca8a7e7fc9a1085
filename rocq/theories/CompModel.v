(** Model of the operators that are built from other operators
    (base/PyNucleus_base/LinearOperator_{SCALAR}.pxi, linear_operators.pyx).

    Vectors passed by reference live in a heap of buffers; a vector argument is a view, a
    contiguous part of a buffer. The scratch vectors owned by an operator are buffers of the
    heap as well, so that objects can share them. An operator object is the record of its
    virtual methods.

    Simplifications: exact rationals. A product that would read and write the same buffer
    is an error, as is a view that leaves its buffer. A method that a class does not override
    returns -1, which with [except -1] signals an exception: [ENotImpl]. The vectors that
    __init__ allocates are given by their number in the heap. *)
From Verif Require Import Util Lin CSRModel DenseModel SmootherModel.

Definition heap := list (buf Qc).
Record view := View { v_buf : nat; v_off : nat; v_len : nat }.
Definition contents (h : heap) (v : view) : buf Qc := firstn (v_len v) (skipn (v_off v) (nth (v_buf v) h [])).
Definition vread (h : heap) (v : view) : res (buf Qc) :=
  if v_off v + v_len v <=? length (nth (v_buf v) h []) then Ok (contents h v) else Err EOob.
Definition vwrite (h : heap) (v : view) (c : buf Qc) : res heap :=
  let b := nth (v_buf v) h [] in
  if (v_off v + v_len v <=? length b) && (length c =? v_len v)
  then Ok (upd h (v_buf v) (firstn (v_off v) b ++ c ++ skipn (v_off v + v_len v) b)) else Err EOob.
(** [v[a:b]] *)
Definition subview (v : view) (a b : nat) : res view :=
  if (a <=? b) && (b <=? v_len v) then Ok (View (v_buf v) (v_off v + a) (b - a)) else Err EOob.

(** A kernel that reads the vector x and changes the vector y *)
Definition kernel (k : list Qc -> buf Qc -> res (buf Qc)) (x y : view) (h : heap) : res heap :=
  _ <- guard (negb (v_buf x =? v_buf y)) EValue ;;
  xs <- vread h x ;; xs <- all_init xs ;; ys <- vread h y ;; ys <- k xs ys ;; vwrite h y ys.
(** opt_false_blas.pxi:47-55 *)
Definition v_scale (y : view) (alpha : Qc) (h : heap) : res heap := ys <- vread h y ;; ys <- scaleScalar ys alpha ;; vwrite h y ys.
(** assign3(y, y, alpha, z, beta), opt_false_blas.pxi:21-25 *)
Definition v_assign3 (y : view) (alpha : Qc) (z : view) (beta : Qc) (h : heap) : res heap :=
  ys <- vread h y ;; zs <- vread h z ;; ys <- assign3_own ys alpha zs beta ;; vwrite h y ys.
(** [y[:] = 0.] *)
Definition v_zero (y : view) (h : heap) : res heap := ys <- vread h y ;; vwrite h y (repeat (Some 0%Qc) (length ys)).
(** [for k in ...: y[k] += z[k]] *)
Definition v_add (y z : view) (h : heap) : res heap := ys <- vread h y ;; zs <- vread h z ;; ys <- update ys zs ;; vwrite h y ys.

(** num_rows, num_columns, the four products (transposed?, added to the output?), residual and
    the property diagonal *)
Record lop := LOp {
  l_rows : nat; l_cols : nat;
  l_mv : bool -> bool -> view -> view -> heap -> res heap;
  l_res : view -> view -> view -> bool -> heap -> res heap;
  l_diag : res (list Qc) }.

(** LinearOperator_{SCALAR}.pxi:38-60 *)
Definition call (o : lop) (no_overwrite trans : bool) (x y : view) (h : heap) : res heap :=
  if trans then
    _ <- guard (l_rows o =? v_len x) EAssert ;; _ <- guard (l_cols o =? v_len y) EAssert ;; l_mv o true no_overwrite x y h
  else
    _ <- guard (l_cols o =? v_len x) EAssert ;; _ <- guard (l_rows o =? v_len y) EAssert ;; l_mv o false no_overwrite x y h.

(** LinearOperator_{SCALAR}.pxi:183-194 *)
Definition base_residual (mv : view -> view -> heap -> res heap) (x rhs result : view) (simpleResidual : bool) (h : heap) : res heap :=
  if simpleResidual then kernel (fun xs ys => assign ys xs) rhs result h
  else h <- mv x result h ;; v_assign3 result (- (1))%Qc rhs 1%Qc h.

(** A class without residual method of its own *)
Definition plain (n m : nat) (mv : bool -> bool -> view -> view -> heap -> res heap) (diag : res (list Qc)) : lop :=
  LOp n m mv (base_residual (mv false false)) diag.

(** * Matrices *)
Definition unsupported {A} : res A := Err ENotImpl.
(** CSR_LinearOperator_{SCALAR}.pxi:21-53, 230-241 *)
Definition csr_op (A : csr) : lop :=
  LOp (c_nrows A) (c_ncols A)
    (fun tr add => kernel (fun xs ys => spmv false A xs ys (negb add) tr))
    (fun x rhs result simple h =>
       if simple then kernel (fun xs ys => assign ys xs) rhs result h
       else
         _ <- guard (negb (v_buf x =? v_buf result)) EValue ;;
         xs <- vread h x ;; xs <- all_init xs ;; kernel (fun b ys => spres A xs b ys) rhs result h)
    (csr_get_diagonal A).
(** SSS_LinearOperator_{SCALAR}.pxi:26-76 *)
Definition sss_op (A : sss) : lop :=
  plain (s_nrows A) (s_nrows A)
    (fun tr add => kernel (fun xs ys => if add then sss_matvec_no_overwrite A xs ys else sss_matvec A xs ys)) (Ok (s_diag A)).
(** DenseLinearOperator_{SCALAR}.pxi:9-63 *)
Definition dense_diagonal (A : dense) : res (list Qc) :=
  d <- for_range 0 (Nat.min (d_n A) (d_m A)) (fun i d => v <- dget A i i ;; wr d i v) (alloc (Nat.min (d_n A) (d_m A))) ;; all_init d.
Definition dense_op (A : dense) : lop :=
  plain (d_n A) (d_m A)
    (fun tr add => kernel (fun xs ys => (if tr then gemvT else gemv) A xs ys (if add then 1 else 0)%Qc)) (dense_diagonal A).
(** DiagonalLinearOperator_{SCALAR}.pxi:9-51; there are no transposed products *)
Definition diag_op (data : list Qc) : lop :=
  plain (length data) (length data)
    (fun tr add x y h => if tr then unsupported else
       kernel (fun xs ys => if add then diag_matvec_no_overwrite data xs ys else diag_matvec data xs ys) x y h) (Ok data).
(** LinearOperator_{SCALAR}.pxi:1007-1031; there are no transposed products *)
Definition null_op (n m : nat) : lop :=
  plain n m
    (fun tr add x y h => if tr then unsupported else if add then Ok h else
       kernel (fun _ ys => for_range 0 n (fun i ys => wr ys i 0%Qc) ys) x y h) (Ok (repeat 0%Qc (Nat.min n m))).
(** linear_operators.pyx:911-953; there are no transposed products, and the diagonal ignores alpha *)
Definition identity_op (n : nat) (alpha : Qc) : lop :=
  plain n n
    (fun tr add x y h => if tr then unsupported else
       kernel (fun xs ys => for_range 0 n (fun i ys => v <- aget xs i ;; (if add then addto ys i (alpha * v)%Qc else wr ys i (alpha * v)%Qc)) ys) x y h)
    (Ok (repeat 1%Qc n)).

(** * Composite operators *)

(** alpha*a + beta*b for arrays; their sizes must agree (numpy raises ValueError) *)
Definition np_lincomb (alpha : Qc) (a : list Qc) (beta : Qc) (b : list Qc) : res (list Qc) :=
  if length a =? length b then Ok (map (fun p => alpha * fst p + beta * snd p)%Qc (combine a b)) else Err EValue.

(** LinearOperator_{SCALAR}.pxi:328-409 *)
Definition new_timestepper (M K : lop) (facS facM : Qc) (z : nat) : res lop :=
  _ <- guard (l_cols M =? l_cols K) EAssert ;; _ <- guard (l_rows M =? l_rows K) EAssert ;;
  let zv := View z 0 (l_rows M) in
  let is (c d : Qc) := Qc_eq_bool c d in
  let add_part (O : lop) (fac : Qc) (tr : bool) x y h :=
    if is fac 1%Qc then l_mv O tr true x y h
    else if is fac 0%Qc then Ok h
    else h <- l_mv O tr false x zv h ;; v_assign3 y 1%Qc zv fac h in
  let matvec x y h :=
    if is facS 0%Qc then
      h <- l_mv M false false x y h ;; if is facM 1%Qc then Ok h else v_scale y facM h
    else
      h <- l_mv K false false x y h ;;
      h <- (if is facS 1%Qc then Ok h else v_scale y facS h) ;;
      if is facM 1%Qc then l_mv M false true x y h else h <- l_mv M false false x zv h ;; v_assign3 y 1%Qc zv facM h in
  let matvecTrans x y h :=
    h <- (if is facS 0%Qc then Ok h else
            h <- l_mv K true false x y h ;; if is facS 1%Qc then Ok h else v_scale y facS h) ;;
    if is facM 1%Qc then l_mv M true true x y h else h <- l_mv M true false x zv h ;; v_assign3 y 1%Qc zv facM h in
  Ok (plain (l_rows M) (l_cols M)
    (fun tr add x y h =>
       if add then h <- add_part K facS tr x y h ;; add_part M facM tr x y h
       else if tr then matvecTrans x y h else matvec x y h)
    (dM <- l_diag M ;; dK <- l_diag K ;; np_lincomb facM dM facS dK)).

(** LinearOperator_{SCALAR}.pxi:475-553 *)
Definition multiply_op (A : lop) (factor : Qc) : lop :=
  plain (l_rows A) (l_cols A)
    (fun tr add x y h =>
       if add then
         if Qc_eq_bool factor 0 then Ok h
         else h <- v_scale y (/ factor)%Qc h ;; h <- l_mv A tr true x y h ;; v_scale y factor h
       else h <- (if tr then l_mv A true false x y h else call A false false x y h) ;; v_scale y factor h)
    (d <- l_diag A ;; Ok (map (fun v => factor * v)%Qc d)).

(** LinearOperator_{SCALAR}.pxi:556-615; [t] is temporaryMemory *)
Definition new_product (A B : lop) (t : nat) : res lop :=
  _ <- guard (l_cols A =? l_rows B) EAssert ;;
  let tv := View t 0 (l_cols A) in
  Ok (LOp (l_rows A) (l_cols B)
    (fun tr add x y h =>
       if tr then h <- l_mv A true false x tv h ;; l_mv B true add tv y h
       else h <- l_mv B false false x tv h ;; l_mv A false add tv y h)
    (fun x rhs result simple h => h <- call B false false x tv h ;; l_res A tv rhs result simple h)
    unsupported).
(** LinearOperator_{SCALAR}.pxi:617-623 *)
Definition product_preconditionedResidual (A B : lop) (t : nat) (x rhs result : view) (simple : bool) (h : heap) : res heap :=
  let tv := View t 0 (l_cols A) in
  h <- l_res B x rhs tv simple h ;; call A false false tv result h.

(** LinearOperator_{SCALAR}.pxi:957-1004; there are no transposed products *)
Definition transpose_op (A : lop) : lop :=
  plain (l_cols A) (l_rows A) (fun tr add x y h => if tr then unsupported else l_mv A true add x y h) (l_diag A).

(** Offsets of blocks: 0, a0, a0 + a1, ... *)
Fixpoint offsets (at_ : nat) (sizes : list nat) : list nat :=
  at_ :: match sizes with [] => [] | s :: r => offsets (at_ + s) r end.
Fixpoint total (sizes : list nat) : nat := match sizes with [] => 0 | s :: r => s + total r end.

(** linear_operators.pyx:825-873; [t] is temp *)
Definition new_block (subblocks : list (list lop)) (t : nat) : res lop :=
  match subblocks with
  | [] => Err EIndex
  | row0 :: _ =>
      _ <- for_list subblocks (fun row _ =>
             _ <- guard (length row =? length row0) EAssert ;;
             guard (total (map l_cols row) =? total (map l_cols row0)) EAssert) tt ;;
      heights <- (fix hs (rows : list (list lop)) :=
                    match rows with [] => Ok [] | row :: r => o <- (match row with o :: _ => Ok o | [] => Err EIndex end) ;; r <- hs r ;; Ok (l_rows o :: r) end) subblocks ;;
      let left := offsets 0 heights in
      let right := offsets 0 (map l_cols (last subblocks [])) in
      let n := total heights in
      let tv := View t 0 n in
      Ok (plain n (total (map l_cols row0))
        (fun tr add x y h =>
           if tr || add then unsupported else
           h <- v_zero y h ;;
           for_range 0 (length subblocks) (fun i h =>
             row <- aget subblocks i ;;
             l0 <- aget left i ;; l1 <- aget left (i + 1) ;;
             yi <- subview y l0 l1 ;; ti <- subview tv l0 l1 ;;
             o <- aget row 0 ;;
             r0 <- aget right 0 ;; r1 <- aget right 1 ;;
             xj <- subview x r0 r1 ;;
             h <- l_mv o false false xj yi h ;;
             for_range 1 (length row0) (fun j h =>
               o <- aget row j ;;
               r0 <- aget right j ;; r1 <- aget right (j + 1) ;;
               xj <- subview x r0 r1 ;;
               h <- l_mv o false false xj ti h ;;
               v_add yi ti h) h) h)
        unsupported)
  end.

(** linear_operators.pyx:1165-1243. matvec_no_overwrite begins with the declaration
    [LinearOperator op = 0], which raises TypeError. *)
Definition new_sum (ops : list lop) (coeffs : list Qc) (z : nat) : res lop :=
  match ops with
  | [] => Err EAssert
  | o0 :: rest =>
      _ <- guard (length ops =? length coeffs) EAssert ;;
      _ <- for_list rest (fun o _ => guard ((l_rows o0 =? l_rows o) && (l_cols o0 =? l_cols o)) EAssert) tt ;;
      let zv := View z 0 (l_rows o0) in
      let add_from k tr x y h :=
        for_range k (length coeffs) (fun i h =>
          o <- aget ops i ;; c <- aget coeffs i ;;
          h <- l_mv o tr false x zv h ;; v_assign3 y 1%Qc zv c h) h in
      Ok (plain (l_rows o0) (l_cols o0)
        (fun tr add x y h =>
           if add then if tr then add_from 0 true x y h else Err EType
           else h <- l_mv o0 tr false x y h ;; c <- aget coeffs 0 ;; h <- v_scale y c h ;; add_from 1 tr x y h)
        (s <- for_list (combine coeffs ops) (fun p s => d <- l_diag (snd p) ;;
                match s with
                | None => Ok (Some (map (fun v => fst p * v)%Qc d))
                | Some s => s <- np_lincomb 1%Qc s (fst p) d ;; Ok (Some s)
                end) None ;;
         match s with Some s => Ok s | None => unsupported end))
  end.

(** * Expressions and the objects they build *)
Inductive expr :=
| ECSR (A : csr) | ESSS (A : sss) | EDense (A : dense) | EDiag (data : list Qc) | ENull (n m : nat) | EIdentity (n : nat) (alpha : Qc)
| EStep (M K : expr) (facS facM : Qc) (z : nat)
| EMultiply (A : expr) (factor : Qc)
| EProduct (A B : expr) (t : nat)
| ETranspose (A : expr)
| EBlock (subblocks : list (list expr)) (t : nat)
| ESum (ops : list expr) (coeffs : list Qc) (z : nat).

Fixpoint sequence {A} (l : list (res A)) : res (list A) :=
  match l with [] => Ok [] | x :: r => x <- x ;; r <- sequence r ;; Ok (x :: r) end.

Fixpoint build (e : expr) : res lop :=
  match e with
  | ECSR A => Ok (csr_op A)
  | ESSS A => Ok (sss_op A)
  | EDense A => Ok (dense_op A)
  | EDiag d => Ok (diag_op d)
  | ENull n m => Ok (null_op n m)
  | EIdentity n a => Ok (identity_op n a)
  | EStep M K facS facM z => M <- build M ;; K <- build K ;; new_timestepper M K facS facM z
  | EMultiply A factor => A <- build A ;; Ok (multiply_op A factor)
  | EProduct A B t => A <- build A ;; B <- build B ;; new_product A B t
  | ETranspose A => A <- build A ;; Ok (transpose_op A)
  | EBlock rows t => rows <- sequence (map (fun row => sequence (map build row)) rows) ;; new_block rows t
  | ESum ops coeffs z => ops <- sequence (map build ops) ;; new_sum ops coeffs z
  end.

(** * Operators of Python on them *)
Local Open Scope Qc_scope.
Definition shape_of (e : expr) : nat * nat := match build e with Ok o => (l_rows o, l_cols o) | Err _ => (0, 0)%nat end.

(** LinearOperator_{SCALAR}.pxi:78-99; z is the scratch vector of the new object *)
Definition add (self x : expr) (z : nat) : expr :=
  match x with
  | ENull _ _ => self
  | _ =>
      match self with
      | ENull _ _ => x
      | EMultiply A f => match x with EMultiply B g => EStep A B g f z | _ => EStep A x 1 f z end
      | _ => match x with EMultiply B g => EStep self B g 1 z | _ => EStep self x 1 1 z end
      end
  end.
(** LinearOperator_{SCALAR}.pxi:147-160, x*self *)
Definition rmul (x : Qc) (self : expr) (z : nat) : expr :=
  match self with
  | EStep M K facS facM _ => EStep M K (facS * x) (facM * x) z
  | _ => if Qc_eq_bool x 0 then ENull (fst (shape_of self)) (snd (shape_of self)) else EMultiply self x
  end.
(** self*x for a float x: LinearOperator_{SCALAR}.pxi:107-145, 463-469, 534-542 *)
Definition mul (self : expr) (x : Qc) (z : nat) : expr :=
  match self with EMultiply A factor => EMultiply A (factor * x) | _ => rmul x self z end.
(** LinearOperator_{SCALAR}.pxi:101-102 *)
Definition sub (self x : expr) (z z' : nat) : expr := add self (rmul (- (1)) x z) z'.
(** LinearOperator_{SCALAR}.pxi:162-163 *)
Definition neg (self : expr) : expr := EMultiply self (- (1)).
(** LinearOperator_{SCALAR}.pxi:104-105 *)
Definition matmul (self x : expr) (t : nat) : expr := EProduct self x t.
(** LinearOperator_{SCALAR}.pxi:323-325 *)
Definition T (self : expr) : expr := ETranspose self.

(** LinearOperator_{SCALAR}.pxi:239-249; x and B are the numbers of the two arrays, B is
    stored by columns *)
Definition getDenseOpFromApply (o : lop) (x B : nat) (h : heap) : res heap :=
  let xv := View x 0 (l_cols o) in
  h <- v_zero xv h ;; h <- v_zero (View B 0 (l_rows o * l_cols o)) h ;;
  for_range 0 (l_cols o) (fun i h =>
    h <- (if (0 <? i)%nat then vwrite h (View x (i - 1) 1) [Some 0] else Ok h) ;;
    h <- vwrite h (View x i 1) [Some 1] ;;
    l_mv o false false xv (View B (i * l_rows o) (l_rows o)) h) h.
