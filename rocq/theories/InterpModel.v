(** Model of interpolationOperator, multiIntervalInterpolationOperator and
    delayedConstructionOperator (base/PyNucleus_base/linear_operators.pyx).

    Simplifications: exact rationals; the coefficients are [None] where the code has NaN. A
    division by zero, which gives inf in C, is an error. *)
From Verif Require Import Util Lin CompModel.
Local Open Scope Qc_scope.

Definition get2 (W : list (list Qc)) (j i : nat) : res Qc := row <- aget W j ;; aget row i.
Definition set2 (W : list (list Qc)) (j i : nat) (v : Qc) : res (list (list Qc)) := row <- aget W j ;; row <- aset row i v ;; aset W j row.
Definition le_q (a b : Qc) : bool := match a ?= b with Gt => false | _ => true end.
Definition lt_q (a b : Qc) : bool := match a ?= b with Lt => true | _ => false end.

Record iop := IOp {
  i_nodes : list Qc; i_left : Qc; i_right : Qc;
  i_val : option Qc; i_derivative : option nat; i_coeffs : buf Qc;
  i_W : list (list Qc); i_W1 : list (list Qc); i_W2 : list (list Qc) }.

Definition zeros (n : nat) : list (list Qc) := repeat (repeat 0 n) n.
(** linear_operators.pyx:1268-1285; the constructor of sumMultiplyOperator is [new_sum] *)
Definition new_interp (nodes : list Qc) (left right : Qc) : res iop :=
  let n := length nodes in
  _ <- for_range 0 (n - 1) (fun i _ => a <- aget nodes i ;; b <- aget nodes (i + 1) ;; guard (lt_q a b) EAssert) tt ;;
  Ok (IOp nodes left right None None (alloc n) (zeros n) (zeros n) (zeros n)).

(** linear_operators.pyx:1300-1305 *)
Definition init_W (n : nat) (W : list (list Qc)) : res (list (list Qc)) :=
  for_range 0 n (fun i W => for_range 0 n (fun j W => set2 W i j (if (i =? j)%nat then 1 else 0)) W) W.
(** linear_operators.pyx:1321, 1341, 1342 *)
Definition init_0 (n : nat) (W : list (list Qc)) : res (list (list Qc)) :=
  for_range 0 n (fun i W => for_range 0 n (fun j W => set2 W i j 0) W) W.
(** [for j in range(numNodes-k): for i in range(numNodes): W[j, i] = ...] *)
Definition sweep (n k : nat) (v : nat -> nat -> list (list Qc) -> res Qc) (W : list (list Qc)) : res (list (list Qc)) :=
  for_range 0 (n - k) (fun j W => for_range 0 n (fun i W => w <- v j i W ;; set2 W j i w) W) W.
Definition quotient (a b : Qc) : res Qc := _ <- guard (negb (Qc_eq_bool b 0)) EDiv0 ;; Ok (a / b).
(** linear_operators.pyx:1310, 1329, 1354 *)
Definition entry_W (nodes : list Qc) (val : Qc) (k j i : nat) (W : list (list Qc)) : res Qc :=
  a <- get2 W j i ;; b <- get2 W (1 + j) i ;; xk <- aget nodes (k + j) ;; xj <- aget nodes j ;;
  quotient (a * (val - xk) - b * (val - xj)) (xj - xk).
(** linear_operators.pyx:1326, 1351; 1347-1348 with the factor 2 *)
Definition entry_W' (nodes : list Qc) (val c : Qc) (k j i : nat) (W : list (list Qc)) (W' : list (list Qc)) : res Qc :=
  a' <- get2 W' j i ;; xk <- aget nodes (k + j) ;; a <- get2 W j i ;; b' <- get2 W' (1 + j) i ;; xj <- aget nodes j ;; b <- get2 W (1 + j) i ;;
  quotient (a' * (val - xk) + c * a - b' * (val - xj) - c * b) (xj - xk).
(** [for i in range(numNodes): self.coeffs[i] = W[0, i]] *)
Definition take_coeffs (n : nat) (W : list (list Qc)) (coeffs : buf Qc) : res (buf Qc) :=
  for_range 0 n (fun i c => w <- get2 W 0 i ;; wr c i w) coeffs.

(** linear_operators.pyx:1287-1358. In the last case the code has already stored val and
    derivative when it raises. *)
Definition set (o : iop) (val : Qc) (derivative : nat) : res iop :=
  let nodes := i_nodes o in
  let n := length nodes in
  _ <- guard (le_q (i_left o) val) EAssert ;;
  _ <- guard (le_q val (i_right o)) EAssert ;;
  match derivative with
  | 0%nat =>
      W <- init_W n (i_W o) ;;
      W <- for_range 1 n (fun k W => sweep n k (entry_W nodes val k) W) W ;;
      c <- take_coeffs n W (i_coeffs o) ;;
      Ok (IOp nodes (i_left o) (i_right o) (Some val) (Some derivative) c W (i_W1 o) (i_W2 o))
  | 1%nat =>
      W <- init_W n (i_W o) ;; W1 <- init_0 n (i_W1 o) ;;
      s <- for_range 1 n (fun k s =>
             let '(W, W1) := s in
             W1 <- sweep n k (fun j i W1 => entry_W' nodes val 1 k j i W W1) W1 ;;
             W <- sweep n k (entry_W nodes val k) W ;;
             Ok (W, W1)) (W, W1) ;;
      let '(W, W1) := s in
      c <- take_coeffs n W1 (i_coeffs o) ;;
      Ok (IOp nodes (i_left o) (i_right o) (Some val) (Some derivative) c W W1 (i_W2 o))
  | 2%nat =>
      W <- init_W n (i_W o) ;; W1 <- init_0 n (i_W1 o) ;; W2 <- init_0 n (i_W2 o) ;;
      s <- for_range 1 n (fun k s =>
             let '(W, W1, W2) := s in
             W2 <- sweep n k (fun j i W2 => entry_W' nodes val (1 + 1) k j i W1 W2) W2 ;;
             W1 <- sweep n k (fun j i W1 => entry_W' nodes val 1 k j i W W1) W1 ;;
             W <- sweep n k (entry_W nodes val k) W ;;
             Ok (W, W1, W2)) (W, W1, W2) ;;
      let '(W, W1, W2) := s in
      c <- take_coeffs n W2 (i_coeffs o) ;;
      Ok (IOp nodes (i_left o) (i_right o) (Some val) (Some derivative) c W W1 W2)
  | _ => Err ENotImpl
  end.
(** The products of an interpolationOperator are those of sumMultiplyOperator with the
    present coefficients *)
Definition interp_expr (o : iop) (ops : list expr) (z : nat) : res expr := c <- all_init (i_coeffs o) ;; Ok (ESum ops c z).

(** * Several intervals *)
Record mop := MOp { m_ops : list iop; m_left : option Qc; m_right : option Qc; m_selected : option nat }.
(** None stands for inf or -inf *)
Definition min_o (a : option Qc) (b : Qc) : Qc := match a with None => b | Some a => if le_q a b then a else b end.
Definition max_o (a : option Qc) (b : Qc) : Qc := match a with None => b | Some a => if le_q b a then a else b end.
(** linear_operators.pyx:1400-1411 *)
Definition new_multi (intervals : list (Qc * Qc)) (nodes : list (list Qc)) : res mop :=
  for_range 0 (length intervals) (fun k m =>
    p <- aget intervals k ;; x <- aget nodes k ;;
    o <- new_interp x (fst p) (snd p) ;;
    Ok (MOp (m_ops m ++ [o]) (Some (min_o (m_left m) (fst p))) (Some (max_o (m_right m) (snd p))) None))
    (MOp [] None None None).
(** linear_operators.pyx:1419-1434 *)
Fixpoint set_first (val : Qc) (derivative : nat) (k : nat) (ops : list iop) : res (list iop * nat) :=
  match ops with
  | [] => Err EAssert
  | o :: r =>
      if le_q (i_left o) val && le_q val (i_right o) then o <- set o val derivative ;; Ok (o :: r, k)
      else p <- set_first val derivative (S k) r ;; Ok (o :: fst p, snd p)
  end.
Definition set_multi (m : mop) (val : Qc) (derivative : nat) : res mop :=
  _ <- guard (match m_left m with None => false | Some l => le_q l val end) EAssert ;;
  _ <- guard (match m_right m with None => false | Some r => le_q val r end) EAssert ;;
  p <- set_first val derivative 0 (m_ops m) ;;
  Ok (MOp (fst p) (m_left m) (m_right m) (Some (snd p))).
(** linear_operators.pyx:1436-1474: the selected operator *)
Definition multi_expr (m : mop) (ops : list (list expr)) (zs : list nat) : res expr :=
  match m_selected m with
  | None => Err EAssert
  | Some k => o <- aget (m_ops m) k ;; es <- aget ops k ;; z <- aget zs k ;; interp_expr o es z
  end.

(** * Delayed construction. Parameters are numbers of values that can be compared. *)
Record dop := DOp { y_rows : nat; y_cols : nat; y_params : list (nat * nat); y_A : option expr; y_constructed : bool }.
(** linear_operators.pyx:1534-1537 *)
Definition new_delayed (n m : nat) : dop := DOp n m [] None false.
Definition find_param (key : nat) (l : list (nat * nat)) : option nat :=
  match find (fun p => (fst p =? key)%nat) l with Some p => Some (snd p) | None => None end.
Definition set_param (key v : nat) (l : list (nat * nat)) : list (nat * nat) := (key, v) :: filter (fun p => negb (fst p =? key)%nat) l.
(** linear_operators.pyx:1596-1600 *)
Definition set_params (o : dop) (kwargs : list (nat * nat)) : dop :=
  fold_left (fun o p =>
    if match find_param (fst p) (y_params o) with None => true | Some v => negb (v =? snd p)%nat end
    then DOp (y_rows o) (y_cols o) (set_param (fst p) (snd p) (y_params o)) (y_A o) false
    else o) kwargs o.
(** linear_operators.pyx:1542-1548; [construct] is the method of the subclass, which may use
    params. The assertions leave isConstructed False. *)
Definition assure_constructed (construct : list (nat * nat) -> res expr) (o : dop) : res dop :=
  if y_constructed o then Ok o else
  A <- construct (y_params o) ;;
  _ <- guard (fst (shape_of A) =? y_rows o)%nat EAssert ;;
  _ <- guard (snd (shape_of A) =? y_cols o)%nat EAssert ;;
  Ok (DOp (y_rows o) (y_cols o) (y_params o) (Some A) true).
(** linear_operators.pyx:1550-1586: every product and the diagonal first assure that A is
    constructed, then use A *)
Definition delayed_expr (construct : list (nat * nat) -> res expr) (o : dop) : res (expr * dop) :=
  o <- assure_constructed construct o ;;
  match y_A o with Some A => Ok (A, o) | None => Err EType end.
