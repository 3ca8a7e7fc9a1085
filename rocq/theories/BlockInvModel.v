(** Model of the inverses of block triangular operators and of block diagonal operators
    (base/PyNucleus_base/linear_operators.pyx:895-908, 956-1019, cited as LO), on the heap of
    CompModel. Operators are given by expressions, so that isinstance(..., nullOperator) can be
    asked. Simplification: only lists of sub-blocks, not the shortcut for an object that is a
    blockOperator already, which passes its list on (LO:958-959, 990-991). *)
From Verif Require Import Util Lin CSRModel DenseModel SmootherModel CompModel.

Definition is_null (e : expr) : bool := match e with ENull _ _ => true | _ => false end.
(** subblocks[i][0].shape[0] for all i, LO:837-840 *)
Fixpoint first_heights (rows : list (list lop)) : res (list nat) :=
  match rows with
  | [] => Ok []
  | row :: r => o <- aget row 0 ;; r <- first_heights r ;; Ok (l_rows o :: r)
  end.
(** for k in range(...): self.temp[k] = x[k] - y[k]   (LO:979-980, 1011-1012) *)
Definition v_diff (t x y : view) (h : heap) : res heap :=
  xs <- vread h x ;; ys <- vread h y ;; ts <- vread h t ;;
  ts <- for_range 0 (v_len t) (fun k ts => a <- rd xs k ;; b <- rd ys k ;; wr ts k (a - b)%Qc) ts ;;
  vwrite h t ts.

(** What is done for the block row i; j runs over range(a, b).  LO:972-983, 1004-1015 *)
Definition inverse_step (ops : list (list lop)) (invs : list lop) (left right : list nat) (tv x y : view) (a b i : nat) (h : heap) : res heap :=
  row <- aget ops i ;;
  l0 <- aget left i ;; l1 <- aget left (i + 1) ;;
  h <- for_range a b (fun j h =>
    o <- aget row j ;;
    r0 <- aget right j ;; r1 <- aget right (j + 1) ;;
    yj <- subview y r0 r1 ;; ti <- subview tv l0 l1 ;;
    h <- l_mv o false false yj ti h ;;
    yi <- subview y l0 l1 ;; v_add yi ti h) h ;;
  ti <- subview tv l0 l1 ;; xi <- subview x l0 l1 ;; yi <- subview y l0 l1 ;;
  h <- v_diff ti xi yi h ;;
  inv <- aget invs i ;;
  r0 <- aget right i ;; r1 <- aget right (i + 1) ;;
  ti <- subview tv r0 r1 ;;
  l_mv inv false false ti yi h.

(** blockLowerInverse (LO:956-985, [lower] = true) and blockUpperInverse (LO:988-1017): the
    constructor, which gives the method matvec. [t] is temp; in the loop that runs down
    k is i + 1. *)
Definition blockInverse (lower : bool) (rows : list (list expr)) (inverses : list expr) (t : nat) : res (view -> view -> heap -> res heap) :=
  ops <- sequence (map (fun row => sequence (map build row)) rows) ;;
  invs <- sequence (map build inverses) ;;
  base <- new_block ops t ;;
  let nr := length rows in
  row0 <- aget rows 0 ;;
  let nc := length row0 in
  _ <- for_range 0 nr (fun i _ =>
    row <- aget rows i ;;
    let check lo hi := for_range lo hi (fun j _ => e <- aget row j ;; guard (is_null e) EAssert) tt in
    if lower then check (i + 1) nc else check 0 i) tt ;;
  heights <- first_heights ops ;;
  let left := offsets 0 heights in
  let right := offsets 0 (map l_cols (last ops [])) in
  let tv := View t 0 (l_rows base) in
  Ok (fun x y h =>
    h <- v_zero y h ;;
    if lower then for_range 0 nr (fun i h => inverse_step ops invs left right tv x y 0 i i h) h
    else for_range_down nr 0 (fun k h => inverse_step ops invs left right tv x y k nr (k - 1) h) h).

(** blockDiagonalOperator, LO:895-908: the sub-blocks that are given to blockOperator *)
Definition blockDiagonal (blocks : list expr) (t : nat) : expr :=
  EBlock (map (fun i =>
    let d := nth i blocks (ENull 0 0) in
    map (fun j => if j =? i then d else ENull (fst (shape_of d)) (snd (shape_of (nth j blocks (ENull 0 0))))) (seq 0 (length blocks)))
    (seq 0 (length blocks))) t.
