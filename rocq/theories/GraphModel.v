(** Model of the sparse graphs and of the transfer operators stored as graphs
    (base/PyNucleus_base/linear_operators.pyx:197-484, cited as LO).

    Simplifications: exact rationals; the parallel loops (NoThreads > 1) run over
    the same rows and are modelled by the sequential ones; HDF5, pickling and
    conversions to scipy are left out. Operators change their own arrays: a
    function returns the new graph. *)
From Verif Require Import Util Lin CSRModel.
Local Open Scope nat_scope.

(** sparseGraph, LO:197-203 *)
Record graph := Graph { g_ind : list nat; g_ptr : list nat; g_rows : nat; g_cols : nat }.

(** sum = 0.0; for j in range(indptr[i], indptr[i+1]): sum += x[indices[j]]   (LO:329-331, 342-344, 391-393, 445-447) *)
Definition row_sum (g : graph) (x : list Qc) (i : nat) : res Qc :=
  lo <- aget (g_ptr g) i ;; hi <- aget (g_ptr g) (i + 1) ;;
  for_range lo hi (fun j s => c <- aget (g_ind g) j ;; v <- aget x c ;; Ok (s + v)%Qc) 0%Qc.
(** sparseGraph.matvec, LO:322-333 *)
Definition graph_matvec (g : graph) (x : list Qc) (y : buf Qc) : res (buf Qc) :=
  for_range 0 (g_rows g) (fun i y => s <- row_sum g x i ;; wr y i s) y.
(** sparseGraph.matvec_no_overwrite, LO:335-346; restrictionOp and prolongationOp inherit it *)
Definition graph_matvec_add (g : graph) (x : list Qc) (y : buf Qc) : res (buf Qc) :=
  for_range 0 (g_rows g) (fun i y => s <- row_sum g x i ;; v <- rd y i ;; wr y i (v + s)%Qc) y.
Definition half : Qc := Q2Qc (1 # 2).
(** restrictionOp.matvec, LO:375-395 *)
Definition restriction_matvec (g : graph) (x : list Qc) (y : buf Qc) : res (buf Qc) :=
  for_range 0 (g_rows g) (fun i y => s <- row_sum g x i ;; a <- aget x i ;; wr y i (a + half * s)%Qc) y.
(** prolongationOp.matvec, LO:433-455 *)
Definition prolongation_matvec (g : graph) (x : list Qc) (y : buf Qc) : res (buf Qc) :=
  y <- for_range 0 (g_rows g) (fun i y => s <- row_sum g x i ;; wr y i (half * s)%Qc) y ;;
  for_range 0 (g_cols g) (fun i y => v <- rd y i ;; a <- aget x i ;; wr y i (v + a)%Qc) y.

(** sparseGraph.transpose, LO:211-240; nnz is indptr[len(indptr)-1] (LO:242-243).
    In the last loop the two sides of the assignment are swapped values. *)
Definition graph_transpose (g : graph) : res graph :=
  nnz <- aget (g_ptr g) (length (g_ptr g) - 1) ;;
  ip0 <- for_range 0 (g_rows g) (fun i ip =>
    for_row (g_ptr g) i (fun jj ip =>
      c <- aget (g_ind g) jj ;; q <- aget ip (c + 1) ;; aset ip (c + 1) (q + 1)) ip) (repeat 0 (g_cols g + 1)) ;;
  ip1 <- for_range 1 (g_cols g + 1) (fun j ip =>
    a <- aget ip j ;; b <- aget ip (j - 1) ;; aset ip j (a + b)) ip0 ;;
  '(ip2, ind) <- for_range 0 (g_rows g) (fun i st =>
    for_row (g_ptr g) i (fun jj '(ip, ind) =>
      c <- aget (g_ind g) jj ;; p <- aget ip c ;; ind' <- wr ind p i ;; ip' <- aset ip c (p + 1) ;; Ok (ip', ind')) st)
    (ip1, alloc nnz) ;;
  '(ip3, _) <- for_range 0 (g_cols g + 1) (fun i '(ip, temp) =>
    t <- aget ip i ;; ip' <- aset ip i temp ;; Ok (ip', t)) (ip2, 0) ;;
  indl <- all_init ind ;;
  Ok (Graph indl ip3 (g_cols g) (g_rows g)).

(** sparseGraph.sliceRow, LO:271-290. The variable ind is a view: it is read while
    indices is written, and begins at the value of indptr[i] at the time it is
    made. newRowIdx is the number of rows that have been done. *)
Definition sliceRow (g : graph) (slice : list nat) : res graph :=
  '(ptr, ind, last) <- for_range 0 (length slice) (fun newRowIdx '(ptr, ind, last) =>
    i <- aget slice newRowIdx ;;
    lo <- aget ptr i ;; hi <- aget ptr (i + 1) ;;
    let len := hi - lo in
    ptr <- aset ptr (newRowIdx + 1) (last + len) ;;
    b <- aget ptr newRowIdx ;; e <- aget ptr (newRowIdx + 1) ;;
    ind <- for_range b e (fun j ind =>
      _ <- guard (j - b <? len) EOob ;; v <- aget ind (lo + (j - b)) ;; aset ind j v) ind ;;
    Ok (ptr, ind, last + len)) (g_ptr g, g_ind g, 0) ;;
  Ok (Graph (firstn last ind) (firstn (length slice + 1) ptr) (length slice) (g_cols g)).
(** sparseGraph.sliceColumn, LO:292-295 *)
Definition sliceColumn (g : graph) (slice : list nat) : res graph :=
  g <- graph_transpose g ;; g <- sliceRow g slice ;; graph_transpose g.
