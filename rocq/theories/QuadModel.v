(** Model of quadrature rules on simplices and boxes
    (fem/PyNucleus_fem/quadrature.pyx).

    Simplifications: scalars are exact rationals; the function that is integrated is a
    total function of the coordinates. Rules on simplices of a lower dimension than the
    space (manifold_dim < dim), whose volumes are square roots, are not modelled, nor are
    the rules whose nodes come from scipy or modepy or are irrational (Gauss1D, order 5 of
    Gauss2D, GaussJacobi): these enter as given nodes and weights. The scratch space of a
    rule, span and tempVec, is passed to the methods that use it and has arbitrary
    contents. *)
From Verif Require Import Util Lin MeshModel BaryModel LocalModel.
Local Open Scope Qc_scope.

(** quadrature.pyx:17-31 *)
Record rule : Type := Rule {
  q_dim : nat;
  q_nodes : list (list Qc);  (* in barycentric coordinates; a row for each coordinate *)
  q_weights : list Qc
}.
(** nodes.shape[1] *)
Definition columns (nodes : list (list Qc)) : nat := length (nth 0 nodes []).
Definition num_nodes (r : rule) : nat := columns (q_nodes r).

(** quadrature.pyx:45-67: the constructor, with manifold_dim = dim *)
Definition simplexQuadratureRule (nodes : list (list Qc)) (weights : list Qc) (dim : nat) : res rule :=
  _ <- guard (columns nodes =? length weights)%nat EAssert ;;
  match dim with
  | 1%nat | 2%nat | 3%nat => Ok (Rule dim nodes weights)
  | _ => Err ENotImpl
  end.

(** quadrature.pyx:33-42 *)
Definition eval_rule (n : nat) (weights : list Qc) (fun_vals : buf Qc) (vol : Qc) : res Qc :=
  s <- for_range 0 n (fun i s => w <- aget weights i ;; v <- rd fun_vals i ;; Ok (s + w * v)) 0 ;;
  Ok (s * vol).

(** [x[:] = 0.] *)
Definition zero_all (x : buf Qc) : buf Qc := map (fun _ => Some 0) x.
(** [for k in range(dim+1): for m in range(dim): x[off+m] += nodes[k, i] * simplexVertices[k, m]] *)
Definition add_node (nodes vertices : list (list Qc)) (dim i off : nat) (x : buf Qc) : res (buf Qc) :=
  for_range 0 (dim + 1) (fun k x =>
    for_range 0 dim (fun m x =>
      a <- get2 nodes k i ;; v <- get2 vertices k m ;; addto x (off + m) (a * v)) x) x.

(** quadrature.pyx:118-129 *)
Definition evalFun (r : rule) (f : list Qc -> Qc) (vertices : list (list Qc)) (tempVec fun_vals : buf Qc) : res (buf Qc * buf Qc) :=
  for_range 0 (num_nodes r) (fun i '(tempVec, fun_vals) =>
    tempVec <- add_node (q_nodes r) vertices (q_dim r) i 0 (zero_all tempVec) ;;
    x <- all_init tempVec ;;
    fun_vals <- wr fun_vals i (f x) ;;
    Ok (tempVec, fun_vals)) (tempVec, fun_vals).

(** meshCy.pyx:1548-1549 *)
Definition volume1Dnew (span : list (buf Qc)) : res Qc := a <- rd2 span 0 0 ;; Ok (qabs a).
(** meshCy.pyx:1580-1585 *)
Definition volume3D (span : list (buf Qc)) : res Qc :=
  v <- aget span 0 ;; w <- aget span 1 ;;
  temp <- vectorProduct v w (alloc 3) ;;
  u <- aget span 2 ;; s <- mydot u temp ;;
  Ok (qabs s / qz 6).
(** quadrature.pyx:51-64 *)
Definition volume (dim : nat) (span : list (buf Qc)) : res Qc :=
  match dim with
  | 1%nat => volume1Dnew span
  | 2%nat => volume2Dnew span
  | 3%nat => volume3D span
  | _ => Err ENotImpl
  end.

(** quadrature.pyx:157-163 *)
Definition getSimplexVolume (r : rule) (vertices : list (list Qc)) (span : list (buf Qc)) : res Qc :=
  span <- for_range 0 (q_dim r) (fun k span =>
    for_range 0 (q_dim r) (fun j span =>
      a <- get2 vertices (k + 1) j ;; b <- get2 vertices 0 j ;; wr2 span k j (a - b)) span) span ;;
  volume (q_dim r) span.

(** quadrature.pyx:169-177 *)
Definition integrate (r : rule) (f : list Qc -> Qc) (vertices : list (list Qc)) (tempVec : buf Qc) (span : list (buf Qc)) : res Qc :=
  '(_, fun_vals) <- evalFun r f vertices tempVec (alloc (num_nodes r)) ;;
  vol <- getSimplexVolume r vertices span ;;
  eval_rule (num_nodes r) (q_weights r) fun_vals vol.

(** numpy's hstack for two arrays with as many rows *)
Fixpoint hstack (a b : list (list Qc)) : res (list (list Qc)) :=
  match a, b with
  | [], [] => Ok []
  | r :: a, s :: b => t <- hstack a b ;; Ok ((r ++ s) :: t)
  | _, _ => Err EValue
  end.
(** quadrature.pyx:69-74 *)
Definition add_rules (r s : rule) : res rule :=
  _ <- guard (q_dim r =? q_dim s)%nat EAssert ;;
  nodes <- hstack (q_nodes r) (q_nodes s) ;;
  simplexQuadratureRule nodes (q_weights r ++ q_weights s) (q_dim r).

(** [m[i, j] += v] *)
Definition addto2 (m : list (buf Qc)) (i j : nat) (v : Qc) : res (list (buf Qc)) :=
  o <- rd2 m i j ;; wr2 m i j (o + v).

(** quadrature.pyx:76-87 *)
Definition nodesInGlobalCoords (r : rule) (vertices : list (list Qc)) (coords : list (buf Qc)) : res (list (buf Qc)) :=
  for_range 0 (q_dim r + 1) (fun k coords =>
    for_range 0 (num_nodes r) (fun i coords =>
      temp <- get2 (q_nodes r) k i ;;
      for_range 0 (q_dim r) (fun m coords =>
        v <- get2 vertices k m ;; addto2 coords i m (temp * v)) coords) coords) (map zero_all coords).

(** quadrature.pyx:197-206: the nodes of a transformQuadratureRule made from [r] *)
Definition compute (r : rule) (A : list (list Qc)) (b : list Qc) (nodes : list (buf Qc)) : res (list (buf Qc)) :=
  nodes <- for_range 0 (q_dim r + 1) (fun k nodes =>
    for_range 0 (num_nodes r) (fun i nodes => v <- aget b k ;; wr2 nodes k i v) nodes) nodes ;;
  for_range 0 (q_dim r + 1) (fun k nodes =>
    for_range 0 (q_dim r + 1) (fun j nodes =>
      for_range 0 (num_nodes r) (fun i nodes =>
        a <- get2 A k j ;; l <- get2 (q_nodes r) j i ;; addto2 nodes k i (a * l)) nodes) nodes) nodes.
(** quadrature.pyx:181-195: the rule after setAffineBaryTransform(A, b) *)
Definition transformed (r : rule) (A : list (list Qc)) (b : list Qc) : res rule :=
  nodes <- compute r A b (alloc2 (length (q_nodes r)) (num_nodes r)) ;;
  nodes <- all_init2 nodes ;;
  simplexQuadratureRule nodes (q_weights r) (q_dim r).

(** quadrature.pyx:210-229: the weights of a doubleSimplexQuadratureRule *)
Definition double_weights (r s : rule) : res (buf Qc) :=
  '(weights, _) <- for_range 0 (num_nodes r) (fun i st =>
    for_range 0 (num_nodes s) (fun j '(weights, k) =>
      a <- aget (q_weights r) i ;; b <- aget (q_weights s) j ;;
      weights <- wr weights k (a * b) ;;
      Ok (weights, (k + 1)%nat)) st) (alloc (num_nodes r * num_nodes s), 0%nat) ;;
  Ok weights.
(** quadrature.pyx:243-264 *)
Definition double_evalFun (r s : rule) (f : list Qc -> Qc) (vertices1 vertices2 : list (list Qc)) (fun_vals : buf Qc) : res (buf Qc) :=
  '(_, fun_vals, _) <- for_range 0 (num_nodes r) (fun i st =>
    for_range 0 (num_nodes s) (fun j '(x, fun_vals, l) =>
      x <- add_node (q_nodes r) vertices1 (q_dim r) i 0 (zero_all x) ;;
      x <- add_node (q_nodes s) vertices2 (q_dim s) j (q_dim r) x ;;
      xs <- all_init x ;;
      fun_vals <- wr fun_vals l (f xs) ;;
      Ok (x, fun_vals, (l + 1)%nat)) st) (alloc (q_dim r + q_dim s), fun_vals, 0%nat) ;;
  Ok fun_vals.
(** quadrature.pyx:266-276 *)
Definition double_integrate (r s : rule) (f : list Qc -> Qc) (vertices1 vertices2 : list (list Qc)) (span1 span2 : list (buf Qc)) : res Qc :=
  weights <- double_weights r s ;; weights <- all_init weights ;;
  fun_vals <- double_evalFun r s f vertices1 vertices2 (alloc (num_nodes r * num_nodes s)) ;;
  v1 <- getSimplexVolume r vertices1 span1 ;;
  v2 <- getSimplexVolume s vertices2 span2 ;;
  eval_rule (num_nodes r * num_nodes s) weights fun_vals (v1 * v2).

(** ** The rules that are given by tables *)

(** quadrature.pyx:279-282 *)
Definition quad_point2D_order2 : list (list Qc) :=
  [[qf 1 2; 0; qf 1 2];
   [qf 1 2; qf 1 2; 0];
   [0; qf 1 2; qf 1 2]].
Definition weights2D_order2 : list Qc := [qf 1 3; qf 1 3; qf 1 3].
(** quadrature.pyx:296-300 *)
Definition quad_point3D_order3 : list (list Qc) :=
  [[qf 1 4; qf 1 2; qf 1 6; qf 1 6; qf 1 6];
   [qf 1 4; qf 1 6; qf 1 2; qf 1 6; qf 1 6];
   [qf 1 4; qf 1 6; qf 1 6; qf 1 2; qf 1 6];
   [qf 1 4; qf 1 6; qf 1 6; qf 1 6; qf 1 2]].
Definition weights3D_order3 : list Qc := [qf (-8) 10; qf 9 20; qf 9 20; qf 9 20; qf 9 20].
(** quadrature.pyx:319-331, order 2 *)
Definition Gauss2D_order2 : res rule := simplexQuadratureRule quad_point2D_order2 weights2D_order2 2.
(** quadrature.pyx:334-342, order 3 *)
Definition Gauss3D_order3 : res rule := simplexQuadratureRule quad_point3D_order3 weights3D_order3 3.

(** ** Boxes *)

(** quadrature.pyx:387-399; [nodes] has a row for each dimension *)
Definition box_evalFun (nodes : list (list Qc)) (f : list Qc -> Qc) (vertices : list (list Qc)) (fun_vals : buf Qc) : res (buf Qc) :=
  let dim := length nodes in
  '(_, fun_vals) <- for_range 0 (columns nodes) (fun i '(x, fun_vals) =>
    for_range 0 dim (fun k st =>
      for_range 0 dim (fun m '(x, fun_vals) =>
        v <- get2 vertices 0 m ;; l <- get2 nodes i k ;; u <- get2 vertices (k + 1) m ;;
        x <- addto x m (v + l * (u - v)) ;;
        xs <- all_init x ;;
        fun_vals <- wr fun_vals i (f xs) ;;
        Ok (x, fun_vals)) st) (zero_all x, fun_vals)) (alloc dim, fun_vals) ;;
  Ok fun_vals.
