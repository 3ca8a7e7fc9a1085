(** Model of the barycentric coordinates and of the point location built on them
    (fem/PyNucleus_fem/meshCy.pyx).

    Simplifications: coordinates are exact rationals. The square root is an argument
    [sq] of the routines that use one. A division by zero, which gives an infinity or a
    NaN in the code, is the error EDiv0. LAPACK's dgetrf and dgetrs are modelled by what
    they compute in exact arithmetic, the solution of the linear system. *)
From Verif Require Import Util Lin MeshModel.
Local Open Scope Qc_scope.

Definition qdiv (a b : Qc) : res Qc := if Qc_eq_dec b 0 then Err EDiv0 else Ok (a / b).
Definition qabs (a : Qc) : Qc := if Qclt_le_dec a 0 then - a else a.
Definition tiny : Qc := Q2Qc (1 # 10000000000).

(** meshCy.pyx:2385-2390; getBarycentricCoords1DPtr (2449-2454) is the same *)
Definition getBarycentricCoords1D (simplex : list (buf Qc)) (x : list Qc) (bary : buf Qc) : res (buf Qc) :=
  s00 <- rd2 simplex 0 0 ;; s10 <- rd2 simplex 1 0 ;; x0 <- aget x 0 ;;
  let vol := s00 - s10 in
  q <- qdiv (x0 - s10) vol ;;
  bary <- wr bary 0 q ;;
  b0 <- rd bary 0 ;;
  wr bary 1 (1 - b0).

(** meshCy.pyx:2393-2401, 2457-2465 *)
Definition getBarycentricCoords1Din2D (sq : Qc -> Qc) (simplex : list (buf Qc)) (x : list Qc) (bary : buf Qc) : res (buf Qc) :=
  s00 <- rd2 simplex 0 0 ;; s10 <- rd2 simplex 1 0 ;; s01 <- rd2 simplex 0 1 ;; s11 <- rd2 simplex 1 1 ;;
  let vol := sq ((s00 - s10) * (s00 - s10) + (s01 - s11) * (s01 - s11)) in
  q <- (if Qclt_le_dec tiny (qabs (s10 - s00))
        then x0 <- aget x 0 ;; qdiv (x0 - s10) vol
        else x1 <- aget x 1 ;; qdiv (x1 - s11) vol) ;;
  bary <- wr bary 0 q ;;
  b0 <- rd bary 0 ;;
  wr bary 1 (1 - b0).

(** meshCy.pyx:2404-2414, 2468-2478 *)
Definition getBarycentricCoords1Din3D (sq : Qc -> Qc) (simplex : list (buf Qc)) (x : list Qc) (bary : buf Qc) : res (buf Qc) :=
  s00 <- rd2 simplex 0 0 ;; s10 <- rd2 simplex 1 0 ;; s01 <- rd2 simplex 0 1 ;; s11 <- rd2 simplex 1 1 ;;
  s02 <- rd2 simplex 0 2 ;; s12 <- rd2 simplex 1 2 ;;
  let vol := sq ((s00 - s10) * (s00 - s10) + (s01 - s11) * (s01 - s11) + (s02 - s12) * (s02 - s12)) in
  q <- (if Qclt_le_dec tiny (qabs (s10 - s00))
        then x0 <- aget x 0 ;; qdiv (x0 - s10) vol
        else if Qclt_le_dec tiny (qabs (s11 - s01))
        then x1 <- aget x 1 ;; qdiv (x1 - s11) vol
        else x2 <- aget x 2 ;; qdiv (x2 - s12) vol) ;;
  bary <- wr bary 0 q ;;
  b0 <- rd bary 0 ;;
  wr bary 1 (1 - b0).

(** meshCy.pyx:2417-2426, 2481-2490 *)
Definition getBarycentricCoords2D (simplex : list (buf Qc)) (x : list Qc) (bary : buf Qc) : res (buf Qc) :=
  s00 <- rd2 simplex 0 0 ;; s10 <- rd2 simplex 1 0 ;; s20 <- rd2 simplex 2 0 ;;
  s01 <- rd2 simplex 0 1 ;; s11 <- rd2 simplex 1 1 ;; s21 <- rd2 simplex 2 1 ;;
  x0 <- aget x 0 ;; x1 <- aget x 1 ;;
  let vol := (s00 - s10) * (s21 - s11) - (s01 - s11) * (s20 - s10) in
  q0 <- qdiv ((x0 - s10) * (s21 - s11) - (x1 - s11) * (s20 - s10)) vol ;;
  bary <- wr bary 0 q0 ;;
  q1 <- qdiv ((x0 - s20) * (s01 - s21) - (x1 - s21) * (s00 - s20)) vol ;;
  bary <- wr bary 1 q1 ;;
  b0 <- rd bary 0 ;; b1 <- rd bary 1 ;;
  wr bary 2 (1 - b0 - b1).

(** dgetrf and dgetrs for a system of three equations; a is stored by columns *)
Definition det3 (a : nat -> nat -> Qc) : Qc :=
  a 0%nat 0%nat * (a 1%nat 1%nat * a 2%nat 2%nat - a 1%nat 2%nat * a 2%nat 1%nat) -
  a 0%nat 1%nat * (a 1%nat 0%nat * a 2%nat 2%nat - a 1%nat 2%nat * a 2%nat 0%nat) +
  a 0%nat 2%nat * (a 1%nat 0%nat * a 2%nat 1%nat - a 1%nat 1%nat * a 2%nat 0%nat).
Definition solve3 (a b : buf Qc) : res (buf Qc) :=
  a <- all_init a ;; b' <- all_init b ;;
  let m := fun r c => vat a (3 * c + r) in
  let d := fun c0 => det3 (fun r c => if Nat.eqb c c0 then vat b' r else m r c) in
  u <- qdiv (d 0%nat) (det3 m) ;; v <- qdiv (d 1%nat) (det3 m) ;; w <- qdiv (d 2%nat) (det3 m) ;;
  b <- wr b 0 u ;; b <- wr b 1 v ;; wr b 2 w.

(** meshCy.pyx:2429-2446, 2493-2510 *)
Definition getBarycentricCoords2Din3D (simplex : list (buf Qc)) (x : list Qc) (bary : buf Qc) : res (buf Qc) :=
  '(a, bary) <- for_range 0 3 (fun j st =>
     let '(a, bary) := st in
     a <- for_range 0 3 (fun k a => s <- rd2 simplex j k ;; wr a (3 * j + k) s) a ;;
     xj <- aget x j ;;
     bary <- wr bary j xj ;;
     Ok (a, bary)) (alloc 9, bary) ;;
  solve3 a bary.

(** meshCy.pyx:403-411 *)
Definition getSimplex (dim : nat) (vertices : list (list Qc)) (cells : list (list nat)) (cellIdx : nat) (simplex : list (buf Qc)) : res (list (buf Qc)) :=
  c <- aget cells cellIdx ;;
  for_range 0 (length c) (fun m simplex =>
    k <- aget c m ;;
    for_range 0 dim (fun l simplex => v <- get2 vertices k l ;; wr2 simplex m l v) simplex) simplex.

(** meshCy.pyx:696-718; vertexInCellPtr (720-742) is the same *)
Definition vertexInCell (sq : Qc -> Qc) (dim manifold_dim : nat) (vertices : list (list Qc)) (cells : list (list nat))
    (vertex : list Qc) (cellNo : nat) (simplexMem : list (buf Qc)) (baryMem : buf Qc) (tol : Qc) : res (bool * list (buf Qc) * buf Qc) :=
  simplexMem <- getSimplex dim vertices cells cellNo simplexMem ;;
  baryMem <- (match manifold_dim, dim with
              | 1, 1 => getBarycentricCoords1D simplexMem vertex baryMem
              | 1, 2 => getBarycentricCoords1Din2D sq simplexMem vertex baryMem
              | 1, 3 => getBarycentricCoords1Din3D sq simplexMem vertex baryMem
              | 1, _ => Ok baryMem
              | 2, 2 => getBarycentricCoords2D simplexMem vertex baryMem
              | 2, 3 => getBarycentricCoords2Din3D simplexMem vertex baryMem
              | _, _ => Err ENotImpl
              end)%nat ;;
  b <- for_range 0 (manifold_dim + 1) (fun i (b : bool) =>
     if b then bi <- rd baryMem i ;; Ok (if Qclt_le_dec bi (- tol) then false else true) else Ok false) true ;;
  Ok (b, simplexMem, baryMem).

(** meshCy.pyx:2172-2180: [cellIdx] are the candidates the k-d tree proposes, -1 is None *)
Fixpoint findCell (sq : Qc -> Qc) (dim manifold_dim : nat) (vertices : list (list Qc)) (cells : list (list nat))
    (vertex : list Qc) (cellIdx : list nat) (simplex : list (buf Qc)) (bary : buf Qc) : res (option nat) :=
  match cellIdx with
  | [] => Ok None
  | cellNo :: cellIdx =>
    '(b, simplex, bary) <- vertexInCell sq dim manifold_dim vertices cells vertex cellNo simplex bary 0 ;;
    if (b : bool) then Ok (Some cellNo)
    else findCell sq dim manifold_dim vertices cells vertex cellIdx simplex bary
  end.

(** meshCy.pyx:657-672 *)
Definition getCellCenters (dim manifold_dim : nat) (vertices : list (list Qc)) (cells : list (list nat)) : res (list (list Qc)) :=
  let fac := / Q2Qc (inject_Z (Z.of_nat (manifold_dim + 1))) in
  '(_, centers) <- for_range 0 (length cells) (fun cellNo st =>
     let '(simplex, centers) := st in
     simplex <- getSimplex dim vertices cells cellNo simplex ;;
     row <- aget centers cellNo ;;
     row <- for_range 0 (manifold_dim + 1) (fun j row =>
        for_range 0 dim (fun k row => s <- rd2 simplex j k ;; c <- aget row k ;; aset row k (c + s)) row) row ;;
     row <- for_range 0 dim (fun k row => c <- aget row k ;; aset row k (c * fac)) row ;;
     centers <- aset centers cellNo row ;;
     Ok (simplex, centers)) (alloc2 (manifold_dim + 1) dim, repeat (repeat 0 dim) (length cells)) ;;
  Ok centers.
