(** Model of the geometry of a single simplex, of the shape functions and of the parts of
    the local matrices that are written by hand (fem/PyNucleus_fem/femCy.pyx, meshCy.pyx
    and DoFMaps.pyx).

    Simplifications: scalars are exact rationals, and a decimal constant such as
    0.0833333333333333 is the fraction it rounds, 1/12; likewise 0.16666666666666674 in
    simplexComputations3D is 1/6. A division by zero is the error EDiv0. Work space
    passed to a routine has arbitrary contents on entry, and entries that were never
    written cannot be read. *)
From Verif Require Import Util Lin MeshModel BaryModel.
Local Open Scope Qc_scope.

Definition qf (a : Z) (b : positive) : Qc := Q2Qc (a # b).

(** [contrib[0] = e0], [contrib[1] = e1], ... *)
Fixpoint put_from (i : nat) (es : list Qc) (b : buf Qc) : res (buf Qc) :=
  match es with
  | [] => Ok b
  | e :: es => b <- wr b i e ;; put_from (S i) es b
  end.
Definition put (es : list Qc) (b : buf Qc) : res (buf Qc) := put_from 0 es b.

(** base/PyNucleus_base/opt_false_blas.pxi:57-64 (mydot), on rows of work space *)
Definition mydot (v w : buf Qc) : res Qc :=
  for_range 0 (length v) (fun i s => x <- rd v i ;; y <- rd w i ;; Ok (s + x * y)) 0.
Definition row_dot (m : list (buf Qc)) (i j : nat) : res Qc := v <- aget m i ;; w <- aget m j ;; mydot v w.

(** ** Volumes *)

(** meshCy.pyx:1518-1522 *)
Definition vectorProduct (v w z : buf Qc) : res (buf Qc) :=
  v0 <- rd v 0 ;; v1 <- rd v 1 ;; v2 <- rd v 2 ;; w0 <- rd w 0 ;; w1 <- rd w 1 ;; w2 <- rd w 2 ;;
  z <- wr z 0 (v1 * w2 - v2 * w1) ;;
  z <- wr z 1 (v2 * w0 - v0 * w2) ;;
  wr z 2 (v0 * w1 - v1 * w0).
(** [vectorProduct(temp[i, :], temp[j, :], z[k, :])] *)
Definition row_product (temp : list (buf Qc)) (i j : nat) (z : list (buf Qc)) (k : nat) : res (list (buf Qc)) :=
  v <- aget temp i ;; w <- aget temp j ;; r <- aget z k ;; r <- vectorProduct v w r ;; aset z k r.

(** meshCy.pyx:1576-1577 *)
Definition volume2Dnew (span : list (buf Qc)) : res Qc :=
  a <- rd2 span 0 0 ;; b <- rd2 span 1 1 ;; c <- rd2 span 0 1 ;; d <- rd2 span 1 0 ;;
  Ok (qabs (a * b - c * d) * one_half).

(** meshCy.pyx:1588-1590; [span] is temp[:3, :] and the product goes to temp[t, :] *)
Definition volume3Dnew (temp : list (buf Qc)) (t : nat) : res (Qc * list (buf Qc)) :=
  temp <- row_product temp 0 1 temp t ;;
  s <- row_dot temp 2 t ;;
  Ok (qabs s / qz 6, temp).

(** femCy.pyx:80-84; volume1Dsimplex (meshCy.pyx:1597-1598) is the same *)
Definition simplexVolume1D (simplex : list (list Qc)) : res Qc :=
  a <- get2 simplex 1 0 ;; b <- get2 simplex 0 0 ;; Ok (qabs (a - b)).

(** [temp[r, j] = simplex[p, j]-simplex[q, j]] *)
Definition put_diff (simplex : list (list Qc)) (temp : list (buf Qc)) (r p q j : nat) : res (list (buf Qc)) :=
  a <- get2 simplex p j ;; b <- get2 simplex q j ;; wr2 temp r j (a - b).

(** femCy.pyx:87-97 *)
Definition simplexVolume2D (simplex : list (list Qc)) (temp : list (buf Qc)) : res (Qc * list (buf Qc)) :=
  temp <- for_range 0 2 (fun j temp =>
    temp <- put_diff simplex temp 0 1 0 j ;;
    put_diff simplex temp 1 2 0 j) temp ;;
  v <- volume2Dnew temp ;;
  Ok (v, temp).

(** femCy.pyx:109-120 *)
Definition simplexVolume3D (simplex : list (list Qc)) (temp : list (buf Qc)) : res (Qc * list (buf Qc)) :=
  temp <- for_range 0 3 (fun j temp =>
    temp <- put_diff simplex temp 0 1 0 j ;;
    temp <- put_diff simplex temp 1 2 0 j ;;
    put_diff simplex temp 2 3 0 j) temp ;;
  volume3Dnew temp 3.

(** meshCy.pyx:1601-1607 *)
Definition volume2Dsimplex (simplex : list (list Qc)) : res Qc :=
  s00 <- get2 simplex 0 0 ;; s01 <- get2 simplex 0 1 ;; s10 <- get2 simplex 1 0 ;; s11 <- get2 simplex 1 1 ;;
  s20 <- get2 simplex 2 0 ;; s21 <- get2 simplex 2 1 ;;
  let v00 := s10 - s00 in let v01 := s11 - s01 in let v10 := s20 - s00 in let v11 := s21 - s01 in
  Ok (qabs (v00 * v11 - v10 * v01) * one_half).

(** meshCy.pyx:1625-1638 *)
Definition volume3Dsimplex (simplex : list (list Qc)) : res Qc :=
  s00 <- get2 simplex 0 0 ;; s01 <- get2 simplex 0 1 ;; s02 <- get2 simplex 0 2 ;;
  s10 <- get2 simplex 1 0 ;; s11 <- get2 simplex 1 1 ;; s12 <- get2 simplex 1 2 ;;
  s20 <- get2 simplex 2 0 ;; s21 <- get2 simplex 2 1 ;; s22 <- get2 simplex 2 2 ;;
  s30 <- get2 simplex 3 0 ;; s31 <- get2 simplex 3 1 ;; s32 <- get2 simplex 3 2 ;;
  let v00 := s10 - s00 in let v01 := s11 - s01 in let v02 := s12 - s02 in
  let v10 := s20 - s00 in let v11 := s21 - s01 in let v12 := s22 - s02 in
  let v20 := s30 - s00 in let v21 := s31 - s01 in let v22 := s32 - s02 in
  Ok (qabs ((v01 * v12 - v02 * v11) * v20 - (v00 * v12 - v02 * v10) * v21 + (v00 * v11 - v01 * v10) * v22) / qz 6).

(** ** Volumes and products of gradients *)

(** femCy.pyx:540-562 *)
Definition simplexVolumeAndProducts2D (simplex : list (list Qc)) (innerProducts : buf Qc) (temp : list (buf Qc))
    : res (Qc * buf Qc * list (buf Qc)) :=
  temp <- for_range 0 2 (fun j temp =>
    temp <- put_diff simplex temp 0 2 1 j ;;
    temp <- put_diff simplex temp 1 0 2 j ;;
    put_diff simplex temp 2 1 0 j) temp ;;
  vol <- volume2Dnew (skipn 1 temp) ;;
  p00 <- row_dot temp 0 0 ;; p01 <- row_dot temp 0 1 ;; p02 <- row_dot temp 0 2 ;;
  p11 <- row_dot temp 1 1 ;; p12 <- row_dot temp 1 2 ;; p22 <- row_dot temp 2 2 ;;
  innerProducts <- put [p00; p01; p02; p11; p12; p22] innerProducts ;;
  Ok (vol, innerProducts, temp).

(** The first loop of femCy.pyx:660-668 and of simplexComputations3D *)
Definition edges3D (simplex : list (list Qc)) (temp : list (buf Qc)) : res (list (buf Qc)) :=
  for_range 0 3 (fun j temp =>
    temp <- put_diff simplex temp 0 1 0 j ;;
    temp <- put_diff simplex temp 1 2 0 j ;;
    temp <- put_diff simplex temp 2 3 0 j ;;
    temp <- put_diff simplex temp 3 2 1 j ;;
    temp <- put_diff simplex temp 4 3 1 j ;;
    put_diff simplex temp 5 2 3 j) temp.

(** femCy.pyx:650-688 *)
Definition simplexVolumeAndProducts3D (simplex : list (list Qc)) (innerProducts : buf Qc) (temp : list (buf Qc))
    : res (Qc * buf Qc * list (buf Qc)) :=
  temp <- edges3D simplex temp ;;
  '(vol, temp) <- volume3Dnew temp 6 ;;
  temp <- row_product temp 3 4 temp 6 ;;
  temp <- row_product temp 1 5 temp 7 ;;
  temp <- row_product temp 0 2 temp 8 ;;
  temp <- row_product temp 3 1 temp 9 ;;
  p00 <- row_dot temp 6 6 ;; p01 <- row_dot temp 6 7 ;; p02 <- row_dot temp 6 8 ;; p03 <- row_dot temp 6 9 ;;
  p11 <- row_dot temp 7 7 ;; p12 <- row_dot temp 7 8 ;; p13 <- row_dot temp 7 9 ;;
  p22 <- row_dot temp 8 8 ;; p23 <- row_dot temp 8 9 ;; p33 <- row_dot temp 9 9 ;;
  innerProducts <- put [p00; p01; p02; p03; p11; p12; p13; p22; p23; p33] innerProducts ;;
  Ok (vol, innerProducts, temp).

(** ** Gradients: the classes simplexComputations1D, 2D and 3D

    evalVolumeGradientsInnerProducts; evalVolumeGradients is the same without the inner
    products, and evalSimplexVolumeGradientsInnerProducts the same with the simplex as an
    argument. *)

(** femCy.pyx:257-272, 246-255, 274-290 *)
Definition gradients1D (simplex : list (list Qc)) (gradients : list (buf Qc)) (innerProducts : buf Qc)
    : res (Qc * list (buf Qc) * buf Qc) :=
  a <- get2 simplex 0 0 ;; b <- get2 simplex 1 0 ;;
  let vol := qabs (a - b) in
  q <- qdiv 1 vol ;;
  gradients <- wr2 gradients 0 0 q ;;
  g <- rd2 gradients 0 0 ;;
  gradients <- wr2 gradients 1 0 (- g) ;;
  g0 <- rd2 gradients 0 0 ;; g1 <- rd2 gradients 1 0 ;;
  innerProducts <- put [vol * g0 * g0; vol * g0 * g1; vol * g1 * g1] innerProducts ;;
  Ok (vol, gradients, innerProducts).

(** [gradients[r, 1-j] = f*(simplex[p, j]-simplex[q, j])] *)
Definition put_rot (simplex : list (list Qc)) (f : Qc) (gradients : list (buf Qc)) (r p q j : nat) : res (list (buf Qc)) :=
  a <- get2 simplex p j ;; b <- get2 simplex q j ;; wr2 gradients r (1 - j) (f * (a - b)).

(** [for k in range(n): for j in range(m): gradients[k, j] *= f] *)
Definition scale_rows (n m : nat) (f : Qc) (gradients : list (buf Qc)) : res (list (buf Qc)) :=
  for_range 0 n (fun k gradients => for_range 0 m (fun j gradients =>
    x <- rd2 gradients k j ;; wr2 gradients k j (x * f)) gradients) gradients.

(** femCy.pyx:328-353, 309-326, 355-381 *)
Definition gradients2D (simplex : list (list Qc)) (gradients : list (buf Qc)) (innerProducts : buf Qc)
    : res (Qc * list (buf Qc) * buf Qc) :=
  '(f, gradients) <- for_range 0 2 (fun j s => let '(f, gradients) := s in
    gradients <- put_rot simplex f gradients 0 2 1 j ;;
    gradients <- put_rot simplex f gradients 1 0 2 j ;;
    gradients <- put_rot simplex f gradients 2 1 0 j ;;
    Ok (- (1), gradients)) (1, gradients) ;;
  vol <- volume2Dnew (skipn 1 gradients) ;;
  f <- qdiv one_half vol ;;
  gradients <- scale_rows 3 2 f gradients ;;
  p00 <- row_dot gradients 0 0 ;; p01 <- row_dot gradients 0 1 ;; p02 <- row_dot gradients 0 2 ;;
  p11 <- row_dot gradients 1 1 ;; p12 <- row_dot gradients 1 2 ;; p22 <- row_dot gradients 2 2 ;;
  innerProducts <- put [vol * p00; vol * p01; vol * p02; vol * p11; vol * p12; vol * p22] innerProducts ;;
  Ok (vol, gradients, innerProducts).

(** femCy.pyx:434-474, 404-432, 476-517 *)
Definition gradients3D (simplex : list (list Qc)) (temp gradients : list (buf Qc)) (innerProducts : buf Qc)
    : res (Qc * list (buf Qc) * buf Qc * list (buf Qc)) :=
  temp <- edges3D simplex temp ;;
  '(vol, temp) <- volume3Dnew temp 6 ;;
  gradients <- row_product temp 3 4 gradients 0 ;;
  gradients <- row_product temp 1 5 gradients 1 ;;
  gradients <- row_product temp 0 2 gradients 2 ;;
  gradients <- row_product temp 3 1 gradients 3 ;;
  f <- qdiv (qf 1 6) vol ;;
  gradients <- scale_rows 4 3 f gradients ;;
  p00 <- row_dot gradients 0 0 ;; p01 <- row_dot gradients 0 1 ;; p02 <- row_dot gradients 0 2 ;; p03 <- row_dot gradients 0 3 ;;
  p11 <- row_dot gradients 1 1 ;; p12 <- row_dot gradients 1 2 ;; p13 <- row_dot gradients 1 3 ;;
  p22 <- row_dot gradients 2 2 ;; p23 <- row_dot gradients 2 3 ;; p33 <- row_dot gradients 3 3 ;;
  innerProducts <- put [vol * p00; vol * p01; vol * p02; vol * p03; vol * p11; vol * p12; vol * p13; vol * p22; vol * p23; vol * p33]
    innerProducts ;;
  Ok (vol, gradients, innerProducts, temp).

(** ** Convection: the classes drift_1d_P1 and drift_2d_P1

    [coeff] is the vector field, evaluated at the centre of the simplex. *)

(** coeffProducts1D, femCy.pyx:135-153, as called from drift_1d_P1.eval (762-774) with
    vol = 1 *)
Definition drift_1d_P1_eval (coeff : list Qc -> list Qc) (simplex : list (list Qc)) (contrib : buf Qc) : res (buf Qc) :=
  a <- get2 simplex 0 0 ;; b <- get2 simplex 1 0 ;;
  c <- aget (coeff [(0 + a + b) * one_half]) 0 ;;
  let p0 := - (1) * c in let p1 := 1 * c in
  put [p0 * one_half; p1 * one_half; p0 * one_half; p1 * one_half] contrib.

(** femCy.pyx:616-617 *)
Definition mydot_rot2D (a b : list Qc) : res Qc :=
  a0 <- aget a 0 ;; b1 <- aget b 1 ;; a1 <- aget a 1 ;; b0 <- aget b 0 ;; Ok (- a0 * b1 + a1 * b0).

(** coeffProducts2D, femCy.pyx:620-647, as called from drift_2d_P1.eval (818-835) with
    vol = 1 *)
Definition drift_2d_P1_eval (coeff : list Qc -> list Qc) (simplex : list (list Qc)) (contrib : buf Qc) : res (buf Qc) :=
  x0 <- get2 simplex 0 0 ;; y0 <- get2 simplex 0 1 ;;
  x1 <- get2 simplex 1 0 ;; y1 <- get2 simplex 1 1 ;;
  x2 <- get2 simplex 2 0 ;; y2 <- get2 simplex 2 1 ;;
  let c := coeff [(0 + x0 + x1 + x2) * qf 1 3; (0 + y0 + y1 + y2) * qf 1 3] in
  p0 <- mydot_rot2D c [x2 - x1; y2 - y1] ;;
  p1 <- mydot_rot2D c [x0 - x2; y0 - y2] ;;
  p2 <- mydot_rot2D c [x1 - x0; y1 - y0] ;;
  let p0 := one_half * p0 in let p1 := one_half * p1 in let p2 := one_half * p2 in
  let fac := qf 1 3 in
  put [p0 * fac; p1 * fac; p2 * fac; p0 * fac; p1 * fac; p2 * fac; p0 * fac; p1 * fac; p2 * fac] contrib.

(** ** Shape functions

    evalPtr, on the barycentric coordinates [lam]; evalStrided is the same on a column. *)

(** DoFMaps.pyx:1776-1800 (constant), 1863-1864 *)
Definition shapeP0 (lam : list Qc) : Qc := 1.
Definition shapeP1 (v : nat) (lam : list Qc) : Qc := vat lam v.
(** DoFMaps.pyx:1942-1943, 1965-1966 *)
Definition shapeP2_vertex (v : nat) (lam : list Qc) : Qc := vat lam v * (qz 2 * vat lam v - 1).
Definition shapeP2_edge (v1 v2 : nat) (lam : list Qc) : Qc := qz 4 * vat lam v1 * vat lam v2.
(** DoFMaps.pyx:2044-2045, 2068-2069, 2093-2094 *)
Definition shapeP3_vertex (v : nat) (lam : list Qc) : Qc := qf 9 2 * vat lam v * (vat lam v - qf 1 3) * (vat lam v - qf 2 3).
Definition shapeP3_edge (v1 v2 : nat) (lam : list Qc) : Qc := qf 27 2 * vat lam v1 * vat lam v2 * (vat lam v1 - qf 1 3).
Definition shapeP3_face (v1 v2 v3 : nat) (lam : list Qc) : Qc := qz 27 * vat lam v1 * vat lam v2 * vat lam v3.

(** The attribute localShapeFunctions: P0 DoFMaps.pyx:1806-1820, P1 1881-1906, P2
    1983-2015, P3 2116-2160. [dim] is manifold_dim. *)
Definition shapesP1 (dim : nat) : list (list Qc -> Qc) := map shapeP1 (seq 0 (S dim)).
Definition shapesP2 (dim : nat) : list (list Qc -> Qc) :=
  match dim with
  | 1%nat => map shapeP2_vertex [0; 1]%nat ++ [shapeP2_edge 0 1]
  | 2%nat => map shapeP2_vertex [0; 1; 2]%nat ++ [shapeP2_edge 0 1; shapeP2_edge 1 2; shapeP2_edge 0 2]
  | _ => map shapeP2_vertex [0; 1; 2; 3]%nat ++
         [shapeP2_edge 0 1; shapeP2_edge 1 2; shapeP2_edge 0 2; shapeP2_edge 0 3; shapeP2_edge 1 3; shapeP2_edge 2 3]
  end.
Definition shapesP3 (dim : nat) : list (list Qc -> Qc) :=
  match dim with
  | 1%nat => map shapeP3_vertex [0; 1]%nat ++ [shapeP3_edge 0 1; shapeP3_edge 1 0]
  | 2%nat => map shapeP3_vertex [0; 1; 2]%nat ++
         [shapeP3_edge 0 1; shapeP3_edge 1 0; shapeP3_edge 1 2; shapeP3_edge 2 1; shapeP3_edge 2 0; shapeP3_edge 0 2] ++
         [shapeP3_face 0 1 2]
  | _ => map shapeP3_vertex [0; 1; 2; 3]%nat ++
         [shapeP3_edge 0 1; shapeP3_edge 1 0; shapeP3_edge 1 2; shapeP3_edge 2 1; shapeP3_edge 2 0; shapeP3_edge 0 2;
          shapeP3_edge 0 3; shapeP3_edge 3 0; shapeP3_edge 1 3; shapeP3_edge 3 1; shapeP3_edge 2 3; shapeP3_edge 3 2] ++
         [shapeP3_face 0 1 2; shapeP3_face 0 1 3; shapeP3_face 1 2 3; shapeP3_face 2 0 3]
  end.

(** The attribute nodes, in the same places. *)
Definition o := 0. Definition h := one_half. Definition t1 := qf 1 3. Definition t2 := qf 2 3.
Definition nodesP1 (dim : nat) : list (list Qc) := tab (S dim) (fun i => tab (S dim) (fun j => if (j =? i)%nat then 1 else 0)).
Definition nodesP2 (dim : nat) : list (list Qc) :=
  match dim with
  | 1%nat => [[1; o]; [o; 1]; [h; h]]
  | 2%nat => [[1; o; o]; [o; 1; o]; [o; o; 1]; [h; h; o]; [o; h; h]; [h; o; h]]
  | _ => [[1; o; o; o]; [o; 1; o; o]; [o; o; 1; o]; [o; o; o; 1];
          [h; h; o; o]; [o; h; h; o]; [h; o; h; o]; [h; o; o; h]; [o; h; o; h]; [o; o; h; h]]
  end.
Definition nodesP3 (dim : nat) : list (list Qc) :=
  match dim with
  | 1%nat => [[1; o]; [o; 1]; [t2; t1]; [t1; t2]]
  | 2%nat => [[1; o; o]; [o; 1; o]; [o; o; 1];
          [t2; t1; o]; [t1; t2; o]; [o; t2; t1]; [o; t1; t2]; [t1; o; t2]; [t2; o; t1]; [t1; t1; t1]]
  | _ => [[1; o; o; o]; [o; 1; o; o]; [o; o; 1; o]; [o; o; o; 1];
          [t2; t1; o; o]; [t1; t2; o; o]; [o; t2; t1; o]; [o; t1; t2; o]; [t1; o; t2; o]; [t2; o; t1; o];
          [t2; o; o; t1]; [t1; o; o; t2]; [o; t2; o; t1]; [o; t1; o; t2]; [o; o; t2; t1]; [o; o; t1; t2];
          [t1; t1; t1; o]; [t1; t1; o; t1]; [o; t1; t1; t1]; [t1; o; t1; t1]]
  end.

(** N1e (DoFMaps.pyx:2205-2212): the value is a combination of the gradients of the
    barycentric coordinates. [cell] are the numbers of the vertices of the cell. *)
Definition shapeN1e (dim : nat) (cell : list nat) (v1 v2 : nat) (lam : list Qc) (gradLam : list (list Qc)) : list Qc :=
  let value := tab dim (fun i => one_half * (vat lam v1 * vat (nth v2 gradLam []) i - vat lam v2 * vat (nth v1 gradLam []) i)) in
  if (nth v2 cell 0 <? nth v1 cell 0)%nat then map Qcopp value else value.
(** DoFMaps.pyx:2225-2228 *)
Definition shapesN1e_2d (cell : list nat) : list (list Qc -> list (list Qc) -> list Qc) :=
  [shapeN1e 2 cell 0 1; shapeN1e 2 cell 1 2; shapeN1e 2 cell 2 0].
