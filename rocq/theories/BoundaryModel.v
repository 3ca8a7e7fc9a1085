(** Model of the boundary extraction routines of fem/PyNucleus_fem/meshCy.pyx.

    Simplifications as in MeshModel. A python set is the list of its elements;
    the order in which it is iterated is not specified, hence an argument
    [order] of the routines that iterate one. *)
From Verif Require Import Util Lin MeshModel.

(** [try: s.remove(k) except KeyError: s.add(k)] *)
Section Set_.
  Context {K : Type}.
  Variable eqb : K -> K -> bool.
  Fixpoint sremove (s : list K) (k : K) : res (list K) :=
    match s with
    | [] => Err EKey
    | k' :: s => if eqb k' k then Ok s else s <- sremove s k ;; Ok (k' :: s)
    end.
  Definition sadd (s : list K) (k : K) : list K := if existsb (eqb k) s then s else s ++ [k].
  Definition toggle (k : K) (s : list K) : res (list K) :=
    match sremove s k with
    | Err EKey => Ok (sadd s k)
    | r => r
    end.
End Set_.

(** meshCy.pyx:1791-1808 *)
Definition boundaryVertices (order : list nat -> list nat) (cells : list (list nat)) : res (list nat) :=
  bvertices <- for_range 0 (length cells) (fun i s =>
     c0 <- get2 cells i 0 ;; c1 <- get2 cells i 1 ;;
     s <- toggle Nat.eqb c0 s ;;
     toggle Nat.eqb c1 s) [] ;;
  Ok (order bvertices).

(** [try: del d[k] except KeyError: d[k] = v] *)
Definition toggle_item {K V} (eqb : K -> K -> bool) (k : K) (v : V) (d : list (K * V)) : res (list (K * V)) :=
  match ddel eqb d k with
  | Err EKey => Ok (dset eqb d k v)
  | r => r
  end.

(** meshCy.pyx:1842-1846, 1868-1872: the edge in the direction stored *)
Definition oriented (hv : Z) (orientation : bool) : list nat :=
  let e0 := dec hv in
  if orientation then [fst e0; snd e0] else [snd e0; fst e0].

(** meshCy.pyx:1811-1848, returnBoundaryCells=False *)
Definition boundaryEdges (cells : list (list nat)) : res (list (list nat)) :=
  bedges <- for_range 0 (length cells) (fun cellNo bedges =>
     c0 <- get2 cells cellNo 0 ;; c1 <- get2 cells cellNo 1 ;; c2 <- get2 cells cellNo 2 ;;
     let temp := [sortE c0 c1; sortE c1 c2; sortE c2 c0] in
     for_range 0 3 (fun k bedges =>
       e <- aget temp k ;; ck <- get2 cells cellNo k ;;
       toggle_item Z.eqb (enc e) (ck =? fst e) bedges) bedges) [] ;;
  '(mv, _) <- for_list (map fst bedges) (fun hv st =>
     orientation <- dget Z.eqb bedges hv ;;
     mv <- put_row (fst st) (snd st) (oriented hv orientation) ;;
     Ok (mv, S (snd st))) (alloc2 (length bedges) 2, 0) ;;
  all_init2 mv.

(** meshCy.pyx:1849-1874, returnBoundaryCells=True *)
Definition boundaryEdgesCells (cells : list (list nat)) : res (list (list nat) * list nat) :=
  bedges <- for_range 0 (length cells) (fun cellNo bedges =>
     c0 <- get2 cells cellNo 0 ;; c1 <- get2 cells cellNo 1 ;; c2 <- get2 cells cellNo 2 ;;
     let temp := [sortE c0 c1; sortE c1 c2; sortE c2 c0] in
     for_range 0 3 (fun k bedges =>
       e <- aget temp k ;; ck <- get2 cells cellNo k ;;
       toggle_item Z.eqb (enc e) (ck =? fst e, cellNo) bedges) bedges) [] ;;
  '(mv, bcells, _) <- for_list (map fst bedges) (fun hv st =>
     let '(mv, bcells, i) := st in
     '(orientation, cellNo) <- dget Z.eqb bedges hv ;;
     bcells <- wr bcells i cellNo ;;
     mv <- put_row mv i (oriented hv orientation) ;;
     Ok (mv, bcells, S i)) (alloc2 (length bedges) 2, alloc (length bedges), 0) ;;
  mv <- all_init2 mv ;; bcells <- all_init bcells ;;
  Ok (mv, bcells).

(** meshCy.pyx:1877-1892 *)
Definition boundaryVerticesFromBoundaryEdges (order : list nat -> list nat) (bedges : list (list nat)) : res (list nat) :=
  bvertices <- for_range 0 (length bedges) (fun i s =>
     a <- get2 bedges i 0 ;; b <- get2 bedges i 1 ;;
     Ok (sadd Nat.eqb (sadd Nat.eqb s a) b)) [] ;;
  '(bv, k) <- for_list (order bvertices) (fun i st =>
     bv <- wr (fst st) (snd st) i ;; Ok (bv, S (snd st))) (alloc (length bvertices), 0) ;;
  _ <- guard (k =? length bvertices) EAssert ;;
  all_init bv.

(** ** Faces *)
Definition fcode := (Z * Z)%type.
Definition fcode_eqb (a b : fcode) : bool := Z.eqb (fst a) (fst b) && Z.eqb (snd a) (snd b).
Definition encF (f : nat * nat * nat) : fcode :=
  let '(a, b, c) := f in encode_face (Z.of_nat a, Z.of_nat b, Z.of_nat c).
Definition decF (hv : fcode) : list nat :=
  let '(a, b, c) := decode_face 32 hv in [Z.to_nat a; Z.to_nat b; Z.to_nat c].

(** meshCy.pyx:1912-1915, 1952-1955 *)
Definition cell_faces (v0 v1 v2 v3 : nat) : list (nat * nat * nat) :=
  [sortFace Nat.ltb v0 v1 v2; sortFace Nat.ltb v0 v1 v3; sortFace Nat.ltb v0 v2 v3; sortFace Nat.ltb v1 v2 v3].

(** meshCy.pyx:1895-1928 *)
Definition boundaryFaces (order : list fcode -> list fcode) (cells : list (list nat)) : res (list (list nat)) :=
  bfaces <- for_range 0 (length cells) (fun i s =>
     v0 <- get2 cells i 0 ;; v1 <- get2 cells i 1 ;; v2 <- get2 cells i 2 ;; v3 <- get2 cells i 3 ;;
     for_list (cell_faces v0 v1 v2 v3) (fun f s => toggle fcode_eqb (encF f) s) s) [] ;;
  '(mv, _) <- for_list (order bfaces) (fun hv st =>
     mv <- put_row (fst st) (snd st) (decF hv) ;; Ok (mv, S (snd st))) (alloc2 (length bfaces) 3, 0) ;;
  all_init2 mv.

(** ** Faces with orientation *)
Definition third : Qc := Q2Qc (1 # 3).
Definition quarter : Qc := Q2Qc (1 # 4).

(** meshCy.pyx:1973-1975 *)
Definition face_normal (x y : list Qc) : list Qc :=
  [vat x 1 * vat y 2 - vat x 2 * vat y 1; vat x 2 * vat y 0 - vat x 0 * vat y 2; vat x 0 * vat y 1 - vat x 1 * vat y 0]%Qc.

(** meshCy.pyx:1968-1990, for one face *)
Definition orient_face (vertices : list (list Qc)) (cells : list (list nat)) (f : list nat) (cellNo : nat) : res (list nat) :=
  f0 <- aget f 0 ;; f1 <- aget f 1 ;; f2 <- aget f 2 ;;
  x <- for_range 0 3 (fun j x => p <- get2 vertices f1 j ;; q <- get2 vertices f0 j ;; wr x j (p - q)%Qc) (alloc 3) ;;
  y <- for_range 0 3 (fun j y => p <- get2 vertices f2 j ;; q <- get2 vertices f0 j ;; wr y j (p - q)%Qc) (alloc 3) ;;
  x <- all_init x ;; y <- all_init y ;;
  let n2 := face_normal x y in
  n1 <- for_range 0 3 (fun j n1 =>
     xj <- for_list f (fun fk s => p <- get2 vertices fk j ;; Ok (s + p)%Qc) 0%Qc ;;
     let xj := (xj * third)%Qc in
     yj <- for_range 0 4 (fun k s => c <- get2 cells cellNo k ;; p <- get2 vertices c j ;; Ok (s - p)%Qc) 0%Qc ;;
     let yj := (yj * quarter)%Qc in
     wr n1 j (xj - yj)%Qc) (alloc 3) ;;
  n1 <- all_init n1 ;;
  if qlt (dotf 3 (vat n2) (vat n1)) 0%Qc then Ok [f0; f2; f1] else Ok [f0; f1; f2].

(** meshCy.pyx:1931-1993; the arithmetic, with a division by 3., is exact here *)
Definition boundaryFacesWithOrientation (vertices : list (list Qc)) (cells : list (list nat)) : res (list (list nat)) :=
  bfaces <- for_range 0 (length cells) (fun i d =>
     v0 <- get2 cells i 0 ;; v1 <- get2 cells i 1 ;; v2 <- get2 cells i 2 ;; v3 <- get2 cells i 3 ;;
     for_list (cell_faces v0 v1 v2 v3) (fun f d => toggle_item fcode_eqb (encF f) i d) d) [] ;;
  '(mv, _) <- for_list (map fst bfaces) (fun hv st =>
     cellNo <- dget fcode_eqb bfaces hv ;;
     f <- orient_face vertices cells (decF hv) cellNo ;;
     mv <- put_row (fst st) (snd st) f ;; Ok (mv, S (snd st))) (alloc2 (length bfaces) 3, 0) ;;
  all_init2 mv.

(** meshCy.pyx:1996-2022 *)
Definition boundaryEdgesFromBoundaryFaces (order : list Z -> list Z) (bfaces : list (list nat)) : res (list (list nat)) :=
  bedges <- for_range 0 (length bfaces) (fun i s =>
     c0 <- get2 bfaces i 0 ;; c1 <- get2 bfaces i 1 ;; c2 <- get2 bfaces i 2 ;;
     Ok (sadd Z.eqb (sadd Z.eqb (sadd Z.eqb s (enc (sortE c0 c1))) (enc (sortE c0 c2))) (enc (sortE c1 c2)))) [] ;;
  '(mv, _) <- for_list (order bedges) (fun hv st =>
     mv <- put_row (fst st) (snd st) [fst (dec hv); snd (dec hv)] ;; Ok (mv, S (snd st))) (alloc2 (length bedges) 2, 0) ;;
  all_init2 mv.
