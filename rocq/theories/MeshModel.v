(** Model of the mesh routines of fem/PyNucleus_fem/meshCy.pyx: edge and face
    encodings and uniform refinement.

    Simplifications: vertex numbers are natural numbers (a mesh has no negative
    ones), coordinates are exact rationals, two-dimensional arrays are lists of
    rows, 32-bit overflow of the vertex count is not modelled. A python
    dictionary is the list of its items in the order of insertion. Arrays that
    are returned are read completely, so returning uninitialised memory is
    [EUninit]. *)
From Verif Require Import Util Lin TupleDictModel.

(** ** Encodings *)

(** myTypes32.pxd:12 and myTypes64.pxd:12: ENCODE_t is int64_t; conversion to a
    signed integer type with [bits] bits *)
Definition signed (bits : Z) (z : Z) : Z := ((z + 2 ^ (bits - 1)) mod 2 ^ bits - 2 ^ (bits - 1))%Z.

(** meshCy.pyx:790 *)
Definition MAX_VAL_EDGE : Z := 2147483648.

(** meshCy.pyx:793-794 *)
Definition encode_edge (e : Z * Z) : Z := signed 64 (MAX_VAL_EDGE * fst e + snd e).

(** meshCy.pyx:801-803, compiled with cdivision=True; [bits] is the size of INDEX_t *)
Definition decode_edge (bits : Z) (encodeVal : Z) : Z * Z :=
  (signed bits (Z.quot encodeVal MAX_VAL_EDGE), signed bits (Z.rem encodeVal MAX_VAL_EDGE)).

(** meshCy.pyx:825-826; the python tuple holds two integers *)
Definition encode_face (f : Z * Z * Z) : Z * Z :=
  let '(f0, f1, f2) := f in (f0, signed 64 (MAX_VAL_EDGE * f1 + f2)).

(** meshCy.pyx:829-832; the second component is a python integer, but the
    divisor is not negative, and neither is it *)
Definition decode_face (bits : Z) (encodeVal : Z * Z) : Z * Z * Z :=
  (signed bits (fst encodeVal), signed bits (snd encodeVal / MAX_VAL_EDGE), signed bits (snd encodeVal mod MAX_VAL_EDGE)).

Section Sort.
  Context {A : Type}.
  Variable lt : A -> A -> bool.
  Local Notation "a < b" := (lt a b).

  (** meshCy.pyx:812-816 *)
  Definition sortEdge (c0 c1 : A) : A * A := if c0 < c1 then (c0, c1) else (c1, c0).

  (** meshCy.pyx:839-856 *)
  Definition sortFace (c0 c1 c2 : A) : A * A * A :=
    if c0 < c1 then
      if c0 < c2 then
        if c1 < c2 then (c0, c1, c2) else (c0, c2, c1)
      else (c2, c0, c1)
    else
      if c1 < c2 then
        if c0 < c2 then (c1, c0, c2) else (c1, c2, c0)
      else (c2, c1, c0).
End Sort.

(** ** Python dictionaries *)
Section Dict.
  Context {K V : Type}.
  Variable eqb : K -> K -> bool.
  Fixpoint dget (d : list (K * V)) (k : K) : res V :=
    match d with
    | [] => Err EKey
    | (k', v) :: d => if eqb k' k then Ok v else dget d k
    end.
  Fixpoint dset (d : list (K * V)) (k : K) (v : V) : list (K * V) :=
    match d with
    | [] => [(k, v)]
    | (k', w) :: d => if eqb k' k then (k', v) :: d else (k', w) :: dset d k v
    end.
  Fixpoint ddel (d : list (K * V)) (k : K) : res (list (K * V)) :=
    match d with
    | [] => Err EKey
    | (k', w) :: d => if eqb k' k then Ok d else d <- ddel d k ;; Ok ((k', w) :: d)
    end.
End Dict.

(** ** Two-dimensional arrays *)
Definition get2 {A} (l : list (list A)) (i k : nat) : res A := r <- aget l i ;; aget r k.
Definition rd2 {A} (l : list (buf A)) (i k : nat) : res A := r <- aget l i ;; rd r k.
Definition wr2 {A} (l : list (buf A)) (i k : nat) (x : A) : res (list (buf A)) :=
  r <- aget l i ;; r <- wr r k x ;; aset l i r.
Definition alloc2 {A} (n k : nat) : list (buf A) := repeat (alloc k) n.
Fixpoint all_init2 {A} (l : list (buf A)) : res (list (list A)) :=
  match l with
  | [] => Ok []
  | r :: l => r <- all_init r ;; l <- all_init2 l ;; Ok (r :: l)
  end.
(** [new_cells[i, 0], new_cells[i, 1], ... = c] *)
Definition put_row {A} (l : list (buf A)) (i : nat) (c : list A) : res (list (buf A)) :=
  for_range 0 (length c) (fun k l => x <- aget c k ;; wr2 l i k x) l.

Definition edge := (nat * nat)%type.
Definition edge_eqb (e f : edge) : bool := (fst e =? fst f) && (snd e =? snd f).
Definition sortE (c0 c1 : nat) : edge := sortEdge Nat.ltb c0 c1.
Definition enc (e : edge) : Z := encode_edge (Z.of_nat (fst e), Z.of_nat (snd e)).
Definition dec (hv : Z) : edge := let e := decode_edge 32 hv in (Z.to_nat (fst e), Z.to_nat (snd e)).

(** ** The common parts of the refinement routines *)
Definition one_half : Qc := Q2Qc (1 # 2).

(** meshCy.pyx:887-889, 1028-1030, 1085-1087, 1162-1164, 1369-1371: copy over old
    vertices *)
Definition copy_vertices (dim : nat) (vertices : list (list Qc)) (new : list (buf Qc)) : res (list (buf Qc)) :=
  for_range 0 (length vertices) (fun i new =>
    for_range 0 dim (fun k new => x <- get2 vertices i k ;; wr2 new i k x) new) new.

(** meshCy.pyx:892-893, 1033-1034, 1093-1094, 1169-1170, 1375-1376: the midpoint of
    edge e becomes vertex j *)
Definition set_midpoint (dim : nat) (vertices : list (list Qc)) (e : edge) (j : nat) (new : list (buf Qc)) : res (list (buf Qc)) :=
  for_range 0 dim (fun k new =>
    x <- get2 vertices (fst e) k ;; y <- get2 vertices (snd e) k ;;
    wr2 new j k ((x + y) * one_half)%Qc) new.

(** ** Refinement of 1D meshes *)

(** meshCy.pyx:863-903 *)
Definition refineCy1D (dim : nat) (vertices : list (list Qc)) (cells : list (list nat))
    : res (list (list Qc) * list (list nat) * list (Z * nat)) :=
  let num_vertices := length vertices in
  let num_cells := length cells in
  '(lookup, new_num_vertices) <- for_range 0 num_cells (fun i st =>
     c0 <- get2 cells i 0 ;; c1 <- get2 cells i 1 ;;
     Ok (dset Z.eqb (fst st) (enc (sortE c0 c1)) (snd st), S (snd st))) ([], num_vertices) ;;
  new <- copy_vertices dim vertices (alloc2 new_num_vertices dim) ;;
  new <- for_list lookup (fun hj new => set_midpoint dim vertices (dec (fst hj)) (snd hj) new) new ;;
  nc <- for_range 0 num_cells (fun i nc =>
     c0 <- get2 cells i 0 ;; c1 <- get2 cells i 1 ;;
     nv0 <- dget Z.eqb lookup (enc (sortE c0 c1)) ;;
     nc <- put_row nc (2 * i) [c0; nv0] ;;
     put_row nc (2 * i + 1) [nv0; c1]) (alloc2 (2 * num_cells) 2) ;;
  new <- all_init2 new ;; nc <- all_init2 nc ;;
  Ok (new, nc, lookup).

(** ** Refinement of 2D meshes *)

(** meshCy.pyx:1045-1048, 1105-1108, 1184-1187 *)
Definition put_children2 (i c0 c1 c2 nv0 nv1 nv2 : nat) (nc : list (buf nat)) : res (list (buf nat)) :=
  nc <- put_row nc (4 * i) [c0; nv0; nv2] ;;
  nc <- put_row nc (4 * i + 1) [c1; nv1; nv0] ;;
  nc <- put_row nc (4 * i + 2) [c2; nv2; nv1] ;;
  put_row nc (4 * i + 3) [nv0; nv1; nv2].

(** meshCy.pyx:969-975 *)
Definition compareEdges (a b : edge) : Z :=
  let s := fun x y : nat => (Z.b2z (y <? x)%nat - Z.b2z (x <? y)%nat)%Z in
  (2 * s (fst a) (fst b) + s (snd a) (snd b))%Z.

(** meshCy.pyx:987-1049; [qsort] is the C library function on the rows of edges,
    called with compareEdges *)
Definition refineCy2Dsort (qsort : list edge -> list edge) (vertices : list (list Qc)) (cells : list (list nat))
    : res (list (list Qc) * list (list nat) * list (Z * nat)) :=
  let num_vertices := length vertices in
  let num_cells := length cells in
  edges <- for_range 0 num_cells (fun i edges =>
     c0 <- get2 cells i 0 ;; c1 <- get2 cells i 1 ;; c2 <- get2 cells i 2 ;;
     edges <- wr edges (3 * i) (sortE c0 c1) ;;
     edges <- wr edges (3 * i + 1) (sortE c0 c2) ;;
     wr edges (3 * i + 2) (sortE c1 c2)) (alloc (3 * num_cells)) ;;
  edges <- all_init edges ;;
  let edges := qsort edges in
  '(lookup, new_num_vertices, _) <- for_range 0 (3 * num_cells) (fun i st =>
     e <- aget edges i ;;
     let '(lookup, new_num_vertices, hvOld) := st in
     let hv := enc e in
     if negb (Z.eqb hv hvOld) then Ok (dset Z.eqb lookup hv new_num_vertices, S new_num_vertices, hv)
     else Ok st) ([], num_vertices, 0%Z) ;;
  new <- copy_vertices 2 vertices (alloc2 new_num_vertices 2) ;;
  new <- for_list lookup (fun hj new => set_midpoint 2 vertices (dec (fst hj)) (snd hj) new) new ;;
  nc <- for_range 0 num_cells (fun i nc =>
     c0 <- get2 cells i 0 ;; c1 <- get2 cells i 1 ;; c2 <- get2 cells i 2 ;;
     nv0 <- dget Z.eqb lookup (enc (sortE c0 c1)) ;;
     nv1 <- dget Z.eqb lookup (enc (sortE c1 c2)) ;;
     nv2 <- dget Z.eqb lookup (enc (sortE c0 c2)) ;;
     put_children2 i c0 c1 c2 nv0 nv1 nv2 nc) (alloc2 (4 * num_cells) 3) ;;
  new <- all_init2 new ;; nc <- all_init2 nc ;;
  Ok (new, nc, lookup).

(** The edge dictionary tupleDictINDEX(num_vertices, deleteHits=False): initial
    length 0, increment 3, 8-bit row lengths, marker 2^31 - 1 *)
Definition eV_init (num_vertices : nat) : tdict Z := td_init Z num_vertices 0 3 false false.
Definition eV_enter (eV : tdict Z) (e : edge) (v : nat) : res (tdict Z * Z) :=
  enterValue Z Z.lor 256 eV (fst e) (Z.of_nat (snd e)) (Z.of_nat v).
Definition eV_get (eV : tdict Z) (e : edge) : res nat :=
  v <- getValue Z 2147483647%Z 256 eV (fst e) (Z.of_nat (snd e)) ;; Ok (Z.to_nat v).
(** [if eV.enterValue(e, new_num_vertices) == new_num_vertices: new_num_vertices += 1] *)
Definition eV_new (e : edge) (st : tdict Z * nat) : res (tdict Z * nat) :=
  '(eV, v) <- eV_enter (fst st) e (snd st) ;;
  Ok (eV, if Z.eqb v (Z.of_nat (snd st)) then S (snd st) else snd st).

(** [eV.startIter(); while eV.next(e, &nv): f] *)
Fixpoint while_next {S} (fuel : nat) (eV : tdict Z) (f : edge * nat -> S -> res S) (s : S) : res S :=
  match fuel with
  | O => Err EFuel
  | Datatypes.S fuel =>
      '(eV, o) <- next Z eV ;;
      match o with
      | None => Ok s
      | Some (i, j, v) => s <- f ((i, Z.to_nat j), Z.to_nat v) s ;; while_next fuel eV f s
      end
  end.
(** meshCy.pyx:1089-1094, 1372-1376 *)
Definition insert_midpoints (dim : nat) (vertices : list (list Qc)) (eV : tdict Z) (new : list (buf Qc))
    : res (list (buf Qc) * list (Z * nat)) :=
  eV <- startIter Z eV ;;
  while_next (S (Z.to_nat (nnz eV))) eV (fun ej st =>
    new <- set_midpoint dim vertices (fst ej) (snd ej) (fst st) ;;
    Ok (new, dset Z.eqb (snd st) (enc (fst ej)) (snd ej))) (new, []).

(** meshCy.pyx:1052-1109 *)
Definition refineCy2DedgeVals (dim : nat) (vertices : list (list Qc)) (cells : list (list nat))
    : res (list (list Qc) * list (list nat) * list (Z * nat)) :=
  let num_vertices := length vertices in
  let num_cells := length cells in
  '(eV, new_num_vertices) <- for_range 0 num_cells (fun i st =>
     c0 <- get2 cells i 0 ;; c1 <- get2 cells i 1 ;; c2 <- get2 cells i 2 ;;
     for_list [sortE c0 c1; sortE c0 c2; sortE c1 c2] eV_new st) (eV_init num_vertices, num_vertices) ;;
  new <- copy_vertices dim vertices (alloc2 new_num_vertices dim) ;;
  '(new, lookup) <- insert_midpoints dim vertices eV new ;;
  nc <- for_range 0 num_cells (fun i nc =>
     c0 <- get2 cells i 0 ;; c1 <- get2 cells i 1 ;; c2 <- get2 cells i 2 ;;
     nv0 <- eV_get eV (sortE c0 c1) ;;
     nv1 <- eV_get eV (sortE c1 c2) ;;
     nv2 <- eV_get eV (sortE c0 c2) ;;
     put_children2 i c0 c1 c2 nv0 nv1 nv2 nc) (alloc2 (4 * num_cells) 3) ;;
  new <- all_init2 new ;; nc <- all_init2 nc ;;
  Ok (new, nc, lookup).

(** meshCy.pyx:1137-1141, 1145-1149, 1153-1157 *)
Definition hash_new (e : edge) (st : list (edge * nat) * nat) : res (list (edge * nat) * nat) :=
  match dget edge_eqb (fst st) e with
  | Ok _ => Ok st
  | Err EKey => Ok (dset edge_eqb (fst st) e (snd st), S (snd st))
  | Err x => Err x
  end.

(** meshCy.pyx:1112-1188; the keys are intTuple objects with two entries *)
Definition refineCy2Dhash (vertices : list (list Qc)) (cells : list (list nat))
    : res (list (list Qc) * list (list nat) * list (edge * nat)) :=
  let num_vertices := length vertices in
  let num_cells := length cells in
  '(eV, new_num_vertices) <- for_range 0 num_cells (fun i st =>
     c0 <- get2 cells i 0 ;; c1 <- get2 cells i 1 ;; c2 <- get2 cells i 2 ;;
     st <- hash_new (sortE c0 c1) st ;;
     st <- hash_new (sortE c0 c2) st ;;
     hash_new (sortE c1 c2) st) ([], num_vertices) ;;
  new <- copy_vertices 2 vertices (alloc2 new_num_vertices 2) ;;
  new <- for_list eV (fun ej new => set_midpoint 2 vertices (fst ej) (snd ej) new) new ;;
  nc <- for_range 0 num_cells (fun i nc =>
     c0 <- get2 cells i 0 ;; c1 <- get2 cells i 1 ;; c2 <- get2 cells i 2 ;;
     nv0 <- dget edge_eqb eV (sortE c0 c1) ;;
     nv1 <- dget edge_eqb eV (sortE c1 c2) ;;
     nv2 <- dget edge_eqb eV (sortE c0 c2) ;;
     put_children2 i c0 c1 c2 nv0 nv1 nv2 nc) (alloc2 (4 * num_cells) 3) ;;
  new <- all_init2 new ;; nc <- all_init2 nc ;;
  Ok (new, nc, eV).

(** ** Refinement of 3D meshes *)

(** meshCy.pyx:1396-1402: squared distance of two of the new vertices; mydot
    adds the products to 0 *)
Definition diagonal2 (new : list (buf Qc)) (a b : nat) : res Qc :=
  for_range 0 3 (fun j s =>
    x <- rd2 new a j ;; y <- rd2 new b j ;;
    Ok (s + (x - y) * (x - y))%Qc) 0%Qc.

Definition qlt (a b : Qc) : bool := negb (Qle_bool b a).

(** meshCy.pyx:1413-1430: the four cells in the interior *)
Definition interior3 (l0123 l0213 l0312 : Qc) (v01 v02 v03 v12 v13 v23 : nat) : list (list nat) :=
  if qlt l0123 l0213 && qlt l0123 l0312 then
    [[v01; v12; v02; v23]; [v01; v23; v03; v13]; [v01; v02; v03; v23]; [v01; v13; v12; v23]]
  else if qlt l0213 l0312 then
    [[v01; v02; v03; v13]; [v01; v12; v02; v13]; [v02; v03; v13; v23]; [v02; v13; v12; v23]]
  else
    [[v01; v13; v12; v03]; [v03; v23; v13; v12]; [v03; v23; v12; v02]; [v01; v12; v02; v03]].

(** the edges (faces[m,0], faces[m,1]), (faces[m,1], faces[m,2]), (faces[m,0],
    faces[m,2]) of the sorted faces, meshCy.pyx:1355-1362 *)
Definition face_edges (f : nat * nat * nat) : list edge :=
  let '(f0, f1, f2) := f in [(f0, f1); (f1, f2); (f0, f2)].
Definition cell_edges3 (v0 v1 v2 v3 : nat) : list edge :=
  flat_map face_edges [sortFace Nat.ltb v0 v1 v2; sortFace Nat.ltb v0 v1 v3; sortFace Nat.ltb v0 v2 v3; sortFace Nat.ltb v1 v2 v3].

(** meshCy.pyx:1314-1432 *)
Definition refineCy3DedgeVals (vertices : list (list Qc)) (cells : list (list nat))
    : res (list (list Qc) * list (list nat) * list (Z * nat)) :=
  let num_vertices := length vertices in
  let num_cells := length cells in
  '(eV, new_num_vertices) <- for_range 0 num_cells (fun i st =>
     v0 <- get2 cells i 0 ;; v1 <- get2 cells i 1 ;; v2 <- get2 cells i 2 ;; v3 <- get2 cells i 3 ;;
     for_list (cell_edges3 v0 v1 v2 v3) eV_new st) (eV_init num_vertices, num_vertices) ;;
  new <- copy_vertices 3 vertices (alloc2 new_num_vertices 3) ;;
  '(new, lookup) <- insert_midpoints 3 vertices eV new ;;
  nc <- for_range 0 num_cells (fun i nc =>
     v0 <- get2 cells i 0 ;; v1 <- get2 cells i 1 ;; v2 <- get2 cells i 2 ;; v3 <- get2 cells i 3 ;;
     v01 <- eV_get eV (sortE v0 v1) ;; v02 <- eV_get eV (sortE v0 v2) ;; v03 <- eV_get eV (sortE v0 v3) ;;
     v12 <- eV_get eV (sortE v1 v2) ;; v13 <- eV_get eV (sortE v1 v3) ;; v23 <- eV_get eV (sortE v2 v3) ;;
     l0123 <- diagonal2 new v01 v23 ;;
     l0213 <- diagonal2 new v02 v13 ;;
     l0312 <- diagonal2 new v03 v12 ;;
     nc <- put_row nc (8 * i) [v0; v01; v02; v03] ;;
     nc <- put_row nc (8 * i + 1) [v01; v1; v12; v13] ;;
     nc <- put_row nc (8 * i + 2) [v02; v12; v2; v23] ;;
     nc <- put_row nc (8 * i + 3) [v03; v13; v23; v3] ;;
     let inner := interior3 l0123 l0213 l0312 v01 v02 v03 v12 v13 v23 in
     for_range 0 4 (fun k nc => c <- aget inner k ;; put_row nc (8 * i + 4 + k) c) nc) (alloc2 (8 * num_cells) 4) ;;
  new <- all_init2 new ;; nc <- all_init2 nc ;;
  Ok (new, nc, lookup).
