(** Model of the regular and irregular partitioners of vertices, fem/PyNucleus_fem/meshPartitioning.pyx (cited as MP),
    and of the numbering of sub-domains, fem/PyNucleus_fem/splitting.pyx (cited as SP).

    Simplifications, used throughout this file.
    - Coordinates are exact rationals.  [w] of MP:211-217 is a float in the code;
      here it is an integer.
    - A PartitionerException is the error [EValue].
    - Numbers of partitions are natural numbers; numPartitionsPerDim has an entry
      for every dimension that is read.
    - Partitioners made from meshes and DoFMaps call these with the coordinates
      of vertices, centers or nodes (MP:282-334); those are parameters. *)
From Verif Require Import Util Lin.
From Coq Require Import Qround.
Local Open Scope nat_scope.

(** partition2sparseGraph, MP:24-45: indptr and indices *)
Definition partition2sparseGraph (partition : list nat) (numPartitions : nat) : res (list nat * list nat) :=
  let numVertices := length partition in
  let incr (a : list nat) (p : nat) := v <- aget a p ;; aset a p (v + 1) in
  indptr <- for_range 0 numVertices (fun i a => p <- aget partition i ;; incr a (p + 1)) (repeat 0 (numPartitions + 1)) ;;
  indptr <- for_range 1 (numPartitions + 1) (fun i a => u <- aget a (i - 1) ;; v <- aget a i ;; aset a i (v + u)) indptr ;;
  '(indptr, indices) <- for_range 0 numVertices (fun i '(a, b) =>
    pos <- aget partition i ;; k <- aget a pos ;; b' <- wr b k i ;; a' <- incr a pos ;; Ok (a', b'))
    (indptr, alloc numVertices) ;;
  indptr <- for_range_down numPartitions 0 (fun i a => v <- aget a (i - 1) ;; aset a i v) indptr ;;
  indptr <- aset indptr 0 0 ;;
  indices <- all_init indices ;;
  Ok (indptr, indices).

(** createSubdomains, SP:145-176, from the rounded values of the indicator in the cells.
    The loops are those of partition2sparseGraph, but for [indices], which is zero. *)
Definition zmin (l : list Z) : res Z := match l with [] => Err EValue | x :: l => Ok (fold_left Z.min l x) end.
Definition zmax (l : list Z) : res Z := match l with [] => Err EValue | x :: l => Ok (fold_left Z.max l x) end.
Definition createSubdomains (cell2subdomain : list Z) : res (nat * (list nat * list nat)) :=
  let subdomains := nodup Z.eq_dec cell2subdomain in
  lo <- zmin subdomains ;;
  _ <- guard (lo =? 0)%Z EAssert ;;
  hi <- zmax subdomains ;;
  _ <- guard (Z.of_nat (length subdomains) =? hi + 1)%Z EAssert ;;
  let num_subdomains := length subdomains in
  g <- partition2sparseGraph (map Z.to_nat cell2subdomain) num_subdomains ;;
  Ok (num_subdomains, g).

(** getBoundingBox, MP:138-150; [None] is an infinity *)
Definition qmin (m : option Qc) (v : Qc) : option Qc := match m with None => Some v | Some m => Some (if Qclt_le_dec v m then v else m) end.
Definition qmax (m : option Qc) (v : Qc) : option Qc := match m with None => Some v | Some m => Some (if Qclt_le_dec m v then v else m) end.
Definition coord (vertices : list (list Qc)) (i j : nat) : res Qc := v <- aget vertices i ;; aget v j.
Definition getBoundingBox (dim : nat) (vertices : list (list Qc)) : res (list (option Qc) * list (option Qc)) :=
  for_range 0 (length vertices) (fun k st => for_range 0 dim (fun j '(mins, maxs) =>
    x <- coord vertices k j ;;
    m <- aget mins j ;; mins' <- aset mins j (qmin m x) ;;
    m <- aget maxs j ;; maxs' <- aset maxs j (qmax m x) ;;
    Ok (mins', maxs')) st) (repeat None dim, repeat None dim).

(** primes, MP:161-171: the inner loop divides as often as possible *)
Fixpoint divide_out (fuel d n : nat) (primfac : list nat) : res (nat * list nat) :=
  match fuel with
  | O => Err EFuel
  | S fuel => if n mod d =? 0 then divide_out fuel d (n / d) (primfac ++ [d]) else Ok (n, primfac)
  end.
Fixpoint primes_loop (fuel d n : nat) (primfac : list nat) : res (nat * list nat) :=
  match fuel with
  | O => Err EFuel
  | S fuel =>
      if d * d <=? n then '(n, primfac) <- divide_out (S n) d n primfac ;; primes_loop fuel (d + 1) n primfac
      else Ok (n, primfac)
  end.
Definition primes (n : nat) : res (list nat) :=
  '(n, primfac) <- primes_loop (S n) 2 n [] ;; Ok (if 1 <? n then primfac ++ [n] else primfac).
(** sorted(..., reverse=True) *)
Fixpoint insert_down (p : nat) (l : list nat) : list nat :=
  match l with [] => [p] | q :: l' => if q <? p then p :: l else q :: insert_down p l' end.
Definition sort_down (l : list nat) : list nat := fold_right insert_down [] l.
(** n/extend: [None] is infinite; without vertices extend is -inf and n/extend zero *)
Definition ratio (n : nat) (lo hi : option Qc) : option Qc :=
  match lo, hi with
  | Some lo, Some hi => if Qc_eq_dec (hi - lo) 0 then None else Some (qz (Z.of_nat n) / (hi - lo))%Qc
  | _, _ => Some 0%Qc
  end.
Definition rless (a b : option Qc) : bool :=
  match a, b with
  | Some a, Some b => if Qclt_le_dec a b then true else false
  | Some _, None => true
  | None, _ => false
  end.
(** np.argmin: the first of the smallest; [i] is the number of [x], [q] that of the smallest so far *)
Fixpoint argmin_from (l : list (option Qc)) (i : nat) (m : option Qc) (q : nat) : nat :=
  match l with [] => q | x :: l => if rless x m then argmin_from l (S i) x i else argmin_from l (S i) m q end.
Definition argmin (l : list (option Qc)) : res nat :=
  match l with [] => Err EValue | x :: l => Ok (argmin_from l 1 x 0) end.
(** balancePartitions, MP:152-181 *)
Definition balancePartitions (dim : nat) (vertices : list (list Qc)) (partitionedDimensions : option nat) (numPartitions : nat) : res (list nat) :=
  let pd := match partitionedDimensions with None => dim | Some k => k end in
  '(mins, maxs) <- getBoundingBox dim vertices ;;
  fs <- primes numPartitions ;;
  for_list (sort_down fs) (fun p per =>
    q <- argmin (firstn pd (map (fun '(n, (lo, hi)) => ratio n lo hi) (combine per (combine mins maxs)))) ;;
    n <- aget per q ;; aset per q (n * p)) (repeat 1 dim).

Definition prod (l : list nat) : nat := fold_right Nat.mul 1 l.
Definition delta : Qc := Q2Qc (1 # 100000).
Definition getc (x : option Qc) : res Qc := match x with Some x => Ok x | None => Err EValue end.
(** partitionVertices, MP:183-223, with irregular=False, for a new partitioner.  The
    bounds are read only if there is a vertex. *)
Definition partitionVertices (dim : nat) (vertices : list (list Qc)) (partitionedDimensions : option nat) (numPartitionsPerDim : option (list nat))
    (numPartitions : nat) : res (list nat * nat) :=
  per <- (match numPartitionsPerDim with None => balancePartitions dim vertices partitionedDimensions numPartitions | Some per => Ok per end) ;;
  let numPartitionsTotal := prod per in
  '(mins, maxs) <- getBoundingBox dim vertices ;;
  '(part, counter) <- for_range 0 (length vertices) (fun i '(part, counter) =>
    w <- for_range 0 dim (fun j w =>
      x <- coord vertices i j ;; lo <- aget mins j ;; lo <- getc lo ;; hi <- aget maxs j ;; hi <- getc hi ;; n <- aget per j ;;
      let z := Qfloor ((x - lo) / (hi + delta - lo) * qz (Z.of_nat n))%Qc in
      z <- for_range 0 j (fun k z => m <- aget per k ;; Ok (z * Z.of_nat m)%Z) z ;;
      Ok (w + z)%Z) 0%Z ;;
    _ <- guard (0 <=? w)%Z EOob ;;
    let q := Z.to_nat w in
    part' <- wr part i q ;; c <- aget counter q ;; counter' <- aset counter q (c + 1) ;;
    Ok (part', counter')) (alloc (length vertices), repeat 0 numPartitionsTotal) ;;
  _ <- guard (negb (numPartitionsTotal =? 0) && forallb (fun c => negb (c =? 0)) counter) EValue ;;
  part <- all_init part ;;
  Ok (part, length (nodup Nat.eq_dec part)).

(** np.quantile(c, np.linspace(0, 1, m+1)[1:m]): linear interpolation of the sorted values
    at the places j*(n-1)/m *)
Fixpoint insert_up (x : Qc) (l : list Qc) : list Qc :=
  match l with [] => [x] | y :: l' => if Qclt_le_dec y x then y :: insert_up x l' else x :: l end.
Definition sort_up (l : list Qc) : list Qc := fold_right insert_up [] l.
Definition quantiles (c : list Qc) (m : nat) : res (list Qc) :=
  let s := sort_up c in let n := length c in
  if n =? 0 then Err EIndex else
  for_list (seq 1 (m - 1)) (fun j bs =>
    let i := j * (n - 1) / m in
    lo <- aget s i ;; hi <- aget s (Nat.min (i + 1) (n - 1)) ;;
    Ok (bs ++ [lo + (hi - lo) * (qz (Z.of_nat (j * (n - 1) mod m)) / qz (Z.of_nat m))]%Qc)) [].
(** MP:243-248, 254-259: [for j in range(m-1): if x < boundaries[j]: ... break / else: m-1] *)
Fixpoint slot (x : Qc) (boundaries : list Qc) (j : nat) (fuel : nat) : res nat :=
  match fuel with
  | O => Ok j
  | S fuel => b <- aget boundaries j ;; if Qclt_le_dec x b then Ok j else slot x boundaries (S j) fuel
  end.
(** partitionDim, MP:225-266; [rem] is dim-1-d, and [quantile] is np.quantile above.
    It returns the number of partitions and the array [part]. *)
Fixpoint partitionDim (quantile : list Qc -> nat -> res (list Qc)) (vertices : list (list Qc)) (per : list nat) (rem : nat)
    (part : list (option nat)) (idx : list nat) (d offset : nat) : res (nat * list (option nat)) :=
  m <- aget per d ;;
  _ <- guard (negb (m =? 0)) EOob ;;
  c <- for_list idx (fun k c => x <- coord vertices k d ;; Ok (c ++ [x])) [] ;;
  boundaries <- quantile c m ;;
  match rem with
  | O =>
      part <- for_list idx (fun k part => x <- coord vertices k d ;; j <- slot x boundaries 0 (m - 1) ;; wr part k (offset + j)) part ;;
      Ok (m, part)
  | S rem =>
      lists <- for_list idx (fun k lists => x <- coord vertices k d ;; j <- slot x boundaries 0 (m - 1) ;; l <- aget lists j ;; aset lists j (l ++ [k])) (repeat [] m) ;;
      '(_, created, part) <- for_list lists (fun idx2 '(offset, created, part) =>
        '(num, part) <- partitionDim quantile vertices per rem part idx2 (d + 1) offset ;;
        Ok (offset + num, created + num, part)) (offset, 0, part) ;;
      Ok (created, part)
  end.
(** partitionVerticesIrregular, MP:268-279 *)
Definition partitionVerticesIrregular (quantile : list Qc -> nat -> res (list Qc)) (dim : nat) (vertices : list (list Qc)) (partitionedDimensions : option nat)
    (numPartitionsPerDim : option (list nat)) (numPartitions : nat) : res (list nat * nat) :=
  per <- (match numPartitionsPerDim with None => balancePartitions dim vertices partitionedDimensions numPartitions | Some per => Ok per end) ;;
  '(num, part) <- partitionDim quantile vertices per (dim - 1) (alloc (length vertices)) (seq 0 (length vertices)) 0 0 ;;
  part <- all_init part ;;
  Ok (part, num).
