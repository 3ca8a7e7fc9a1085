(** Model of the index sets of base/PyNucleus_base/tupleDict.pyx.

    An index array is a list of optional cells (a cell that was never written
    is [None]); reading or writing outside the array is [EOob].  Counters are
    natural numbers (they are bounded by the array lengths).  Elements are
    integers; the only place where their 32-bit width matters is the
    comparison function given to qsort, where the wrap is written out. *)
From Verif Require Import Util.

(** int32 value of an integer (two's complement) *)
Definition wrap32 (x : Z) : Z := ((x + 2^31) mod 2^32 - 2^31)%Z.

(** tupleDict.pyx:145-149 *)
Definition compareIndices (a b : Z) : Z := wrap32 (a - b).

(** The C library's qsort with this comparison function, modelled by insertion
    sort.  Any sorting algorithm gives the same array of integers when the
    comparison is a total order; when it is not, C leaves the result
    unspecified and this is one possible result. *)
Fixpoint qinsert (x : Z) (l : list Z) : list Z :=
  match l with
  | [] => [x]
  | y :: t => if (compareIndices x y <=? 0)%Z then x :: l else y :: qinsert x t
  end.
Fixpoint qsort (l : list Z) : list Z :=
  match l with [] => [] | x :: t => qinsert x (qsort t) end.

(** tupleDict.pyx:152-159; None models the default argument *)
Definition ais_init (indexArray : option (list Z)) (sorted : bool) : buf Z :=
  match indexArray with
  | Some a => map Some (if sorted then a else qsort a)
  | None => []
  end.

(** tupleDict.pyx:166-170 and 187-191: linear search, also used by
    unsortedArrayIndexSet (lines 405-419) *)
Fixpoint ais_linear (A : buf Z) (n mid : nat) (i : Z) : res (option nat) :=
  match n with
  | O => Ok None
  | S n' => x <- rd A mid ;; if Z.eqb x i then Ok (Some mid) else ais_linear A n' (S mid) i
  end.

(** tupleDict.pyx:171-180 and 192-201: bisection *)
Fixpoint ais_bisect (fuel : nat) (A : buf Z) (low high : nat) (i : Z) : res (option nat) :=
  match fuel with
  | O => Err EFuel
  | S f =>
      x <- rd A low ;;
      if negb (Z.eqb x i) then
        if high - low <=? 1 then Ok None
        else
          let mid := (low + high) / 2 in
          m <- rd A mid ;;
          if Z.leb m i then ais_bisect f A mid high i else ais_bisect f A low mid i
      else Ok (Some low)
  end.

Definition ais_search (A : buf Z) (i : Z) : res (option nat) :=
  if length A <? 20 then ais_linear A (length A) 0 i
  else ais_bisect (S (length A)) A 0 (length A) i.

(** tupleDict.pyx:161-180 *)
Definition inSet (A : buf Z) (i : Z) : res bool :=
  o <- ais_search A i ;; Ok (match o with Some _ => true | None => false end).

(** tupleDict.pyx:182-201 *)
Definition position (A : buf Z) (i : Z) : res Z :=
  o <- ais_search A i ;; Ok (match o with Some p => Z.of_nat p | None => -1 end)%Z.

(** tupleDict.pyx:405-411 and 413-419 *)
Definition uais_inSet (A : buf Z) (i : Z) : res bool :=
  o <- ais_linear A (length A) 0 i ;; Ok (match o with Some _ => true | None => false end).
Definition uais_position (A : buf Z) (i : Z) : res Z :=
  o <- ais_linear A (length A) 0 i ;; Ok (match o with Some p => Z.of_nat p | None => -1 end)%Z.

(** tupleDict.pyx:203-212; a python set is the list of its elements in the
    (arbitrary) order in which the interpreter enumerates them *)
Definition fromSet (s : list Z) : res (buf Z) :=
  '(k, A) <- for_list s (fun i st => let '(k, A) := st in A' <- wr A k i ;; Ok (S k, A')) (0, alloc (length s)) ;;
  if 1 <? k then
    vs <- for_list A (fun c acc => match c with Some x => Ok (acc ++ [x]) | None => Err EUninit end) [] ;;
    Ok (map Some (qsort vs))
  else Ok A.

(** tupleDict.pyx:421-428 *)
Definition ufromSet (s : list Z) : res (buf Z) :=
  '(k, A) <- for_list s (fun i st => let '(k, A) := st in A' <- wr A k i ;; Ok (S k, A')) (0, alloc (length s)) ;;
  Ok A.

(** tupleDict.pyx:459-476: the iterator's counter k starts at -1; [pos] is k+1 *)
Definition ais_step (A : buf Z) (pos : nat) : res (nat * option Z) :=
  if pos <? length A then x <- rd A pos ;; Ok (S pos, Some x) else Ok (S pos, None).

(** [for i in indexSet] *)
Fixpoint ais_iter (fuel : nat) (A : buf Z) (pos : nat) (acc : list Z) : res (list Z) :=
  match fuel with
  | O => Err EFuel
  | S f =>
      '(pos', o) <- ais_step A pos ;;
      match o with Some x => ais_iter f A pos' (acc ++ [x]) | None => Ok acc end
  end.
Definition ais_list (A : buf Z) : res (list Z) := ais_iter (S (length A)) A 0 [].

(** tupleDict.pyx:67-79 isSorted, on the arrayIndexSet iterator *)
Fixpoint sorted_loop (fuel : nat) (A : buf Z) (pos : nat) (i : Z) (sorted : bool) : res bool :=
  match fuel with
  | O => Err EFuel
  | S f =>
      '(pos', o) <- ais_step A pos ;;
      match o with
      | Some j => sorted_loop f A pos' j (sorted && (i <? j)%Z)
      | None => Ok sorted
      end
  end.
Definition isSorted (A : buf Z) : res bool :=
  '(pos', o) <- ais_step A 0 ;;
  match o with
  | Some i => sorted_loop (S (length A)) A pos' i true
  | None => Ok true
  end.

(** The merge loops of union (243-260, 266-284), inter (310-321, 328-340) and
    setminus (354-365, 375-387).  They differ only in which of the three cases
    (equal, first smaller, second smaller) produce an element; the flags
    [e l g] say so. *)
Section MergeLoops.
  Variables e l g : bool.
  Fixpoint count_loop (fuel : nat) (A B : buf Z) (k1 k2 k : nat) : res (nat * nat * nat) :=
    match fuel with
    | O => Err EFuel
    | S f =>
        if (k1 <? length A) && (k2 <? length B) then
          i1 <- rd A k1 ;;
          i2 <- rd B k2 ;;
          if Z.eqb i1 i2 then count_loop f A B (S k1) (S k2) (if e then S k else k)
          else if Z.ltb i1 i2 then count_loop f A B (S k1) k2 (if l then S k else k)
          else count_loop f A B k1 (S k2) (if g then S k else k)
        else Ok (k1, k2, k)
    end.
  Fixpoint write_loop (fuel : nat) (A B : buf Z) (k1 k2 k : nat) (N : buf Z) : res (nat * nat * nat * buf Z) :=
    match fuel with
    | O => Err EFuel
    | S f =>
        if (k1 <? length A) && (k2 <? length B) then
          i1 <- rd A k1 ;;
          i2 <- rd B k2 ;;
          if Z.eqb i1 i2 then
            if e then N' <- wr N k i1 ;; write_loop f A B (S k1) (S k2) (S k) N'
            else write_loop f A B (S k1) (S k2) k N
          else if Z.ltb i1 i2 then
            if l then N' <- wr N k i1 ;; write_loop f A B (S k1) k2 (S k) N'
            else write_loop f A B (S k1) k2 k N
          else
            if g then N' <- wr N k i2 ;; write_loop f A B k1 (S k2) (S k) N'
            else write_loop f A B k1 (S k2) k N
        else Ok (k1, k2, k, N)
    end.
End MergeLoops.

Definition fuel2 (A B : buf Z) : nat := S (length A + length B).

(** copy [A[from:]] to [N[k:]], the tail loops at 285-292 and 389-393 *)
Definition copy_tail (A : buf Z) (from k : nat) (N : buf Z) : res (buf Z) :=
  '(_, N') <- for_range from (length A) (fun j st =>
      let '(k, N) := st in x <- rd A j ;; N' <- wr N k x ;; Ok (S k, N')) (k, N) ;;
  Ok N'.

(** tupleDict.pyx:234-295 *)
Definition union (A B : buf Z) : res (buf Z) :=
  '(k1, k2, k) <- count_loop true true true (fuel2 A B) A B 0 0 0 ;;
  let k := if k1 =? length A then k + (length B - k2) else k + (length A - k1) in
  '(k1, k2, k, N) <- write_loop true true true (fuel2 A B) A B 0 0 0 (alloc k) ;;
  if k1 =? length A then copy_tail B k2 k N else copy_tail A k1 k N.

(** tupleDict.pyx:297-340 *)
Definition inter (A B : buf Z) : res (buf Z) :=
  '(_, _, k) <- count_loop true false false (fuel2 A B) A B 0 0 0 ;;
  '(_, _, _, N) <- write_loop true false false (fuel2 A B) A B 0 0 0 (alloc k) ;;
  Ok N.

(** tupleDict.pyx:342-395; the two while loops over the tail of the first array
    (367-369, 389-393) are counted loops *)
Definition setminus (A B : buf Z) : res (buf Z) :=
  '(k1, _, k) <- count_loop false true false (fuel2 A B) A B 0 0 0 ;;
  let k := k + (length A - k1) in
  '(k1, _, k, N) <- write_loop false true false (fuel2 A B) A B 0 0 0 (alloc k) ;;
  copy_tail A k1 k N.

(** tupleDict.pyx:121-142: rangeIndexSetIterator; [pos] is k+1, no overflow *)
Definition range_step (start stop increment : Z) (pos : Z) : Z * option Z :=
  let v := (start + increment * pos)%Z in
  (pos + 1, if (0 <? increment) then (if v <? stop then Some v else None)
            else if (increment <? 0) then (if stop <? v then Some v else None)
            else None)%Z.
Fixpoint range_iter (fuel : nat) (start stop increment : Z) (pos : Z) (acc : list Z) : res (list Z) :=
  match fuel with
  | O => Err EFuel
  | S f =>
      let '(pos', o) := range_step start stop increment pos in
      match o with Some x => range_iter f start stop increment pos' (acc ++ [x]) | None => Ok acc end
  end.

(** * bitArray (tupleDict.pyx:479-620).  A word is a number below 2^64; indices
    are natural numbers of type N (non-negative), word positions nat. *)
Record bits := BA { blength : nat; ba : list N }.
Definition bitsPerWord : N := 64.

(** the word and bit of an index: lines 488-489, 505-506 *)
Definition word_of (i : N) : nat := N.to_nat (i / bitsPerWord).
Definition bit_of (i : N) : N := (i - (i / bitsPerWord) * bitsPerWord)%N.

(** tupleDict.pyx:480-484 (the loop zeroing the words is [repeat]) *)
Definition bits_init (hint : nat) (maxElement : N) : bits :=
  let n := Nat.max hint (word_of maxElement + 1) in BA n (repeat 0%N n).

(** tupleDict.pyx:486-498 *)
Definition bset (b : bits) (i : N) : res bits :=
  let k := word_of i in
  let b' := if blength b <=? k then BA (k + 1) (ba b ++ repeat 0%N (k + 1 - blength b)) else b in
  w <- aget (ba b') k ;;
  a <- aset (ba b') k (N.lor w (N.shiftl 1 (bit_of i))) ;;
  Ok (BA (blength b') a).

(** tupleDict.pyx:503-510 *)
Definition binSet (b : bits) (i : N) : res bool :=
  let k := word_of i in
  if k <? blength b then w <- aget (ba b) k ;; Ok (N.eqb (N.land (N.shiftr w (bit_of i)) 1) 1)
  else Ok false.

(** tupleDict.pyx:541-545 *)
Definition bempty (b : bits) : res bits :=
  a <- for_range 0 (blength b) (fun j a => aset a j 0%N) (ba b) ;; Ok (BA (blength b) a).

(** tupleDict.pyx:520-525 *)
Definition bfromSet (b : bits) (s : list N) : res bits :=
  b0 <- bempty b ;; for_list s (fun i b => bset b i) b0.

(** tupleDict.pyx:527-539 *)
Fixpoint popcount (n : nat) (v : N) (c : nat) : nat :=
  match n with
  | O => c
  | S n' => popcount n' (N.shiftr v 1) (if N.eqb (N.land v 1) 1 then S c else c)
  end.
Definition bgetNumEntries (b : bits) : res nat :=
  for_range 0 (blength b) (fun k c => v <- aget (ba b) k ;; Ok (popcount 64 v c)) 0.

(** tupleDict.pyx:551-565 *)
Definition bunion (b1 b2 : bits) : res bits :=
  let r := bits_init (Nat.max (blength b1) (blength b2)) 0 in
  a <- for_range 0 (Nat.min (blength b1) (blength b2)) (fun k a =>
         x <- aget (ba b1) k ;; y <- aget (ba b2) k ;; aset a k (N.lor x y)) (ba r) ;;
  a <- (if blength b2 <? blength b1 then
          for_range (blength b2) (blength b1) (fun k a => x <- aget (ba b1) k ;; aset a k x) a
        else
          for_range (blength b1) (blength b2) (fun k a => x <- aget (ba b2) k ;; aset a k x) a) ;;
  Ok (BA (blength r) a).

(** tupleDict.pyx:567-575 *)
Definition binter (b1 b2 : bits) : res bits :=
  let r := bits_init (Nat.min (blength b1) (blength b2)) 0 in
  a <- for_range 0 (Nat.min (blength b1) (blength b2)) (fun k a =>
         x <- aget (ba b1) k ;; y <- aget (ba b2) k ;; aset a k (N.land x y)) (ba r) ;;
  Ok (BA (blength r) a).

(** tupleDict.pyx:583-620, bitArrayIterator.  The state (k, n) is kept with
    k' = k+1 so that it is a natural number; initially k = -1, n = 63. *)
Record bit_it := BI { it_k1 : nat; it_n : N }.
Definition bit_reset : bit_it := BI 0 63.

(** lines 603-610 and 612-620: first set bit of [v] among the bits n..63 *)
Fixpoint first_bit (m : nat) (n : N) (v : N) : option N :=
  match m with
  | O => None
  | S m' => if N.eqb (N.land v 1) 1 then Some n else first_bit m' (n + 1) (N.shiftr v 1)
  end.
Fixpoint scan_words (m : nat) (k : nat) (a : list N) : res (option (nat * N)) :=
  match m with
  | O => Ok None
  | S m' =>
      v <- aget a k ;;
      match first_bit 64 0 v with
      | Some n => Ok (Some (k, n))
      | None => scan_words m' (S k) a
      end
  end.
Definition bit_step (b : bits) (s : bit_it) : res (bit_it * option N) :=
  let '(k0, n0) := if N.eqb (it_n s) 63 then (it_k1 s, 0%N) else (it_k1 s - 1, (it_n s + 1)%N) in
  v <- aget (ba b) k0 ;;
  let value k n := (N.of_nat k * 64 + n)%N in
  match first_bit (64 - N.to_nat n0) n0 (N.shiftr v n0) with
  | Some n => Ok (BI (S k0) n, Some (value k0 n))
  | None =>
      o <- scan_words (blength b - (k0 + 1)) (k0 + 1) (ba b) ;;
      match o with
      | Some (k, n) => Ok (BI (S k) n, Some (value k n))
      | None => Ok (s, None)
      end
  end.

(** tupleDict.pyx:512-518 toSet / [for i in bitArray], in the order visited *)
Fixpoint bit_iter (fuel : nat) (b : bits) (s : bit_it) (acc : list N) : res (list N) :=
  match fuel with
  | O => Err EFuel
  | S f =>
      '(s', o) <- bit_step b s ;;
      match o with Some x => bit_iter f b s' (acc ++ [x]) | None => Ok acc end
  end.
Definition btoList (b : bits) : res (list N) := bit_iter (S (64 * blength b)) b bit_reset [].
