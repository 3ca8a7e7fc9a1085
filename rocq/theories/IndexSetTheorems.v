(** Property theorems C05, C06 (index sets). Proofs are in IndexSetProofs*.v, BitArrayProofs.v. *)
From Coq Require Import Sorted NArith.
From Verif Require Import Util IndexSetModel IndexSetSpec IndexSetProofs BitArrayProofs IndexSetProofs2.

(** C05. Every expression built from duplicate-free arrays (or python sets) by
    union, inter and setminus evaluates without leaving an array, the result
    iterates over the elements of the set-theoretic value in increasing order
    (and each once), inSet is membership, position is the number of smaller
    elements, or -1 for a non-member. *)
Theorem C05_sorted_index_sets : forall x, agood x ->
  exists A l, aeval x = Ok A /\
    ais_list A = Ok l /\ A = map Some l /\
    StronglySorted Z.lt l /\ (forall z, In z l <-> aden x z) /\
    isSorted A = Ok true /\
    (forall i, exists b, inSet A i = Ok b /\ (b = true <-> aden x i)) /\
    (forall i, aden x i -> exists n, position A i = Ok (Z.of_nat n) /\ cardinal (fun z => aden x z /\ (z < i)%Z) n) /\
    (forall i, ~ aden x i -> position A i = Ok (-1)%Z).
Proof. exact array_sets. Qed.
Print Assumptions C05_sorted_index_sets.

(** C05, unsorted sets: membership, first position, iteration in array order. *)
Theorem C05_unsorted_index_sets : forall (l : list Z) i,
  ufromSet l = Ok (map Some l) /\ ais_list (map Some l) = Ok l /\
  (exists b, uais_inSet (map Some l) i = Ok b /\ (b = true <-> In i l)) /\
  (In i l -> exists p, uais_position (map Some l) i = Ok (Z.of_nat p) /\ nth_error l p = Some i /\ forall q, q < p -> nth_error l q <> Some i) /\
  (~ In i l -> uais_position (map Some l) i = Ok (-1)%Z).
Proof. exact unsorted_sets. Qed.
Print Assumptions C05_unsorted_index_sets.

(** C05, ranges: iteration terminates and yields exactly the numbers
    start + k*increment (k >= 0) on the near side of the end, each once, in the
    direction of the increment; nothing for increment 0. *)
Theorem C05_range_index_sets : forall start stop increment,
  exists l n, (forall fuel, n <= fuel -> range_iter fuel start stop increment 0 [] = Ok l) /\
    NoDup l /\
    (forall i j x y, nth_error l i = Some x -> nth_error l j = Some y -> i < j -> (0 < (y - x) * increment)%Z) /\
    (forall x, In x l <-> exists k, (0 <= k)%Z /\ x = (start + increment * k)%Z /\
       ((0 < increment /\ x < stop) \/ (increment < 0 /\ stop < x))%Z).
Proof. exact ranges. Qed.
Print Assumptions C05_range_index_sets.

(** C05, limit: without the bound on differences the constructor's sort is
    wrong, because the comparison function subtracts 32-bit integers. *)
Theorem C05_far_apart_refuted : exists a i, NoDup a /\ In i a /\
  (forall x, In x a -> (- 2^31 <= x < 2^31)%Z) /\
  isSorted (ais_init (Some a) false) = Ok false.
Proof. exact far_apart. Qed.
Print Assumptions C05_far_apart_refuted.

(** C06 (full statement): every expression over bit arrays evaluates safely to
    its set, inSet is membership, getNumEntries the cardinality and iteration
    yields the members in increasing order.  The last part is false when the
    last bit of the allocated storage is set: after yielding it, the iterator
    reads the word behind the storage.  The theorem says exactly when. *)
Theorem C06_bit_arrays_partial : forall x, exists b n,
  beval x = Ok b /\
  (forall i, exists r, binSet b i = Ok r /\ (r = true <-> bden x i)) /\
  bgetNumEntries b = Ok n /\ cardinal (bden x) n /\
  (bden x (64 * N.of_nat (blength b) - 1)%N -> btoList b = Err EOob) /\
  (~ bden x (64 * N.of_nat (blength b) - 1)%N ->
     exists l, btoList b = Ok l /\ StronglySorted N.lt l /\ forall i, In i l <-> bden x i).
Proof. exact bit_sets. Qed.
Print Assumptions C06_bit_arrays_partial.

Theorem C06_bit_iterator_refuted : exists x b, beval x = Ok b /\ btoList b = Err EOob.
Proof. exact bit_iter_refuted. Qed.
Print Assumptions C06_bit_iterator_refuted.

(** Concrete cases. *)
Definition ex_x : aexpr := AMinus (AUnion (ANew [5; 1; 9]%Z) (AFrom [4; 5; 2]%Z)) (ANew [9; 4]%Z).
Example ex_good : agood ex_x.
Proof.
  cbn. unfold good_array. repeat split;
    try (repeat (constructor; [simpl; intuition discriminate|]); constructor);
    intros; simpl in *; intuition subst; lia.
Qed.
Example ex_val : aeval ex_x = Ok [Some 1; Some 2; Some 5]%Z.
Proof. vm_compute. reflexivity. Qed.
Example ex_range : range_iter 10 7 0 (-3) 0 [] = Ok [7; 4; 1]%Z.
Proof. vm_compute. reflexivity. Qed.
Definition ex_b : bexpr := BUnion (BSet (BSet (BNew 1 0) 130) 64) (BInter (BFrom (BNew 3 0) [3; 64; 70]%N) (BFrom (BNew 1 0) [70; 3]%N)).
Example ex_b_val : match beval ex_b with Ok b => btoList b | Err e => Err e end = Ok [3; 64; 70; 130]%N.
Proof. vm_compute. reflexivity. Qed.
