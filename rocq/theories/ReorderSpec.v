(** Cuthill-McKee orderings. *)
From Verif Require Import Util.
From Coq Require Import Permutation Sorted.

(** A graph in CSR form. *)
Definition graph_ok (n : nat) (ind ptr : list nat) : Prop :=
  length ptr = S n /\ nth n ptr 0 <= length ind /\ (forall i, i < n -> nth i ptr 0 <= nth (S i) ptr 0) /\
  forall k, k < length ind -> nth k ind 0 < n.
Definition adjacent (ind ptr : list nat) (i j : nat) : Prop :=
  exists k, nth i ptr 0 <= k < nth (S i) ptr 0 /\ nth k ind 0 = j.
(** The number of entries of row i, a self loop counted twice. *)
Definition valence (ind ptr : list nat) (i : nat) : nat :=
  nth (S i) ptr 0 - nth i ptr 0 +
  if existsb (Nat.eqb i) (firstn (nth (S i) ptr 0 - nth i ptr 0) (skipn (nth i ptr 0) ind)) then 1 else 0.

(** argsort returns the positions of the entries in nondecreasing order. *)
Definition is_argsort (argsort : list nat -> list nat) : Prop :=
  forall l, Permutation (argsort l) (seq 0 (length l)) /\ Sorted le (map (fun k => nth k l 0) (argsort l)).

(** q is the position of the first node of [l] to which the node at position p is
    adjacent, and it comes before p. *)
Definition first_parent (adj : nat -> nat -> Prop) (l : list nat) (p q : nat) : Prop :=
  q < p /\ adj (nth q l 0) (nth p l 0) /\ forall r, r < q -> ~ adj (nth r l 0) (nth p l 0).
(** A breadth-first ordering of 0..n-1 in which nodes with the same parent are sorted
    by valence; a node without parent has the lowest valence of all nodes
    that follow, none of which has its parent before it. *)
Definition cuthill_mckee_order (n : nat) (adj : nat -> nat -> Prop) (val : nat -> nat) (l : list nat) : Prop :=
  Permutation l (seq 0 n) /\
  (forall p p' q q', p < p' < n -> first_parent adj l p q -> first_parent adj l p' q' ->
     q <= q' /\ (q = q' -> val (nth p l 0) <= val (nth p' l 0))) /\
  (forall p p', p < p' < n -> (forall q, ~ first_parent adj l p q) ->
     val (nth p l 0) <= val (nth p' l 0) /\ forall q, first_parent adj l p' q -> p <= q).
