(** Partitions into numbered sets and into boxes. *)
From Verif Require Import Util Lin.
From Coq Require Import Sorting.Sorted.
Local Open Scope nat_scope.

(** The graph of rows indices[indptr[p]:indptr[p+1]] lists the vertices of every set in order. *)
Definition row (indptr indices : list nat) (p : nat) : list nat :=
  firstn (nth (S p) indptr 0 - nth p indptr 0) (skipn (nth p indptr 0) indices).
Definition lists_parts (part : list nat) (n : nat) (indptr indices : list nat) : Prop :=
  length indptr = S n /\ nth 0 indptr 0 = 0 /\ nth n indptr 0 = length part /\ length indices = length part /\
  (forall p, p < n -> nth p indptr 0 <= nth (S p) indptr 0) /\
  (forall p, p < n -> StronglySorted lt (row indptr indices p)) /\
  (forall p i, p < n -> In i (row indptr indices p) <-> i < length part /\ nth i part n = p).

(** Coordinate [j] of vertex [i]; vertices have [dim] coordinates. *)
Definition at_vertex (vertices : list (list Qc)) (i j : nat) : Qc := nth j (nth i vertices []) 0%Qc.
Definition in_dim (dim : nat) (vertices : list (list Qc)) : Prop := forall v, In v vertices -> length v = dim.
(** The smallest and the largest value. *)
Definition is_min (N : nat) (f : nat -> Qc) (m : Qc) : Prop := (exists i, i < N /\ f i = m) /\ forall i, i < N -> (m <= f i)%Qc.
Definition is_max (N : nat) (f : nat -> Qc) (m : Qc) : Prop := (exists i, i < N /\ f i = m) /\ forall i, i < N -> (f i <= m)%Qc.
(** [v] is in interval number [z] of [n] into which [lo, lo+len) is split. *)
Definition in_interval (lo len : Qc) (n z : nat) (v : Qc) : Prop :=
  z < n /\ (qz (Z.of_nat z) * len <= (v - lo) * qz (Z.of_nat n))%Qc /\ ((v - lo) * qz (Z.of_nat n) < qz (Z.of_nat (S z)) * len)%Qc.
(** Products, and numbers of boxes: the first index runs fastest, or the last. *)
Fixpoint product (n : nat -> nat) (d : nat) : nat := match d with O => 1 | S d => product n d * n d end.
Fixpoint first_fastest (n z : nat -> nat) (d : nat) : nat := match d with O => 0 | S d => first_fastest n z d + z d * product n d end.
Fixpoint last_fastest (n z : nat -> nat) (d : nat) : nat := match d with O => 0 | S d => last_fastest n z d * n d + z d end.
(** Prime numbers. *)
Definition is_prime (p : nat) : Prop := 2 <= p /\ forall d, Nat.divide d p -> d = 1 \/ d = p.
(** The number of vertices left of vertex [i] on a line, and the number of vertices in a set. *)
Definition rank (vertices : list (list Qc)) (i : nat) : nat :=
  length (filter (fun k => if Qclt_le_dec (at_vertex vertices k 0) (at_vertex vertices i 0) then true else false) (seq 0 (length vertices))).
Definition part_size (part : list nat) (p : nat) : nat := length (filter (Nat.eqb p) part).
(** Every factor in turn multiplies the number of the first dimension, among the first
    [k], in which the intervals are longest: length[j]/per[j] is largest. *)
Inductive greedy (len : nat -> Qc) (k : nat) : list nat -> list nat -> list nat -> Prop :=
| greedy_nil per : greedy len k [] per per
| greedy_cons p fs per per1 per' q :
    q < k -> (forall j, j < k -> (len j * qz (Z.of_nat (nth q per 0%nat)) <= len q * qz (Z.of_nat (nth j per 0%nat)))%Qc) ->
    (forall j, j < q -> (len j * qz (Z.of_nat (nth q per 0%nat)) < len q * qz (Z.of_nat (nth j per 0%nat)))%Qc) ->
    length per1 = length per -> (forall j, nth j per1 0 = if j =? q then nth j per 0 * p else nth j per 0) ->
    greedy len k fs per1 per' -> greedy len k (p :: fs) per per'.
