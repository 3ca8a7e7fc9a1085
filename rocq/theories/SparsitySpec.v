(** Specification vocabulary for compressed row structures built from pairs. *)
From Coq Require Import Sorted.
From Verif Require Import Util.

(** The entries [lo, hi) of an array. *)
Definition slice {A} (l : list A) (lo hi : nat) : list A := firstn (hi - lo) (skipn lo l).

(** The number of different column indices added to row [I]. *)
Definition row_size (I : nat) (adds : list (nat * Z)) : nat :=
  length (nodup Z.eq_dec (map snd (filter (fun e => fst e =? I) adds))).

Definition pair_eq_dec : forall a b : nat * Z, {a = b} + {a <> b}.
Proof. decide equality; [apply Z.eq_dec|apply Nat.eq_dec]. Defined.

(** [(indptr, indices)] is the compressed row form of a set of pairs: offsets
    start at 0, never decrease and end at the number of pairs, and row [i] is
    the strictly increasing list of the columns paired with [i]. *)
Definition is_csr_of (nd : nat) (adds : list (nat * Z)) (indptr : list nat) (indices : list Z) : Prop :=
  length indptr = nd + 1 /\
  nth 0 indptr 0 = 0 /\
  (forall i, i < nd -> nth i indptr 0 <= nth (S i) indptr 0) /\
  nth nd indptr 0 = length (nodup pair_eq_dec adds) /\
  length indices = length (nodup pair_eq_dec adds) /\
  (forall i, i < nd ->
     StronglySorted Z.lt (slice indices (nth i indptr 0) (nth (S i) indptr 0)) /\
     forall j, In j (slice indices (nth i indptr 0) (nth (S i) indptr 0)) <-> In (i, j) adds).
