(** Specification of index sets: expressions over finite sets and what they denote. *)
From Coq Require Import Sorted NArith.
From Verif Require Import Util IndexSetModel.

(** Sorted array sets. *)
Inductive aexpr :=
| ANew (a : list Z)          (* arrayIndexSet(array) *)
| AFrom (s : list Z)         (* arrayIndexSet().fromSet(s) *)
| AUnion (x y : aexpr)
| AInter (x y : aexpr)
| AMinus (x y : aexpr).

Fixpoint aeval (x : aexpr) : res (buf Z) :=
  match x with
  | ANew a => Ok (ais_init (Some a) false)
  | AFrom s => fromSet s
  | AUnion x y => a <- aeval x ;; b <- aeval y ;; union a b
  | AInter x y => a <- aeval x ;; b <- aeval y ;; inter a b
  | AMinus x y => a <- aeval x ;; b <- aeval y ;; setminus a b
  end.

Fixpoint aden (x : aexpr) (z : Z) : Prop :=
  match x with
  | ANew a => In z a
  | AFrom s => In z s
  | AUnion x y => aden x z \/ aden y z
  | AInter x y => aden x z /\ aden y z
  | AMinus x y => aden x z /\ ~ aden y z
  end.

(** The arrays given have no duplicates and their differences fit a 32-bit
    integer. *)
Definition good_array (a : list Z) : Prop :=
  NoDup a /\ forall x y, In x a -> In y a -> (- 2^31 <= x - y < 2^31)%Z.
Fixpoint agood (x : aexpr) : Prop :=
  match x with
  | ANew a => good_array a
  | AFrom s => good_array s
  | AUnion x y | AInter x y | AMinus x y => agood x /\ agood y
  end.

(** Bit arrays. *)
Inductive bexpr :=
| BNew (hint : nat) (maxElement : N)
| BSet (x : bexpr) (i : N)
| BEmpty (x : bexpr)
| BFrom (x : bexpr) (s : list N)
| BUnion (x y : bexpr)
| BInter (x y : bexpr).

Fixpoint beval (x : bexpr) : res bits :=
  match x with
  | BNew h m => Ok (bits_init h m)
  | BSet x i => b <- beval x ;; bset b i
  | BEmpty x => b <- beval x ;; bempty b
  | BFrom x s => b <- beval x ;; bfromSet b s
  | BUnion x y => a <- beval x ;; b <- beval y ;; bunion a b
  | BInter x y => a <- beval x ;; b <- beval y ;; binter a b
  end.

Fixpoint bden (x : bexpr) (j : N) : Prop :=
  match x with
  | BNew _ _ => False
  | BSet x i => j = i \/ bden x j
  | BEmpty _ => False
  | BFrom _ s => In j s
  | BUnion x y => bden x j \/ bden y j
  | BInter x y => bden x j /\ bden y j
  end.

(** Number of elements of a finite set. *)
Definition cardinal {A} (P : A -> Prop) (n : nat) : Prop :=
  exists l, NoDup l /\ length l = n /\ forall x, In x l <-> P x.
