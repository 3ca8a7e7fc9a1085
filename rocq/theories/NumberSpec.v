(** Numbering the degrees of freedom of the whole. *)
From Verif Require Import Util Lin OverlapModel OverlapSpec DistSpec.
From Coq Require Export Sorting.Sorted.
Local Open Scope nat_scope.

(** The highest of the first P ranks that have I *)
Fixpoint owner (P : nat) (glob : nat -> list nat) (I : nat) : nat :=
  match P with 0 => 0 | S k => if existsb (Nat.eqb I) (glob k) then k else owner k glob I end.
(** The degrees of freedom of the whole in the order of the ranks that own them and, for one
    rank, in its own order *)
Definition global_order (P : nat) (glob : nat -> list nat) : list nat :=
  flat_map (fun p => filter (fun I => owner P glob I =? p) (glob p)) (seq 0 P).
Fixpoint index_of (x : nat) (l : list nat) : nat :=
  match l with [] => 0 | a :: l => if a =? x then 0 else S (index_of x l) end.
(** The dictionaries list other ranks in ascending order *)
Definition ascending (P : nat) (mgr : nat -> manager) : Prop := forall p, p < P -> StronglySorted lt (neighbours (mgr p)).
