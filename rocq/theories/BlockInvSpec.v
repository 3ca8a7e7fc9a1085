(** When the inverse of a block triangular operator solves. *)
From Verif Require Import Util Lin CSRModel DenseModel CompModel CompSpec BlockInvModel.
Local Open Scope nat_scope.

Definition entry (rows : list (list expr)) (i j : nat) : expr := nth j (nth i rows []) (ENull 0 0).
Definition sizes (rows : list (list expr)) : list nat := map (fun row => hd 0 (map (fun e => fst (dims e)) row)) rows.
Definition inverse_of (inverses : list expr) (i : nat) : expr := nth i inverses (ENull 0 0).
Definition right_inverse (n : nat) (A D : mat) : Prop := forall i j, i < n -> j < n -> mm n A D i j = if i =? j then 1%Qc else 0%Qc.
(** Scratch vectors of the whole *)
Definition scratch_all (rows : list (list expr)) (inverses : list expr) (t : nat) : list nat :=
  scratch (EBlock rows t) ++ concat (map scratch inverses).
(** Square blocks on the diagonal, null operators on one side of it, and inverses of the
    blocks on the diagonal. *)
Definition triangular (lens : nat -> nat) (lower : bool) (rows : list (list expr)) (inverses : list expr) (t : nat) : Prop :=
  ok lens (EBlock rows t) /\
  (forall row, In row rows -> map (fun e => snd (dims e)) row = sizes rows) /\
  (forall i j, i < length rows -> j < length rows -> (if lower then j < i else i < j) -> offers (entry rows i j) false false = true) /\
  (forall i j, i < length rows -> j < length rows -> (if lower then i < j else j < i) -> is_null (entry rows i j) = true) /\
  length inverses = length rows /\
  forall i, i < length rows -> let D := inverse_of inverses i in let s := nth i (sizes rows) 0 in
    ok lens D /\ dims D = (s, s) /\ offers D false false = true /\ ~ In t (scratch D) /\ right_inverse s (meaning (entry rows i i)) (meaning D).
