(** What entries that are set and added one by one amount to. *)
From Verif Require Import Util Lin IJModel.
Local Open Scope nat_scope.

(** One call: set the entry (i, j) to v, or add v to it. *)
Inductive call := SetEntry (i j : nat) (v : Qc) | AddToEntry (i j : nat) (v : Qc).
Definition place (c : call) : nat * nat := match c with SetEntry i j _ | AddToEntry i j _ => (i, j) end.

(** The matrix after some calls; all entries are zero before the first one. *)
Definition after (M : mat) (c : call) : mat := fun i j =>
  if (i =? fst (place c)) && (j =? snd (place c))
  then match c with SetEntry _ _ v => v | AddToEntry _ _ v => (M i j + v)%Qc end
  else M i j.
Definition collected (cs : list call) : mat := fold_left after cs (fun _ _ => 0%Qc).

(** All calls are for places of an n x m matrix. *)
Definition within (n m : nat) (cs : list call) : Prop := forall c, In c cs -> fst (place c) < n /\ snd (place c) < m.

(** Row and column numbers are 32 bit integers. *)
Definition int32 (n : nat) : Prop := (Z.of_nat n <= 2 ^ 31)%Z.

(** The program that makes these calls. *)
Definition run (A : ij) (cs : list call) : ij :=
  fold_left (fun A c => match c with SetEntry i j v => ij_setEntry A i j v | AddToEntry i j v => ij_addToEntry A i j v end) cs A.
