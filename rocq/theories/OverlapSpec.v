(** What exchanging the entries of shared degrees of freedom means, for all ranks at once and
    without messages. *)
From Verif Require Import Util Lin OverlapModel.
Local Open Scope nat_scope.

(** The degrees of freedom that p shares with q, as numbered by p *)
Definition shared (mgr : nat -> manager) (p q : nat) : list nat :=
  match find (fun o => o_other o =? q) (mgr p) with Some o => o_shared o | None => [] end.

(** Overlaps as the ranks should have them: one for each other rank, known to both ranks, with the
    same number of degrees of freedom; [size p] is the number of degrees of freedom of rank p *)
Record valid (P : nat) (size : nat -> nat) (mgr : nat -> manager) : Prop := Valid {
  valid_keys : forall p, p < P -> NoDup (neighbours (mgr p));
  valid_rank : forall p q, p < P -> In q (neighbours (mgr p)) -> q < P /\ q <> p;
  valid_sym : forall p q, p < P -> q < P -> In q (neighbours (mgr p)) -> In p (neighbours (mgr q));
  valid_length : forall p q, p < P -> q < P -> length (shared mgr p q) = length (shared mgr q p);
  valid_range : forall p q i, p < P -> In i (shared mgr p q) -> i < size p }.

(** What q has for the degrees of freedom shared with p *)
Definition values_of (mgr : nat -> manager) (p q : nat) (v : list Qc) : list Qc := map (vat v) (shared mgr q p).
(** The sum of those of them that belong to degree of freedom i of p *)
Definition incoming (mgr : nat -> manager) (p q : nat) (v : list Qc) (i : nat) : Qc :=
  suml (map (fun jx => if fst jx =? i then snd jx else 0%Qc) (combine (shared mgr p q) (values_of mgr p q v))).
(** [base] with the values of the other ranks added *)
Definition accumulated (mgr : nat -> manager) (p : nat) (base : list Qc) (v : nat -> list Qc) : list Qc :=
  tab (length base) (fun i => (vat base i + suml (map (fun q => incoming mgr p q (v q) i) (neighbours (mgr p))))%Qc).
(** [base] with the value of rank q for degree of freedom i, if it is shared with q *)
Definition taken (mgr : nat -> manager) (p : nat) (v : nat -> list Qc) (base : list Qc) (q : nat) : list Qc :=
  tab (length base) (fun i => match find (fun jx => fst jx =? i) (combine (shared mgr p q) (values_of mgr p q (v q))) with Some jx => snd jx | None => vat base i end).

Definition reg (m : mem) (k : nat) : list Qc := nth k m [].
Definition set_reg (m : mem) (k : nat) (v : list Qc) : mem := upd m k v.

(** One call, made by all ranks at once *)
Definition call_spec (P : nat) (mgr : nat -> manager) (c : call) (m : nat -> mem) (p : nat) : mem :=
  match c with
  | Acc s d => set_reg (m p) (match d with Some d => d | None => s end) (accumulated mgr p (reg (m p) s) (fun q => reg (m q) s))
  | Exch s f d => let m' := f p (m p) in set_reg m' d (accumulated mgr p (reg m' d) (fun q => reg (m q) s))
  | Uni v => set_reg (m p) v (fold_left (taken mgr p (fun q => reg (m q) v)) (filter (fun q => p <? q) (neighbours (mgr p))) (reg (m p) v))
  | Coll h g => g p (tab P (fun q => h q (m q))) (m p)
  end.
Definition round_spec (P : nat) (mgr : nat -> manager) (r : round) (m : nat -> mem) : nat -> mem :=
  call_spec P mgr (what r) (fun q => pre r q (m q)).
Definition program_spec (P : nat) (mgr : nat -> manager) (prog : list round) (m : nat -> mem) : nat -> mem :=
  fold_left (fun m r => round_spec P mgr r m) prog m.

(** Memories whose first K vectors have the right size; the computations between the calls keep that *)
Definition shaped (K n : nat) (m : mem) : Prop := K <= length m /\ forall k, k < K -> length (reg m k) = n.
Definition keeps (P K : nat) (size : nat -> nat) (f : nat -> mem -> mem) : Prop :=
  forall p m, p < P -> shaped K (size p) m -> shaped K (size p) (f p m).
Definition proper_call (P K : nat) (size : nat -> nat) (mgr : nat -> manager) (c : call) : Prop :=
  match c with
  | Acc s d => s < K /\ match d with Some d => d < K | None => True end
  | Exch s f d => s < K /\ d < K /\ keeps P K size f
  | Uni v => v < K /\ forall p q, p < P -> NoDup (shared mgr p q)
  | Coll h g => forall p l m, p < P -> shaped K (size p) m -> shaped K (size p) (g p l m)
  end.
Definition proper (P K : nat) (size : nat -> nat) (mgr : nat -> manager) (prog : list round) : Prop :=
  Forall (fun r => keeps P K size (pre r) /\ proper_call P K size mgr (what r)) prog.
(** [unique] is only called when no messages of accumulate or send are on the way: before
    the first of them *)
Fixpoint unique_first (prog : list round) : Prop :=
  match prog with
  | [] => True
  | r :: rest => match what r with Acc _ _ | Exch _ _ _ => Forall (fun r => match what r with Uni _ => False | _ => True end) rest | _ => unique_first rest end
  end.
