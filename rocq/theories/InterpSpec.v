(** Polynomials with rational coefficients, lowest power first. *)
From Verif Require Import Util Lin.
Local Open Scope Qc_scope.

Fixpoint evalp (p : list Qc) (x : Qc) : Qc := match p with [] => 0 | c :: r => c + x * evalp r x end.
(** The derivative: the coefficient of x^k is (k+1) times that of x^(k+1). *)
Fixpoint times_from (k : nat) (p : list Qc) : list Qc := match p with [] => [] | c :: r => qz (Z.of_nat k) * c :: times_from (S k) r end.
Definition deriv (p : list Qc) : list Qc := times_from 1 (tl p).
(** Values at the nodes, weighted. *)
Definition weighted (c : list Qc) (nodes : list Qc) (p : list Qc) : Qc := sumf (length nodes) (fun i => vat c i * evalp p (vat nodes i)).
(** c turns the values of a polynomial of degree < length nodes into its d-th derivative at val. *)
Definition exact_weights (nodes : list Qc) (val : Qc) (d : nat) (c : list Qc) : Prop :=
  length c = length nodes /\ forall p, (length p <= length nodes)%nat -> weighted c nodes p = evalp (Nat.iter d deriv p) val.
Definition increasing (nodes : list Qc) : Prop := forall i, (S i < length nodes)%nat -> vat nodes i < vat nodes (S i).

From Verif Require Import CompModel CompSpec InterpModel.
(** Successive calls of set. *)
Fixpoint sets (o : iop) (calls : list (Qc * nat)) : res iop :=
  match calls with [] => Ok o | p :: r => o <- set o (fst p) (snd p) ;; sets o r end.
Fixpoint sets_multi (m : mop) (calls : list (Qc * nat)) : res mop :=
  match calls with [] => Ok m | p :: r => m <- set_multi m (fst p) (snd p) ;; sets_multi m r end.
(** The matrices of the operators at the nodes are values of polynomials of degree < length nodes, entry by entry. *)
Definition samples (nodes : list Qc) (ops : list expr) (P : nat -> nat -> list Qc) : Prop :=
  length ops = length nodes /\ forall i e r c, nth_error ops i = Some e -> (length (P r c) <= length nodes)%nat /\ meaning e r c = evalp (P r c) (vat nodes i).
Definition between (val : Qc) (p : Qc * Qc) : Prop := fst p <= val /\ val <= snd p.

(** What happens to an operator with delayed construction: parameters are set, or it is used. *)
Inductive event := Params (kwargs : list (nat * nat)) | Use.
(** The operators that are used. *)
Fixpoint run (construct : list (nat * nat) -> res expr) (o : dop) (l : list event) : res (list expr * dop) :=
  match l with
  | [] => Ok ([], o)
  | Params kw :: r => run construct (set_params o kw) r
  | Use :: r => p <- delayed_expr construct o ;; q <- run construct (snd p) r ;; Ok (fst p :: fst q, snd q)
  end.
(** The value that was given last. *)
Fixpoint last_value (key : nat) (kwargs : list (nat * nat)) (old : option nat) : option nat :=
  match kwargs with [] => old | p :: r => last_value key r (if (fst p =? key)%nat then Some (snd p) else old) end.
(** Every use gives what construct returns for the parameters of that moment. *)
Fixpoint used (construct : list (nat * nat) -> res expr) (n m : nat) (l : list event) (now : nat -> option nat) (out : list expr) : Prop :=
  match l with
  | [] => out = []
  | Params kw :: r => used construct n m r (fun key => last_value key kw (now key)) out
  | Use :: r => exists A out' params, out = A :: out' /\ (forall key, find_param key params = now key) /\ construct params = Ok A /\ shape_of A = (n, m) /\ used construct n m r now out'
  end.
