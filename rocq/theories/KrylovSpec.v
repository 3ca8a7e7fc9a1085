(** Specification of the Krylov solvers. *)
From Verif Require Import LinR.
Open Scope R_scope.

(** b - A x *)
Definition true_residual (n : nat) (A : vec -> vec) (b x : vec) : vec := comb n 1 b (-1) (A x).
(** What the conjugate gradient method is documented to measure: the 2-norm of the
    residual, or its preconditioner norm. *)
Definition criterion (prec : option (vec -> vec)) (inner : vec -> vec -> R) (norm : vec -> R) (use2norm : bool) (r : vec) : R :=
  match prec with
  | Some B => if use2norm then norm r else sqrt (inner r (B r))
  | None => norm r
  end.
(** The list [xs] of iterates explains a run: it starts with the initial guess [init],
    ends with the returned vector [x], and [rs] are the values of the criterion
    ([first] for the initial guess, [later] for the others); no iterate but the
    last meets the stopping test, and the run stopped because the last one does or
    because [maxiter] iterations were done. *)
Definition explains (meets : R -> Prop) (first later : vec -> R) (init x : vec) (maxiter : nat) (xs : list vec) (rs : list R) : Prop :=
  exists xs', xs = init :: xs' /\ last xs init = x /\
    rs = first init :: map later xs' /\
    (forall j, (S j < length xs')%nat -> ~ meets (later (nth j xs' init))) /\
    (length xs' <= maxiter)%nat /\
    ((length xs' < maxiter)%nat -> meets (later x)).

(** The initial guess. *)
Definition guess (n : nat) (x0 : option vec) : vec := match x0 with Some x => x | None => vzero n end.
Definition tol_of (rel : bool) (tolerance : R) (norm : vec -> R) (r : vec) : R :=
  if rel then tolerance * norm r else tolerance.
(** Identity when there is no preconditioner. *)
Definition prec_op (prec : option (vec -> vec)) (v : vec) : vec := match prec with Some B => B v | None => v end.
Definition spd (n : nat) (A : vec -> vec) : Prop := linear n A /\ sym_op n A /\ posdef n A.
Definition eucl (n : nat) (v : vec) : R := sqrt (dot n v v).
(** Squared energy norm of x - y. *)
Definition energy (n : nat) (A : vec -> vec) (x y : vec) : R :=
  let e := comb n 1 x (-1) y in dot n e (A e).
