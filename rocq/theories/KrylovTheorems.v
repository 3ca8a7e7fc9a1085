(** Krylov solvers: C13, C14, C15. *)
From Verif Require Import LinR KrylovModel KrylovSpec KrylovProofs KrylovProofs2 KrylovProofs3 KrylovProofs4 KrylovExamples.
Open Scope R_scope.

(** C13. Whenever conjugate gradients returns, there is a list of iterates, each of
    which the solver also returns when run with the corresponding iteration limit,
    such that the reported residuals are the criteria of the true residuals b - A x,
    and the run stops at the first iterate meeting the tolerance or at the limit. The
    returned number is one less than the number of iterations when the tolerance
    is met, and the number of iterations otherwise. *)
Theorem C13_cg_residuals : forall n A prec inner norm use2norm b,
  linear n A -> length b = n -> (forall v, norm v = sqrt (inner v v)) ->
  forall x0 rel tolerance maxiter it y rs,
  cg_solve n A prec inner norm use2norm b x0 rel tolerance maxiter = Ok (it, y, rs) ->
  let crit x := criterion prec inner norm use2norm (true_residual n A b x) in
  let init := guess n x0 in
  let tol := tol_of rel tolerance norm (true_residual n A b init) in
  exists xs,
    explains (fun c => c <= tol) crit crit init y (if Rle_dec (crit init) tol then 0%nat else maxiter) xs rs /\
    (length rs = 1%nat \/ ~ crit init <= tol) /\
    (it <= maxiter)%nat /\
    ((1 < length rs)%nat /\ crit y <= tol -> (it + 2 = length rs)%nat) /\
    (length rs = 1%nat \/ ~ crit y <= tol -> (it + 1 = length rs)%nat) /\
    (forall j, (j < length xs)%nat -> exists it',
       cg_solve n A prec inner norm use2norm b x0 rel tolerance j = Ok (it', nth j xs init, firstn (S j) rs)).
Proof. exact cg_thm. Qed.
Print Assumptions C13_cg_residuals.

Example C13_example : 
  linear 2 ex_A /\ length [1; 0] = 2%nat /\ (forall v, eucl 2 v = sqrt (dot 2 v v)) /\
  exists it y rs, cg_solve 2 ex_A None (dot 2) (eucl 2) false [1; 0] None false 0 5 = Ok (it, y, rs) /\ ex_A y = [1; 0].
Proof. exact ex_cg. Qed.

(** C14. For a symmetric positive definite operator and preconditioner the method
    never divides by zero, and within n iterations the tolerance is met; with
    tolerance 0 the result solves the system exactly. *)
Theorem C14_finite_termination : forall n A prec use2norm b x0 rel tolerance maxiter,
  spd n A -> (forall B, prec = Some B -> sym_op n B /\ posdef n B) -> length b = n ->
  0 <= tolerance -> (n <= maxiter)%nat ->
  exists it x rs,
    cg_solve n A prec (dot n) (eucl n) use2norm b x0 rel tolerance maxiter = Ok (it, x, rs) /\
    (length rs <= n + 1)%nat /\
    criterion prec (dot n) (eucl n) use2norm (true_residual n A b x)
      <= tol_of rel tolerance (eucl n) (true_residual n A b (guess n x0)) /\
    (tolerance = 0 -> A x = b).
Proof. exact cg_terminates. Qed.
Print Assumptions C14_finite_termination.

(** C14. Let X j be what the solver returns with iteration limit j. Residuals are
    mutually orthogonal in the preconditioner's inner product, increments are
    conjugate, and X i minimises the energy norm of the error over X i plus the span
    of the increments made so far. *)
Theorem C14_orthogonality : forall n A prec use2norm b x0,
  spd n A -> (forall B, prec = Some B -> sym_op n B /\ posdef n B) -> length b = n ->
  exists X : nat -> vec,
    (forall j, exists it rs, cg_solve n A prec (dot n) (eucl n) use2norm b x0 false 0 j = Ok (it, X j, rs)) /\
    (forall i j, i <> j -> dot n (true_residual n A b (X i)) (prec_op prec (true_residual n A b (X j))) = 0) /\
    (forall i j, i <> j -> dot n (comb n 1 (X (S i)) (-1) (X i)) (A (comb n 1 (X (S j)) (-1) (X j))) = 0) /\
    (forall i xs y (c : nat -> R), A xs = b ->
       (forall l, (l < n)%nat -> rat y l = rat (X i) l + rsum i (fun j => c j * (rat (X (S j)) l - rat (X j) l))) ->
       energy n A xs (X i) <= energy n A xs y).
Proof. exact cg_orthogonal. Qed.
Print Assumptions C14_orthogonality.

Example C14_example : spd 2 ex_A /\ (forall B, Some ex_B = Some B -> sym_op 2 B /\ posdef 2 B) /\ length [1; 0] = 2%nat.
Proof. exact ex_spd_prec. Qed.

(** C15. Whenever BiCGStab returns, the reported residuals after the first are the
    norms of the true residuals of the iterates, and the run stopped at the first
    iterate below the tolerance or at the limit. *)
Theorem C15_bicgstab_residuals_partial : forall n A prec inner norm b, linear n A -> length b = n ->
  forall x0 rel tolerance maxiter it y rs,
  bicgstab_solve n A prec inner norm b x0 rel tolerance maxiter = Ok (it, y, rs) ->
  let init := guess n x0 in
  let tol := tol_of rel tolerance norm (true_residual n A b init) in
  exists xs,
    explains (fun c => c < tol)
      (fun x => let r := true_residual n A b x in sqrt (inner r (prec_op prec r)))
      (fun x => norm (true_residual n A b x)) init y maxiter xs rs /\
    (it <= maxiter)%nat /\
    (forall j, (j < length xs)%nat -> exists it',
       bicgstab_solve n A prec inner norm b x0 rel tolerance j = Ok (it', nth j xs init, firstn (S j) rs)).
Proof. exact bi_thm. Qed.
Print Assumptions C15_bicgstab_residuals_partial.

Example C15_example : linear 2 ex_C /\
  bicgstab_solve 2 ex_C None (dot 2) (eucl 2) [1; 0] None false 1 5 = Ok (0%nat, [1; -1], [1; 0]).
Proof. exact ex_bi. Qed.

(** C15 fails when the method meets the exact solution: the code neither tests the
    initial residual nor the half step, and divides 0 by 0. So it fails for an exact
    initial guess, and in every run for a multiple of the identity (in particular
    for every 1 x 1 system). *)
Theorem C15_exact_guess_refuted : forall n A b x0 rel tolerance maxiter,
  linear n A -> length b = n ->
  (forall i, (i < n)%nat -> rat (true_residual n A b (guess n x0)) i = 0) -> (0 < maxiter)%nat ->
  bicgstab_solve n A None (dot n) (eucl n) b x0 rel tolerance maxiter = Err EDiv0.
Proof. exact bi_exact_guess. Qed.
Print Assumptions C15_exact_guess_refuted.

Theorem C15_half_step_refuted : forall n c b x0 rel tolerance maxiter, (0 < maxiter)%nat ->
  bicgstab_solve n (fun v => comb n c v 0 v) None (dot n) (eucl n) b x0 rel tolerance maxiter = Err EDiv0.
Proof. exact bi_scalar. Qed.
Print Assumptions C15_half_step_refuted.

Example C15_example_exact : linear 2 ex_C /\ length [0; 0] = 2%nat /\
  (forall i, (i < 2)%nat -> rat (true_residual 2 ex_C [0; 0] (guess 2 None)) i = 0).
Proof. exact ex_exact. Qed.
