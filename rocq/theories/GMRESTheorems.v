(** Property theorems C37 (GMRES).  Proofs are in GMRESProofs*.v. *)
From Coq Require Import Sorting.Sorted.
From Verif Require Import LinR KrylovModel KrylovSpec GMRESModel GMRESSpec GMRESProofs GMRESProofs2 GMRESProofs3 GMRESProofs4 GMRESProofs5.
Open Scope R_scope.

(** C37, restarted GMRES with no, left, right or flexible right preconditioner. Whatever the work
    arrays contain, the solver performs a run in the sense of the specification: in every cycle
    each residual it reports is the least one over the directions of an Arnoldi basis, the new
    iterate attains the last of them, and a cycle ends below the tolerance or after maxIter
    iterations. The number it returns is that of the iterations less the number c of cycles.
    Missing: runs that break down; for those it is false, see below. *)
Theorem C37_runs_partial :
  forall n A prec left flexible inner norm b,
  linear n A -> inner_product n inner -> (forall v, norm v = sqrt (inner v v)) -> supported n prec left flexible ->
  forall w x0 rel tolerance maxiter restarts,
  length b = n -> (forall x, x0 = Some x -> length x = n) -> (0 < maxiter)%nat ->
  let init := guess n x0 in
  let tol := tol_of rel tolerance norm (true_residual n A b init) in
  0 < tol ->
  exists rs o, run n A prec left inner norm b eps tol maxiter (S restarts) init rs o /\
  forall y, o = Some y -> exists it c,
    gmres_solve n A prec left flexible inner norm b w x0 rel tolerance maxiter (S restarts) = Ok (it, y, norm (gres n A prec left b init) :: rs) /\
    (it + c = length rs)%nat /\ (c <= S restarts)%nat /\ (rs <> [] -> 1 <= c)%nat.
Proof. exact solve_ok. Qed.
Print Assumptions C37_runs_partial.

(** C37, consequences for every run: the residuals never increase, the last one is the norm of
    the residual of the result, and the result meets the tolerance unless all iterations were
    used up. *)
Theorem C37_residuals :
  forall n A prec left inner norm b eps tol maxiter restarts x rs o,
  run n A prec left inner norm b eps tol maxiter restarts x rs o -> length x = n ->
  Sorted Rge (norm (gres n A prec left b x) :: rs) /\
  forall y, o = Some y -> norm (gres n A prec left b y) = last rs (norm (gres n A prec left b x)) /\
    (norm (gres n A prec left b y) < tol \/ length rs = (restarts * maxiter)%nat).
Proof. exact run_facts. Qed.
Print Assumptions C37_residuals.

(** C37, the directions of an Arnoldi basis span the Krylov spaces. *)
Theorem C37_krylov :
  forall n A prec left inner, linear n A -> (forall B, prec = Some B -> linear n B) ->
  forall r m q, (exists i, (i < n)%nat /\ rat r i <> 0) -> length r = n -> arnoldi n A prec left inner r m q ->
  forall k v, (k <= m)%nat ->
  (exists a, v = lincomb n k a q) <-> (exists a, v = lincomb n k a (fun j => power (fun v => gop A prec left (gdir prec left v)) j r)).
Proof. exact krylov_ok. Qed.
Print Assumptions C37_krylov.

(** C37, without restarts the result minimises the residual over the initial guess plus the
    Krylov space of as many dimensions as there were iterations. *)
Theorem C37_optimal :
  forall n A prec left inner norm b eps tol maxiter x rs y,
  linear n A -> (forall B, prec = Some B -> linear n B) -> inner_product n inner -> (forall v, norm v = sqrt (inner v v)) ->
  0 < tol -> length x = n -> length b = n ->
  run n A prec left inner norm b eps tol maxiter 1 x rs (Some y) ->
  let at_ a := comb n 1 x 1 (gdir prec left (lincomb n (length rs) a (fun j => power (fun v => gop A prec left (gdir prec left v)) j (gres n A prec left b x)))) in
  (exists a, y = at_ a) /\ forall a, norm (gres n A prec left b y) <= norm (gres n A prec left b (at_ a)).
Proof. exact optimal_ok. Qed.
Print Assumptions C37_optimal.

(** The system [[3, 1], [4, 2]] x = (1, 0), one iteration. *)
Example C37_example :
  linear 2 ex_G /\ inner_product 2 (dot 2) /\ (forall v, eucl 2 v = sqrt (dot 2 v v)) /\ supported 2 None false false /\ length [1; 0] = 2%nat /\
  0 < tol_of false (1 / 2) (eucl 2) (true_residual 2 ex_G [1; 0] (guess 2 None)) /\
  forall w, gmres_solve 2 ex_G None false false (dot 2) (eucl 2) [1; 0] w None false (1 / 2) 1 1 = Ok (0%nat, [3 / 25; 0], [1; 4 / 5]).
Proof. split; [apply mulmv_linear|]. split; [apply dot_ip|]. split; [reflexivity|]. split; [reflexivity|]. split; [reflexivity|]. split; [cbn; lra|]. exact ex_one_iteration. Qed.
(** Preconditioners from both sides, and a flexible one that is not linear. *)
Example C37_example_prec :
  supported 2 (Some ex_G) true false /\ supported 2 (Some ex_G) false false /\ supported 2 (Some (fun v => tab 2 (fun i => rat v i * rat v i))) false true.
Proof. split; [split; [apply mulmv_linear|reflexivity]|]. split; (split; [|intros; apply tab_length]); [left; apply mulmv_linear|right; reflexivity]. Qed.
(** The run of the example, which does not break down. *)
Example C37_example_run :
  exists rs y, run 2 ex_G None false (dot 2) (eucl 2) [1; 0] eps (1 / 2) 1 1 [0; 0] rs (Some y) /\ rs = [4 / 5].
Proof. exact ex_run. Qed.

(** C37 is false of runs that break down: the last column is used without the previous rotations
    (lines 608-609 and 642-646). The system is not singular, its solution is (1, -2), and two
    iterations suffice in exact arithmetic; the solver returns (1/5, -2/5), with an unchanged
    residual of 4/5, for every tolerance below that. *)
Theorem C37_breakdown_refuted :
  forall w tol m r, 0 < tol <= 4 / 5 ->
  gmres_solve 2 ex_G None false false (dot 2) (eucl 2) [1; 0] w None false tol (S (S m)) (S r) = Ok (1%nat, [1 / 5; - (2 / 5)], [1; 4 / 5]) /\
  true_residual 2 ex_G [1; 0] [1 / 5; - (2 / 5)] = [4 / 5; 0] /\ ex_G [1; -2] = [1; 0].
Proof. exact breakdown_false. Qed.
Print Assumptions C37_breakdown_refuted.

(** C37 is false of the flexible variant without preconditioner: it stores A q as the direction
    of q (lines 585-587) and adds that; the residual grows while a smaller one is reported. *)
Theorem C37_flexible_refuted :
  forall w, gmres_solve 2 ex_G None false true (dot 2) (eucl 2) [1; 0] w None false (1 / 2) 1 1 = Ok (0%nat, [9 / 25; 12 / 25], [1; 4 / 5]) /\
  1 < eucl 2 (true_residual 2 ex_G [1; 0] [9 / 25; 12 / 25]).
Proof. exact flexible_false. Qed.
Print Assumptions C37_flexible_refuted.

(** C37 is false of an exact initial guess with relative tolerance: the residual is divided by its
    norm, which is zero. *)
Theorem C37_exact_guess_refuted :
  forall n A prec left flexible inner norm b w x0 tolerance maxiter restarts,
  linear n A -> inner_product n inner -> (forall v, norm v = sqrt (inner v v)) -> length b = n ->
  (forall B, prec = Some B -> linear n B) -> (forall i, (i < n)%nat -> rat (true_residual n A b (guess n x0)) i = 0) -> (0 < maxiter)%nat ->
  gmres_solve n A prec left flexible inner norm b w x0 true tolerance maxiter (S restarts) = Err EDiv0.
Proof. exact exact_guess. Qed.
Print Assumptions C37_exact_guess_refuted.
Example C37_exact_guess_example : forall i, (i < 2)%nat -> rat (true_residual 2 ex_G [1; 0] (guess 2 (Some [1; -2]))) i = 0.
Proof. exact ex_guess. Qed.
