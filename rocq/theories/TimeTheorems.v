(** Time steppers: C17. *)
From Verif Require Import LinR TimeModel TimeSpec TimeProofs TimeProofs2 TimeProofs3 TimeProofs4.
Open Scope R_scope.

(** C17. A run of the theta scheme (explicit Euler, Crank-Nicolson and implicit Euler are
    theta = 0, 1/2, 1) from (t0, u0) visits the times t0 + j dt, and any two consecutive
    states satisfy the equation of the scheme with the forcing of both times, or with the forcing
    vector that was passed in. The solver is exact and, if it is built only once, the
    operators do not depend on time. *)
Theorem C17_theta_scheme : forall n A B g residualNew build theta (timeDependent : bool) d dt forcing t0 u0,
  residual_contract n A B g residualNew -> 0 <= theta <= 1 -> d <> 0 ->
  (forall t, solves n A B t (1 / d) theta (build t (1 / d) theta)) ->
  (timeDependent = false -> dt = Some d) -> (timeDependent = false -> constant_in_time A /\ constant_in_time B) ->
  exists s l, CrankNicolson n theta dt timeDependent = Ok s /\
    steps (fun s t u f => cn_step residualNew build theta s t (Some d) u f) s t0 u0 forcing = Ok l /\
    evolution t0 (fun _ => d) u0 (length forcing)
      (fun j t u u' => theta_step n A B theta d (given (nth j forcing None) (g t)) (given (nth j forcing None) (g (t + d))) t u u') l.
Proof. intros. apply cn_ok; auto. split; auto. Qed.
Print Assumptions C17_theta_scheme.

(** C17. The residual callback of the transient problem meets the contract, and its whole time loop
    is the theta scheme for its mass matrix, operator and right hand side. *)
Theorem C17_transient_problem : forall n mass A Atrans force build theta dt finalTime N u0,
  let residualNew := residual n mass A Atrans force false in
  0 <= theta <= 1 -> (0 < N)%nat -> finalTime <> 0 -> dt = finalTime / INR N ->
  (forall t, solves n (fun _ => mass) (fun _ => A) t (1 / dt) theta (build t (1 / dt) theta)) ->
  exists l, transient_solve n residualNew build theta dt finalTime N u0 = Ok l /\
    evolution 0 (fun _ => dt) u0 N (fun _ t u u' => theta_step n (fun _ => mass) (fun _ => A) theta dt (force t) (force (t + dt)) t u u') l.
Proof. intros. apply transient_ok; auto; [apply residual_meets|]. split; auto. intros _. split; intros t x; reflexivity. Qed.
Print Assumptions C17_transient_problem.

(** 2 u_t + 3 u = t with u(0) = 1, two steps of size 1 of the Crank-Nicolson scheme *)
Example C17_theta_example : residual_contract 1 (fun _ => ex_mass) (fun _ => ex_stiff) ex_force ex_residual /\
  (forall t, solves 1 (fun _ => ex_mass) (fun _ => ex_stiff) t (1 / 1) (1 / 2) (ex_build t (1 / 1) (1 / 2))) /\
  exists l, transient_solve 1 ex_residual ex_build (1 / 2) 1 2 2 [1] = Ok l /\ exists u, nth_error l 1 = Some (1, u) /\ rat u 0 = 2 / 7.
Proof. split; [apply residual_meets|]. split; [intros; apply ex_solves; lra|]. exact ex_transient. Qed.

(** C17. A run of the L1 scheme satisfies at every time t_m the equation with the L1
    approximation of the fractional derivative from all states since the start. *)
Theorem C17_l1_scheme : forall n A B g residualNew build gamma alpha dt N,
  residual_contract n A B g residualNew -> 0 < dt -> 0 < alpha < 1 -> gamma (2 - alpha) <> 0 ->
  (let c := gamma (2 - alpha) * Rpower dt alpha in solves n A B 0 1 c (build 0 1 c)) ->
  constant_in_time A -> constant_in_time B ->
  forall k t u, (k <= N)%nat ->
  exists s l, L1Scheme n gamma build alpha N dt = Ok s /\ l1_steps n residualNew N alpha dt k s t u = Ok l /\
    evolution t (fun _ => dt) u k (fun _ _ _ _ => True) l /\
    forall m, (1 <= m <= k)%nat -> l1_equation n A B g gamma alpha dt l m.
Proof. exact l1_thm. Qed.
Print Assumptions C17_l1_scheme.

Example C17_l1_example : residual_contract 1 (fun _ => ex_mass) (fun _ => ex_stiff) ex_force ex_residual /\
  exists s l, L1Scheme 1 (fun _ => 1) ex_build (1 / 2) 3 1 = Ok s /\ l1_steps 1 ex_residual 3 (1 / 2) 1 2 s 0 [1] = Ok l /\
    exists u, nth_error l 1 = Some (1, u) /\ rat u 0 = 3 / 5.
Proof. split; [apply residual_meets|]. exact ex_l1. Qed.

(** C17. A run of an implicit-explicit scheme with step sizes dts: consecutive states satisfy the
    stage and update equations of the tableau. The mass operator does not depend on time; if the solvers are
    built only once, the implicit operator does not either and all step sizes agree. *)
Theorem C17_imex : forall n A I E g residualNew build T d (timeDependent : bool),
  imex_contract n A I E g residualNew -> tableau_ok T d ->
  (forall t, solves n (fun _ => A) I t 1 0 (build t 1 0)) ->
  forall dt0 dts t u, length u = n ->
  (forall dt, In dt dts -> forall t, solves n (fun _ => A) I t 1 (d * dt) (build t 1 (d * dt))) ->
  (timeDependent = true \/ constant_in_time I /\ forall dt dt', In dt dts -> In dt' dts -> dt = dt') ->
  exists l, imex_steps n T residualNew build (IMEX n T dt0 timeDependent) t u dts = Ok l /\
    evolution t (fun j => nth j dts 0) u (length dts)
      (fun j t u u' => imex_equation n A I E (fun k => g (t + nth k (tb_c T) 0 * nth j dts 0)) T (nth j dts 0) t u u') l.
Proof. exact imex_ok. Qed.
Print Assumptions C17_imex.

(** C17. The tableaux of the code are of this kind; ARS3 meets the conditions for order
    three and koto those for order two. *)
Theorem C17_imex_tableaux :
  (tableau_ok EulerIMEX 1 /\ row_sums EulerIMEX) /\ (tableau_ok ARS3 ars3_gamma /\ order_three ARS3) /\ (tableau_ok koto 1 /\ order_two koto).
Proof. exact (conj euler_tableau (conj ars3_tableau koto_tableau)). Qed.
Print Assumptions C17_imex_tableaux.

Example C17_imex_example : imex_contract 1 (fun u => u) toy_I toy_E (fun _ => [0]) toy_residual /\
  exists l, imex_steps 1 ARS3 toy_residual toy_build (IMEX 1 ARS3 None true) 0 [1] [1; 1 / 2] = Ok l /\
    length l = 3%nat /\ exists t u, nth_error l 2 = Some (t, u) /\ t = 3 / 2.
Proof. split; [exact toy_contract|exact ex_imex]. Qed.

(** C17 fails for an implicit-explicit stepper whose solvers are built once and whose step size changes: the second step uses the solver of the
    first step size, since IMEX, unlike CrankNicolson, does not check dt. *)
Theorem C17_imex_step_size_refuted : exists l t u t' u',
  imex_steps 1 EulerIMEX toy_residual toy_build (IMEX 1 EulerIMEX None false) 0 [1] [1; 2] = Ok l /\
  nth_error l 1 = Some (t, u) /\ nth_error l 2 = Some (t', u') /\ t' = t + 2 /\
  ~ imex_equation 1 (fun u => u) toy_I toy_E (fun _ => [0]) EulerIMEX 2 t u u'.
Proof. exact imex_cache. Qed.
Print Assumptions C17_imex_step_size_refuted.

(** C17 fails for a tableau with a stage that has an implicit but no explicit part: the stage is not solved for. *)
Theorem C17_imex_implicit_stage_refuted : exists l t' u',
  imex_steps 1 implicit_only toy_residual toy_build (IMEX 1 implicit_only None false) 0 [1] [1] = Ok l /\
  nth_error l 1 = Some (t', u') /\ ~ imex_equation 1 (fun u => u) toy_I toy_E (fun _ => [0]) implicit_only 1 0 [1] u'.
Proof. exact imex_implicit_only. Qed.
Print Assumptions C17_imex_implicit_stage_refuted.

(** C17 fails for the adjoint problem: its stepper is built with dt and called with -dt, so that
    the check of the step size stops every run with at least one step. *)
Theorem C17_adjoint_refuted : forall n residualNew build theta dt finalTime b,
  0 <= theta <= 1 -> dt <> 0 -> b <> [] -> adjoint_solve n residualNew build theta dt finalTime b = Err EAssert.
Proof. exact adjoint_fails. Qed.
Print Assumptions C17_adjoint_refuted.

Example C17_adjoint_example : 0 <= 1 / 2 <= 1 /\ 1 <> 0 /\ adjoint_solve 1 ex_residual ex_build (1 / 2) 1 2 [[1]; [1]] = Err EAssert.
Proof. split; [lra|]. split; [lra|]. apply adjoint_fails; [lra|lra|discriminate]. Qed.
