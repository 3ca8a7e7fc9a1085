(** Model of the time steppers (base/PyNucleus_base/timestepping.py) and of the time loop
    of the transient problem (nl/PyNucleus_nl/discretizedProblems.py).

    Simplifications: exact real arithmetic. A vector, or a group of vectors if there are
    several, is a list of n numbers. The callbacks residual and solverBuilder are
    arguments; a solver is a function of the right hand side and of what the solution
    vector holds before, its initial guess (setInitialGuess) is part of it. The flag
    explicitIslinearAndTimeIndependent is stored but never used. Printing, timers, movies
    and Dirichlet data are left out. *)
From Verif Require Import LinR MeshModel.
Open Scope R_scope.

Definition solver := vec -> vec -> vec.
(** t, u, ut, residual, coeff_A, coeff_B, coeff_g, coeff_residual, forcingVector *)
Definition residual_fun := R -> option vec -> option vec -> vec -> R -> R -> R -> R -> option vec -> res vec.
Definition builder := R -> R -> R -> solver.

(** [x *= c] and [x += c*y] *)
Definition scale (n : nat) (c : R) (x : vec) : vec := tab n (fun i => c * rat x i).
Definition axpy (n : nat) (x : vec) (c : R) (y : vec) : vec := tab n (fun i => rat x i + c * rat y i).
Definition needed {X} (o : option X) : res X := match o with Some x => Ok x | None => Err EType end.
Definition req (a b : R) : bool := if Req_EM_T a b then true else false.
Definition rdiv (a b : R) : res R := if Req_EM_T b 0 then Err EDiv0 else Ok (a / b).

(** discretizedProblems.py:788-821 without Dirichlet data; [mass] and [A] are the operators, [Atrans] is
    A(., trans=True), [force] the assembled right hand side *)
Definition residual (n : nat) (mass A Atrans : vec -> vec) (force : R -> vec) (adjoint : bool)
    (t : R) (u ut : option vec) (residual : vec) (coeff_A coeff_B coeff_g coeff_residual : R) (forcingVector : option vec) : res vec :=
  let r := if req coeff_residual 1 then residual else scale n coeff_residual residual in
  let coeff_A := if adjoint then - coeff_A else coeff_A in
  r <- (if req coeff_A 0 then Ok r else ut <- needed ut ;; Ok (axpy n r 1 (scale n coeff_A (mass ut)))) ;;
  r <- (if req coeff_B 0 then Ok r else u <- needed u ;; Ok (axpy n r 1 (scale n coeff_B (if adjoint then Atrans u else A u)))) ;;
  if req coeff_g 0 then Ok r
  else
    let temp := match forcingVector with None => force t | Some f => f end in
    Ok (axpy n r 1 (scale n (- coeff_g) temp)).

(** timestepping.py:28-35: what a stepper holds *)
Record stepper := Stepper {
  st_dt : option R;
  st_solverIsTimeDependent : bool;
  st_solver : option solver;
  st_rhs : vec
}.

(** timestepping.py:37-43 *)
Definition getSolver (build : builder) (s : stepper) (t coeff_A coeff_B : R) : solver * stepper :=
  if st_solverIsTimeDependent s then (build t coeff_A coeff_B, s)
  else match st_solver s with
       | Some f => (f, s)
       | None => let f := build 0 coeff_A coeff_B in (f, Stepper (st_dt s) (st_solverIsTimeDependent s) (Some f) (st_rhs s))
       end.

(** timestepping.py:94-98: the step used *)
Definition step_size (s : stepper) (dt : option R) : res R :=
  let dt := match dt with Some d => Some d | None => st_dt s end in
  match dt with
  | None => Err EAssert
  | Some d =>
      if st_solverIsTimeDependent s then Ok d
      else _ <- guard (match st_dt s with Some d' => req d d' | None => false end) EAssert ;; Ok d
  end.

(** ** CrankNicolson *)

(** timestepping.py:68-74; ExplicitEuler (178-187) and ImplicitEuler (190-199) set theta to 0 and 1 *)
Definition CrankNicolson (n : nat) (theta : R) (dt : option R) (solverIsTimeDependent : bool) : res stepper :=
  if Rle_dec 0 theta then if Rle_dec theta 1 then Ok (Stepper dt solverIsTimeDependent None (vzero n)) else Err EAssert else Err EAssert.

(** timestepping.py:76-91 *)
Definition setRHS (residualNew : residual_fun) (theta t dt : R) (rhs : vec) : res vec :=
  rhs <- residualNew t None None rhs 0 0 (- (1 - theta)) 0 None ;;
  residualNew (t + dt) None None rhs 0 0 (- theta) 1 None.

(** timestepping.py:93-110: the new time, the new solution *)
Definition cn_step (residualNew : residual_fun) (build : builder) (theta : R) (s : stepper) (t : R) (dt : option R) (u : vec) (forcingVector : option vec)
    : res (stepper * R * vec) :=
  dt <- step_size s dt ;;
  inv <- rdiv 1 dt ;;
  rhs <- residualNew t (Some u) (Some u) (st_rhs s) inv (- (1 - theta)) (- (1 - theta)) 0 forcingVector ;;
  rhs <- residualNew (t + dt) (Some u) (Some u) rhs 0 0 (- theta) 1 forcingVector ;;
  let s := Stepper (st_dt s) (st_solverIsTimeDependent s) (st_solver s) rhs in
  let '(f, s) := getSolver build s (t + dt) inv theta in
  Ok (s, t + dt, f rhs u).

(** The loop [for i in range(k): t = stepper(t, dt, u, forcingVector)]; the times and
    solutions after each step, starting with the initial ones. *)
Fixpoint steps (step : stepper -> R -> vec -> option vec -> res (stepper * R * vec)) (s : stepper) (t : R) (u : vec) (forcing : list (option vec))
    : res (list (R * vec)) :=
  match forcing with
  | [] => Ok [(t, u)]
  | f :: forcing => '(s, t', u') <- step s t u f ;; l <- steps step s t' u' forcing ;; Ok ((t, u) :: l)
  end.

(** discretizedProblems.py:784-786: np.linspace(0, finalTime, numTimeSteps+1) *)
Definition timesVector (finalTime : R) (numTimeSteps : nat) : list R := tab (S numTimeSteps) (fun k => INR k * (finalTime / INR numTimeSteps)).

(** discretizedProblems.py:847-852 *)
Definition buildRHS (n : nat) (residualNew : residual_fun) (theta dt : R) (times : list R) (numTimeSteps : nat) : res (list vec) :=
  for_range 0 numTimeSteps (fun k b => t <- aget times k ;; bk <- aget b k ;; bk <- setRHS residualNew theta t dt bk ;; aset b k bk) (repeat (vzero n) numTimeSteps).

(** discretizedProblems.py:891-897: the time loop, with the stepper of 834-845 and theta=1 for the implicit Euler scheme *)
Definition transient_solve (n : nat) (residualNew : residual_fun) (build : builder) (theta dt finalTime : R) (numTimeSteps : nat) (uInterior : vec)
    : res (list (R * vec)) :=
  s <- CrankNicolson n theta (Some dt) false ;;
  b <- buildRHS n residualNew theta dt (timesVector finalTime numTimeSteps) numTimeSteps ;;
  steps (fun s t u f => cn_step residualNew build theta s t (Some dt) u f) s 0 uInterior (map Some b).

(** discretizedProblems.py:920-930: the loop of solveAdjoint with the stepper of 854-864 (built with dt, called with -dt);
    b in the order in which it is used *)
Definition adjoint_solve (n : nat) (residualNew : residual_fun) (build : builder) (theta dt finalTime : R) (b : list vec) : res (list (R * vec)) :=
  s <- CrankNicolson n theta (Some dt) false ;;
  steps (fun s t u f => cn_step residualNew build theta s t (Some (- dt)) u f) s finalTime (vzero n) (map Some b).

(** ** L1Scheme *)

(** x**a for x = 0, 1, 2, ... and a > 0, as numpy has it *)
Definition npow (k : nat) (a : R) : R := match k with O => 0 | _ => Rpower (INR k) a end.
(** timestepping.py:215; [gamma] is the Gamma function *)
Definition l1_b (gamma : R -> R) (alpha : R) (maxTimeSteps : nat) : list R :=
  tab (S maxTimeSteps) (fun k => (npow (S k) (1 - alpha) - npow k (1 - alpha)) / gamma (2 - alpha)).

Record l1 := L1 {
  l1_memory : list vec;
  l1_bs : list R;
  l1_solver : solver;
  l1_rhs : vec;
  l1_rhs2 : vec;
  l1_k : nat
}.
(** timestepping.py:206-219 *)
Definition L1Scheme (n : nat) (gamma : R -> R) (build : builder) (alpha : R) (maxTimeSteps : nat) (dt : R) : res l1 :=
  if Rlt_dec 0 alpha then if Rlt_dec alpha 1 then
    let b := l1_b gamma alpha maxTimeSteps in
    b0 <- aget b 0 ;;
    q <- rdiv (Rpower dt alpha) b0 ;;
    Ok (L1 (repeat (vzero n) (S maxTimeSteps)) b (build 0 1 q) (vzero n) (vzero n) 1)
  else Err EAssert else Err EAssert.

(** timestepping.py:247-250 *)
Definition l1_coeff (b : list R) (k : nat) : res (list R) :=
  b0 <- aget b 0 ;; bk <- aget b (k - 1) ;; q <- rdiv bk b0 ;;
  c <- wr (alloc k) 0 q ;;
  c <- for_range 1 k (fun j c => x <- aget b (j - 1) ;; y <- aget b j ;; q <- rdiv (x - y) b0 ;; wr c (k - j) q) c ;;
  all_init c.
(** [np.dot(coeff, memory[:k, :])] *)
Definition np_dot (n : nat) (coeff : list R) (rows : list vec) : vec :=
  tab n (fun i => rsum (length coeff) (fun j => nth j coeff 0 * rat (nth j rows []) i)).

(** timestepping.py:221-267 with dt = self.dt *)
Definition l1_step (n : nat) (residualNew : residual_fun) (maxTimeSteps : nat) (alpha dt : R) (s : l1) (t : R) (u : vec) : res (l1 * R * vec) :=
  _ <- guard (l1_k s <=? maxTimeSteps)%nat EAssert ;;
  b0 <- aget (l1_bs s) 0 ;;
  q <- rdiv (- Rpower dt alpha) b0 ;;
  rhs <- residualNew (t + dt) None None (l1_rhs s) 0 0 q 0 None ;;
  rhs2 <- residualNew t None (Some u) (l1_rhs2 s) 1 0 0 0 None ;;
  memory <- (if (l1_k s =? 1)%nat then aset (l1_memory s) 0 rhs2 else Ok (l1_memory s)) ;;
  coeff <- l1_coeff (l1_bs s) (l1_k s) ;;
  let rhs2 := np_dot n coeff (firstn (l1_k s) memory) in
  let rhs := axpy n rhs 1 rhs2 in
  let u := l1_solver s rhs u in
  mk <- aget memory (l1_k s) ;;
  mk <- residualNew (t + dt) None (Some u) mk 1 0 0 0 None ;;
  memory <- aset memory (l1_k s) mk ;;
  Ok (L1 memory (l1_bs s) (l1_solver s) rhs rhs2 (S (l1_k s)), t + dt, u).
Fixpoint l1_steps (n : nat) (residualNew : residual_fun) (maxTimeSteps : nat) (alpha dt : R) (k : nat) (s : l1) (t : R) (u : vec) : res (list (R * vec)) :=
  match k with
  | O => Ok [(t, u)]
  | S k => '(s, t', u') <- l1_step n residualNew maxTimeSteps alpha dt s t u ;; l <- l1_steps n residualNew maxTimeSteps alpha dt k s t' u' ;; Ok ((t, u) :: l)
  end.

(** ** IMEX *)

(** t, u, ut, residual, coeff_A, coeff_I, coeff_E, coeff_g, forcingVector; coeff_residual is not given, hence 0 *)
Definition imex_residual := R -> option vec -> option vec -> vec -> R -> R -> R -> R -> option vec -> res vec.

(** timestepping.py:432-437 *)
Record tableau := Tableau { tb_c : list R; tb_bExpl : list R; tb_bImpl : list R; tb_AExpl : list (list R); tb_AImpl : list (list R) }.
Definition tb_s (T : tableau) : nat := length (tb_AExpl T).

Record imex := Imex {
  im_dt : option R;
  im_solverIsTimeDependent : bool;
  im_massSolve : option solver;
  im_implicitSolve : option solver;
  im_U : list vec;
  im_UExpl : list vec;
  im_UImpl : list vec;
  im_rhs : vec;
  im_force : list vec
}.
(** timestepping.py:431-446 *)
Definition IMEX (n : nat) (T : tableau) (dt : option R) (solverIsTimeDependent : bool) : imex :=
  let z := repeat (vzero n) (tb_s T) in Imex dt solverIsTimeDependent None None z z z (vzero n) z.

(** timestepping.py:451-457 *)
Definition getMassSolver (build : builder) (s : imex) (t : R) : solver * option solver :=
  if im_solverIsTimeDependent s then (build t 1 0, im_massSolve s)
  else match im_massSolve s with Some f => (f, Some f) | None => let f := build t 1 0 in (f, Some f) end.
(** timestepping.py:459-465 *)
Definition getImplicitSolver (build : builder) (timeDep : bool) (cache : option solver) (t alpha beta : R) : solver * option solver :=
  if timeDep then (build t alpha beta, cache)
  else match cache with Some f => (f, Some f) | None => let f := build t alpha beta in (f, Some f) end.

(** [A[:, k].sum()] *)
Definition column (A : list (list R)) (k : nat) : res (list R) :=
  c <- for_range 0 (length A) (fun i c => r <- aget A i ;; x <- aget r k ;; Ok (c ++ [x])) [] ;; Ok c.
Definition list_sum (l : list R) : R := fold_left Rplus l 0.
(** [A[:, k].sum() != 0. or b[k] != 0.] *)
Definition used (A : list (list R)) (b : list R) (k : nat) : res bool :=
  c <- column A k ;;
  if req (list_sum c) 0 then bk <- aget b k ;; Ok (negb (req bk 0)) else Ok true.
(** [np.absolute(A[k, :]).max() == 0.] *)
Definition zero_row (A : list (list R)) (k : nat) : res bool :=
  r <- aget A k ;; Ok (forallb (fun x => req x 0) r).

Section Imex.
  Variables (n : nat) (T : tableau) (residualNew : imex_residual) (build : builder).

  (** timestepping.py:477-497 *)
  Definition imex_force (t dt : R) (forcingVector : option (list vec)) (force : list vec) : res (list vec) :=
    for_range 0 (tb_s T) (fun k force =>
      b <- used (tb_AImpl T) (tb_bImpl T) k ;;
      if b then
        ck <- aget (tb_c T) k ;; fk <- aget force k ;;
        f <- match forcingVector with None => Ok None | Some l => x <- aget l k ;; Ok (Some x) end ;;
        fk <- residualNew (t + ck * dt) None None fk 0 0 0 (-1) f ;;
        aset force k fk
      else Ok force) force.

  (** timestepping.py:515-523: the right hand side of stage k *)
  Definition imex_rhs (k : nat) (dt : R) (UExpl UImpl force : list vec) (rhs : vec) : res vec :=
    rhs <- for_range 0 k (fun j rhs =>
      a <- get2 (tb_AExpl T) k j ;;
      rhs <- (if req a 0 then Ok rhs else x <- aget UExpl j ;; Ok (axpy n rhs (- (dt * a)) x)) ;;
      a <- get2 (tb_AImpl T) k j ;;
      (if req a 0 then Ok rhs else x <- aget UImpl j ;; Ok (axpy n rhs (- (dt * a)) x))) rhs ;;
    for_range 0 (S k) (fun j rhs =>
      a <- get2 (tb_AImpl T) k j ;;
      if req a 0 then Ok rhs else x <- aget force j ;; Ok (axpy n rhs (dt * a) x)) rhs.

  (** timestepping.py:500-549: stage k; [u] is the copy of unew *)
  Definition imex_stage (timeDep : bool) (t dt : R) (u ut : vec) (force : list vec) (k : nat)
      (st : list vec * list vec * list vec * vec * option solver) : res (list vec * list vec * list vec * vec * option solver) :=
    let '(U, UExpl, UImpl, rhs, cache) := st in
    ck <- aget (tb_c T) k ;;
    z <- zero_row (tb_AExpl T) k ;;
    '(U, rhs, cache) <- (if (z : bool) then U <- aset U k u ;; Ok (U, rhs, cache)
      else
        rhs <- residualNew (t + dt) None (Some ut) rhs 1 0 0 0 None ;;
        rhs <- imex_rhs k dt UExpl UImpl force rhs ;;
        a <- get2 (tb_AImpl T) k k ;;
        let '(f, cache) := getImplicitSolver build timeDep cache (t + ck * dt) 1 (a * dt) in
        Uk <- aget U k ;;
        U <- aset U k (f rhs Uk) ;;
        Ok (U, rhs, cache)) ;;
    Uk <- aget U k ;;
    b <- used (tb_AExpl T) (tb_bExpl T) k ;;
    UExpl <- (if b then x <- aget UExpl k ;; x <- residualNew (t + ck * dt) (Some Uk) None x 0 0 1 0 None ;; aset UExpl k x else Ok UExpl) ;;
    b <- used (tb_AImpl T) (tb_bImpl T) k ;;
    UImpl <- (if b then x <- aget UImpl k ;; x <- residualNew (t + ck * dt) (Some Uk) None x 0 1 0 0 None ;; aset UImpl k x else Ok UImpl) ;;
    Ok (U, UExpl, UImpl, rhs, cache).

  (** timestepping.py:562-570 *)
  Definition imex_final (dt : R) (UExpl UImpl force : list vec) (rhs : vec) : res vec :=
    rhs <- for_range 0 (tb_s T) (fun k rhs =>
      b <- aget (tb_bExpl T) k ;;
      rhs <- (if req b 0 then Ok rhs else x <- aget UExpl k ;; Ok (axpy n rhs (- (dt * b)) x)) ;;
      b <- aget (tb_bImpl T) k ;;
      (if req b 0 then Ok rhs else x <- aget UImpl k ;; Ok (axpy n rhs (- (dt * b)) x))) rhs ;;
    for_range 0 (tb_s T) (fun k rhs =>
      b <- aget (tb_bImpl T) k ;;
      if req b 0 then Ok rhs else x <- aget force k ;; Ok (axpy n rhs (dt * b) x)) rhs.

  (** timestepping.py:467-576 *)
  Definition stepOfPicard (s : imex) (t : R) (dt : option R) (ut unew : vec) (forcingVector : option (list vec)) : res (imex * R * vec) :=
    let dt := match dt with Some d => Some d | None => im_dt s end in
    match dt with
    | None => Err EAssert
    | Some dt =>
        force <- imex_force t dt forcingVector (im_force s) ;;
        '(U, UExpl, UImpl, rhs, cache) <- for_range 0 (tb_s T) (imex_stage (im_solverIsTimeDependent s) t dt unew ut force)
           (im_U s, im_UExpl s, im_UImpl s, im_rhs s, im_implicitSolve s) ;;
        rhs <- residualNew (t + dt) None (Some ut) rhs 1 0 0 0 None ;;
        rhs <- imex_final dt UExpl UImpl force rhs ;;
        let '(f, mass) := getMassSolver build s t in
        Ok (Imex (im_dt s) (im_solverIsTimeDependent s) mass cache U UExpl UImpl rhs force, t + dt, f rhs unew)
    end.
  (** timestepping.py:595-596 *)
  Definition imex_step (s : imex) (t : R) (dt : option R) (unew : vec) (forcingVector : option (list vec)) : res (imex * R * vec) :=
    stepOfPicard s t dt unew unew forcingVector.
  Fixpoint imex_steps (s : imex) (t : R) (u : vec) (dts : list R) : res (list (R * vec)) :=
    match dts with
    | [] => Ok [(t, u)]
    | dt :: dts => '(s, t', u') <- imex_step s t (Some dt) u None ;; l <- imex_steps s t' u' dts ;; Ok ((t, u) :: l)
    end.
End Imex.

(** timestepping.py:605-611 *)
Definition EulerIMEX : tableau := Tableau [0; 1] [1; 0] [0; 1] [[0; 0]; [1; 0]] [[0; 0]; [0; 1]].
(** timestepping.py:627-640 *)
Definition ars3_gamma : R := (3 + sqrt 3) / 6.
Definition ARS3 : tableau :=
  let gamma := ars3_gamma in
  Tableau [0; gamma; 1 - gamma] [0; 1 / 2; 1 / 2] [0; 1 / 2; 1 / 2]
    [[0; 0; 0]; [gamma; 0; 0]; [gamma - 1; 2 * (1 - gamma); 0]]
    [[0; 0; 0]; [0; gamma; 0]; [0; 1 - 2 * gamma; gamma]].
(** timestepping.py:660-670 *)
Definition koto : tableau :=
  Tableau [0; 1; 1 / 2; 1] [0; 0; 1; 0] [0; -1; 1; 1]
    [[0; 0; 0; 0]; [1; 0; 0; 0]; [1 / 2; 0; 0; 0]; [0; 0; 1; 0]]
    [[0; 0; 0; 0]; [0; 1; 0; 0]; [0; - (1 / 2); 1; 0]; [0; -1; 1; 1]].
