(** Model of the Krylov solvers (base/PyNucleus_base/solvers.pyx).

    Simplifications: exact real arithmetic; work vectors are values of type [vec],
    so every write is a new vector; a division by zero (inf or nan in the code) is
    the error [EDiv0]; operators, preconditioner, inner product and norm are
    functions; the flags acc1/acc2 of the distributed inner products and the
    convergence master/client are left out; [x0] aliasing [x] behaves like a copy. *)
From Verif Require Import LinR.
Open Scope R_scope.

Definition rdiv (a b : R) : res R := if Req_EM_T b 0 then Err EDiv0 else Ok (a / b).

(** solvers.pyx:284-304, 324-327: the initial iterate and residual of every Krylov
    solver, with LinearOperator_{SCALAR}.pxi:183-194 *)
Definition residual (n : nat) (A : vec -> vec) (x b : vec) : vec := comb n (-1) (A x) 1 b.
Definition start (n : nat) (A : vec -> vec) (x0 : option vec) (b : vec) : vec * vec :=
  match x0 with
  | None => (vzero n, b)
  | Some x => (x, residual n A x b)
  end.
(** solvers.pyx:298-304 *)
Definition tolerance_of (rel : bool) (tolerance : R) (norm : vec -> R) (r : vec) : R :=
  if rel then tolerance * norm r else tolerance.

(** solvers.pyx:394-446.  [n] is the number of rows. *)
Section CG.
  Variables (n : nat) (A : vec -> vec) (prec : option (vec -> vec)).
  Variables (inner : vec -> vec -> R) (norm : vec -> R) (use2norm : bool) (b : vec).

  (** lines 412-421: search direction, (r, p), convergence criterion *)
  Definition cg_first (r : vec) : vec * R * R :=
    match prec with
    | None => let p := r in let bo := inner r p in (p, bo, sqrt bo)
    | Some B => let p := B r in let bo := inner r p in
                (p, bo, if use2norm then norm r else sqrt bo)
    end.
  (** lines 433-458: new (r, Br) product, criterion, and the new search direction as
      a function of beta/betaOld *)
  Definition cg_beta (r : vec) : R * R * vec :=
    match prec with
    | None => let beta := norm r in (beta * beta, beta, r)
    | Some B => let Br := B r in let beta := inner r Br in
                (beta, if use2norm then norm r else sqrt beta, Br)
    end.
  (** lines 426-460; [fuel] is maxiter - i *)
  Fixpoint cg_loop (tol : R) (fuel i k : nat) (x r p : vec) (betaOld : R) (residuals : list R)
      : res (nat * vec * list R) :=
    match fuel with
    | O => Ok (i, x, residuals)
    | S fuel =>
        let Ap := A p in
        alpha <- rdiv betaOld (inner p Ap) ;;
        let x := comb n 1 x alpha p in
        let r := comb n 1 r (- alpha) Ap in
        let '(r, k) := if (k =? 50)%nat then (residual n A x b, O) else (r, k) in
        let '(beta, convCrit, z) := cg_beta r in
        let residuals := residuals ++ [convCrit] in
        if Rle_dec convCrit tol then Ok (i, x, residuals)
        else
          temp <- rdiv beta betaOld ;;
          cg_loop tol fuel (S i) (S k) x r (comb n temp p 1 z) beta residuals
    end.
  Definition cg_solve (x0 : option vec) (rel : bool) (tolerance : R) (maxiter : nat)
      : res (nat * vec * list R) :=
    let '(x, r) := start n A x0 b in
    let tol := tolerance_of rel tolerance norm r in
    let '(p, betaOld, convCrit) := cg_first r in
    if Rle_dec convCrit tol then Ok (O, x, [convCrit])
    else cg_loop tol maxiter 0 0 x r p betaOld [convCrit].
End CG.

(** solvers.pyx:715-783 *)
Section BiCGStab.
  Variables (n : nat) (A : vec -> vec) (prec : option (vec -> vec)).
  Variables (inner : vec -> vec -> R) (norm : vec -> R) (b : vec).

  Definition bi_prec (v : vec) : vec := match prec with None => v | Some B => B v end.
  (** lines 756-783; [fuel] is maxiter - k *)
  Fixpoint bi_loop (tol : R) (r0 : vec) (fuel k : nat) (x r p : vec) (kappa : R) (residuals : list R)
      : res (nat * vec * list R) :=
    match fuel with
    | O => Ok (k, x, residuals)
    | S fuel =>
        let p2 := bi_prec p in
        let temp := A p2 in
        let tt := inner temp r0 in
        alpha <- rdiv kappa tt ;;
        let s := comb n 1 r (- alpha) temp in
        let s2 := bi_prec s in
        let temp2 := A s2 in
        omega <- rdiv (inner temp2 s) (norm temp2 * norm temp2) ;;
        let x := comb n 1 x 1 (comb n alpha p2 omega s2) in
        let r := comb n 1 s (- omega) temp2 in
        let resNorm := norm r in
        let residuals := residuals ++ [resNorm] in
        if Rlt_dec resNorm tol then Ok (k, x, residuals)
        else
          let kappaNew := inner r r0 in
          q <- rdiv kappaNew kappa ;;
          beta <- rdiv (q * alpha) omega ;;
          bi_loop tol r0 fuel (S k) x r (comb n 1 r beta (comb n 1 p (- omega) temp)) kappaNew residuals
    end.
  Definition bicgstab_solve (x0 : option vec) (rel : bool) (tolerance : R) (maxiter : nat)
      : res (nat * vec * list R) :=
    let '(x, r) := start n A x0 b in
    let tol := tolerance_of rel tolerance norm r in
    let r0 := bi_prec r in
    let kappa := inner r r0 in
    bi_loop tol r0 maxiter 0 x r r kappa [sqrt kappa].
End BiCGStab.
