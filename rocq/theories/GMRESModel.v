(** Model of gmres_solver (base/PyNucleus_base/solvers.pyx:450-661).

    Simplifications as in KrylovModel.v: exact real arithmetic, vectors as values, a division by
    zero is the error [EDiv0]; the flags of the inner products and the convergence master/client
    are left out. The arrays H, Q, Z, c, s, gamma and y are functions of their indices, with
    arbitrary contents before the solve; their bounds are not modelled. gemvF is the product the
    BLAS version computes. *)
From Verif Require Import LinR KrylovModel.
Open Scope R_scope.

Definition put {X} (f : nat -> X) (k : nat) (v : X) : nat -> X := fun j => if (j =? k)%nat then v else f j.
Definition put2 (f : nat -> nat -> R) (i k : nat) (v : R) : nat -> nat -> R := fun a b => if ((a =? i) && (b =? k))%nat then v else f a b.
Definition scale (n : nat) (a : R) (x : vec) : vec := tab n (fun i => a * rat x i).
(** blas: gemvF(Q[:, :m], y[:m], r) *)
Definition gemvF (n m : nat) (Q : nat -> vec) (y : nat -> R) : vec := tab n (fun l => rsum m (fun k => y k * rat (Q k) l)).
(** line 511 *)
Definition eps : R := 1 / 1000000000000000.

(** lines 487-500: the work arrays *)
Record work := Work {
  w_Q : nat -> vec; w_Z : nat -> vec; w_H : nat -> nat -> R;
  w_c : nat -> R; w_s : nat -> R; w_gamma : nat -> R; w_y : nat -> R }.
(** how the inner loop ends: lines 608-609, lines 637-638, or after maxIter iterations *)
Inductive cause := Breakdown | Converged | Exhausted.

Section GMRES.
  Variables (n : nat) (A : vec -> vec) (prec : option (vec -> vec)) (isLeftPrec flexible : bool).
  Variables (inner : vec -> vec -> R) (norm : vec -> R) (b : vec).

  (** lines 545-552 *)
  Definition gm_residual (x : vec) : vec :=
    let Ar := A x in
    match prec with
    | Some B => if isLeftPrec then B (comb n (-1) Ar 1 b) else comb n 1 b (-1) Ar
    | None => comb n 1 b (-1) Ar
    end.
  (** lines 567-587: the new Z[:, i] (if flexible) and r *)
  Definition gm_expand (q : vec) : vec * vec :=
    match prec with
    | Some B => if isLeftPrec then let Ar := A q in (Ar, B Ar) else let Ar := B q in (Ar, A Ar)
    | None => let Ar := A q in (Ar, Ar)
    end.
  (** lines 590-592 and 596-598: the first k steps *)
  Fixpoint gm_orthogonalize (Q : nat -> vec) (i k : nat) (H : nat -> nat -> R) (r : vec) : (nat -> nat -> R) * vec :=
    match k with
    | O => (H, r)
    | S j => let '(H, r) := gm_orthogonalize Q i j H r in
             let H := put2 H j i (inner (Q j) r) in
             (H, comb n 1 r (- H j i) (Q j))
    end.
  (** lines 612-616: the first k steps *)
  Fixpoint gm_rotate (c s : nat -> R) (i k : nat) (H : nat -> nat -> R) : nat -> nat -> R :=
    match k with
    | O => H
    | S j => let H := gm_rotate c s i j H in
             let rho := H j i in let sigma := H (S j) i in
             put2 (put2 H j i (c j * rho + s j * sigma)) (S j) i (- s j * rho + c j * sigma)
    end.
  (** lines 564-638: [fuel] is maxiter - i; the result has the last value of i *)
  Fixpoint gm_loop (tol : R) (fuel i : nat) (w : work) (residuals : list R) : res (cause * nat * work * list R) :=
    match fuel with
    | O => Ok (Exhausted, pred i, w, residuals)
    | S fuel =>
        let '(z, r) := gm_expand (w_Q w i) in
        let Z := if flexible then put (w_Z w) i z else w_Z w in
        let '(H, r) := if (0 <? n)%nat then gm_orthogonalize (w_Q w) i (S i) (w_H w) r else (w_H w, r) in
        let H := put2 H (S i) i (norm r) in
        if Rlt_dec eps (Rabs (H (S i) i)) then
          a <- rdiv 1 (H (S i) i) ;;
          let Q := put (w_Q w) (S i) (scale n a r) in
          let H := gm_rotate (w_c w) (w_s w) i i H in
          let beta := sqrt (H i i ^ 2 + H (S i) i ^ 2) in
          ci <- rdiv (H i i) beta ;;
          si <- rdiv (H (S i) i) beta ;;
          let c := put (w_c w) i ci in
          let s := put (w_s w) i si in
          let H := put2 H i i beta in
          let gamma := put (w_gamma w) (S i) (- s i * w_gamma w i) in
          let gamma := put gamma i (c i * gamma i) in
          let w := Work Q Z H c s gamma (w_y w) in
          let residuals := residuals ++ [Rabs (gamma (S i))] in
          if Rlt_dec (Rabs (gamma (S i))) tol then Ok (Converged, i, w, residuals)
          else gm_loop tol fuel (S i) w residuals
        else Ok (Breakdown, i, Work (w_Q w) Z H (w_c w) (w_s w) (w_gamma w) (w_y w), residuals)
    end.
  (** lines 643-645: temp after the first m terms of its sum *)
  Fixpoint gm_temp (H : nat -> nat -> R) (y : nat -> R) (j m : nat) (temp : R) : R :=
    match m with O => temp | S m => let l := (j + 1 + m)%nat in gm_temp H y j m temp - H j l * y l end.
  (** lines 642-646 for j = k - 1, ..., 0 *)
  Fixpoint gm_back (H : nat -> nat -> R) (gamma : nat -> R) (i k : nat) (y : nat -> R) : res (nat -> R) :=
    match k with
    | O => Ok y
    | S j => v <- rdiv (gm_temp H y j (i - j) (gamma j)) (H j j) ;; gm_back H gamma i j (put y j v)
    end.
  (** lines 642-659 *)
  Definition gm_update (w : work) (i : nat) (x : vec) : res (work * vec) :=
    y <- gm_back (w_H w) (w_gamma w) i (S i) (w_y w) ;;
    let w := Work (w_Q w) (w_Z w) (w_H w) (w_c w) (w_s w) (w_gamma w) y in
    if flexible then
      let r := gemvF n (S i) (w_Z w) y in
      match prec with
      | Some _ => if isLeftPrec then Err EAssert else Ok (w, comb n 1 x 1 r)
      | None => Ok (w, comb n 1 x 1 r)
      end
    else
      let r := gemvF n (S i) (w_Q w) y in
      match prec with
      | Some B => if isLeftPrec then Ok (w, comb n 1 x 1 r) else Ok (w, comb n 1 x 1 (B r))
      | None => Ok (w, comb n 1 x 1 r)
      end.
  (** lines 541-661 *)
  Fixpoint gm_restarts (tol : R) (maxiter restarts : nat) (breakout : bool) (allIter : nat) (w : work) (x : vec) (residuals : list R) : res (nat * vec * list R) :=
    match restarts with
    | O => Ok (allIter, x, residuals)
    | S restarts =>
        if breakout then Ok (allIter, x, residuals)
        else
          let r := gm_residual x in
          let gamma := put (w_gamma w) 0 (norm r) in
          let residuals := match residuals with [] => [Rabs (gamma 0%nat)] | _ => residuals end in
          if Rlt_dec (Rabs (gamma 0%nat)) tol then Ok (allIter, x, residuals)
          else
            a <- rdiv 1 (gamma 0%nat) ;;
            let w := Work (put (w_Q w) 0 (scale n a r)) (w_Z w) (w_H w) (w_c w) (w_s w) gamma (w_y w) in
            ' (cs, i, w, residuals) <- gm_loop tol maxiter 0 w residuals ;;
            ' (w, x) <- gm_update w i x ;;
            gm_restarts tol maxiter restarts (match cs with Exhausted => false | _ => true end) (allIter + i) w x residuals
    end.
  (** lines 504-661 with lines 284-304 and 324-327; setup (line 487) asserts maxIter > 0 *)
  Definition gmres_solve (w : work) (x0 : option vec) (rel : bool) (tolerance : R) (maxiter restarts : nat) : res (nat * vec * list R) :=
    _ <- guard (0 <? maxiter)%nat EAssert ;;
    let '(x, r) := start n A x0 b in
    let tol := tolerance_of rel tolerance norm r in
    gm_restarts tol maxiter restarts false 0 w x [].
End GMRES.
