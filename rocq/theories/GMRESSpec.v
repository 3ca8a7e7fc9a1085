(** Specification of GMRES: the residuals are least over the directions of the Krylov space. *)
From Verif Require Import LinR KrylovSpec.
Open Scope R_scope.

Definition inner_product (n : nat) (inner : vec -> vec -> R) : Prop :=
  (forall x y, inner x y = inner y x) /\
  (forall a x b y z, inner (comb n a x b y) z = a * inner x z + b * inner y z) /\
  (forall x, length x = n -> (exists i, (i < n)%nat /\ rat x i <> 0) -> 0 < inner x x).
(** a_0 V_0 + ... + a_{m-1} V_{m-1} *)
Definition lincomb (n m : nat) (a : nat -> R) (V : nat -> vec) : vec := tab n (fun l => rsum m (fun k => a k * rat (V k) l)).

Section Method.
  Variables (n : nat) (A : vec -> vec) (prec : option (vec -> vec)) (left : bool).
  Variables (inner : vec -> vec -> R) (norm : vec -> R) (b : vec).
  (** The residual that is made small: preconditioned from the left or not at all. *)
  Definition gres (x : vec) : vec :=
    match prec with Some B => if left then B (true_residual n A b x) else true_residual n A b x | None => true_residual n A b x end.
  (** The direction a basis vector stands for: preconditioned from the right or not at all. *)
  Definition gdir (q : vec) : vec := match prec with Some B => if left then q else B q | None => q end.
  Definition gop (d : vec) : vec := match prec with Some B => if left then B (A d) else A d | None => A d end.

  (** An orthonormal basis q_0, ..., q_{m-1} whose first vector spans r and in which the operator
      is a Hessenberg matrix. *)
  Definition arnoldi (r : vec) (m : nat) (q : nat -> vec) : Prop :=
    (forall j, (j < m)%nat -> length (q j) = n) /\
    (forall j k, (j < m)%nat -> (k < m)%nat -> inner (q j) (q k) = if (j =? k)%nat then 1 else 0) /\
    (exists g, r = lincomb n 1 g q) /\
    (forall k, (S k < m)%nat -> exists h, gop (gdir (q k)) = lincomb n (S (S k)) h q /\ 0 < h (S k)).
  (** [v] is the least residual over x plus the span of the first m directions. *)
  Definition least (x : vec) (m : nat) (q : nat -> vec) (v : R) : Prop :=
    let at_ a := norm (gres (comb n 1 x 1 (lincomb n m a (fun k => gdir (q k))))) in
    (exists a, at_ a = v) /\ forall a, v <= at_ a.

  (** Runs of restarted GMRES: [restarts] cycles are left, [x] is the iterate; the residuals that
      are reported and the result, which is missing if the method breaks down: the operator maps
      a space of directions into itself up to the machine precision [eps]. *)
  Inductive run (eps tol : R) (maxiter : nat) : nat -> vec -> list R -> option vec -> Prop :=
  | run_stop k x : norm (gres x) < tol -> run eps tol maxiter k x [] (Some x)
  | run_out x : run eps tol maxiter 0 x [] (Some x)
  | run_cycle k x m q rs a rs' o : tol <= norm (gres x) -> (1 <= m <= maxiter)%nat -> arnoldi (gres x) (S m) q ->
      length rs = m -> (forall j, (j < m)%nat -> least x (S j) q (nth j rs 0)) ->
      (forall j, (S j < m)%nat -> tol <= nth j rs 0) -> ((m < maxiter)%nat -> nth (m - 1) rs 0 < tol) ->
      let x' := comb n 1 x 1 (lincomb n m a (fun k => gdir (q k))) in
      norm (gres x') = nth (m - 1) rs 0 ->
      run eps tol maxiter k x' rs' o -> run eps tol maxiter (S k) x (rs ++ rs') o
  | run_break k x m q rs a : tol <= norm (gres x) -> (m < maxiter)%nat -> arnoldi (gres x) (S m) q ->
      length rs = m -> (forall j, (j < m)%nat -> least x (S j) q (nth j rs 0)) ->
      (forall j, (j < m)%nat -> tol <= nth j rs 0) ->
      norm (comb n 1 (gop (gdir (q m))) (-1) (lincomb n (S m) a q)) <= eps ->
      run eps tol maxiter (S k) x rs None.
End Method.

(** What the solver supports: preconditioners are linear unless they are flexible ones from the right. *)
Definition supported (n : nat) (prec : option (vec -> vec)) (left flexible : bool) : Prop :=
  match prec with
  | None => flexible = false
  | Some B => if left then linear n B /\ flexible = false else (linear n B \/ flexible = true) /\ forall v, length (B v) = n
  end.
(** Powers of an operator applied to a vector. *)
Fixpoint power (T : vec -> vec) (k : nat) (r : vec) : vec := match k with O => r | S k => T (power T k r) end.
