(** What time steppers for A(t, u_t) + B(t, u) = g(t) compute, without reference to how
    they do it. *)
From Verif Require Import LinR TimeModel.
Open Scope R_scope.

Definition operator := R -> vec -> vec.

(** The contract of the callback residual (timestepping.py:16-26): it returns
    coeff_residual*residual + coeff_A*A(t, ut) + coeff_B*B(t, u) - coeff_g*g(t). *)
Definition given {X} (o : option X) (d : X) : X := match o with Some x => x | None => d end.
Definition residual_contract (n : nat) (A B : operator) (g : R -> vec) (f : residual_fun) : Prop :=
  forall t u ut (r : vec) a b c d force, length r = n -> (a = 0 \/ ut <> None) -> (b = 0 \/ u <> None) ->
  exists r' : vec, f t u ut r a b c d force = Ok r' /\ length r' = n /\
    forall i, (i < n)%nat -> rat r' i = d * rat r i + a * rat (A t (given ut [])) i + b * rat (B t (given u [])) i - c * rat (given force (g t)) i.
(** A solver for a A(t, u) + b B(t, u) = rhs. *)
Definition solves (n : nat) (A B : operator) (t a b : R) (f : solver) : Prop :=
  forall rhs x, length (f rhs x) = n /\ forall i, (i < n)%nat -> a * rat (A t (f rhs x)) i + b * rat (B t (f rhs x)) i = rat rhs i.
Definition constant_in_time (A : operator) : Prop := forall t x, A t x = A 0 x.

(** One step of the theta scheme from u at time t to u' at time t + dt; g0 and g1 are the forcing at both times. *)
Definition theta_step (n : nat) (A B : operator) (theta dt : R) (g0 g1 : vec) (t : R) (u u' : vec) : Prop :=
  forall i, (i < n)%nat ->
    (rat (A (t + dt) u') i - rat (A t u) i) / dt + (theta * rat (B (t + dt) u') i + (1 - theta) * rat (B t u) i)
    = theta * rat g1 i + (1 - theta) * rat g0 i.

(** A sequence of states at the times t0, t0 + dt, ..., t0 + k dt, related by [step]. *)
Definition evolution (t0 : R) (dt : nat -> R) (u0 : vec) (k : nat) (step : nat -> R -> vec -> vec -> Prop) (l : list (R * vec)) : Prop :=
  length l = S k /\ nth_error l 0 = Some (t0, u0) /\
  (forall j t u, nth_error l j = Some (t, u) -> t = t0 + rsum j dt) /\
  forall j t u t' u', nth_error l j = Some (t, u) -> nth_error l (S j) = Some (t', u') -> step j t u u'.

(** The L1 scheme: the Caputo derivative of order alpha at t_m is replaced by
    sum_j w_j (u_{m-j} - u_{m-j-1}) with w_j = ((j+1)^(1-alpha) - j^(1-alpha)) / (Gamma(2-alpha) dt^alpha). *)
Definition power (x a : R) : R := if Req_EM_T x 0 then 0 else Rpower x a.
Definition l1_weight (gamma : R -> R) (alpha dt : R) (j : nat) : R :=
  (power (INR j + 1) (1 - alpha) - power (INR j) (1 - alpha)) / (gamma (2 - alpha) * Rpower dt alpha).
Definition l1_equation (n : nat) (A B : operator) (g : R -> vec) (gamma : R -> R) (alpha dt : R) (l : list (R * vec)) (m : nat) : Prop :=
  let tm := fst (nth m l (0, [])) in
  let Au := fun j => let '(t, u) := nth j l (0, []) in A t u in
  forall i, (i < n)%nat ->
    rsum m (fun j => l1_weight gamma alpha dt j * (rat (Au (m - j)%nat) i - rat (Au (m - j - 1)%nat) i))
    + rat (B tm (snd (nth m l (0, [])))) i = rat (g tm) i.

(** One step of an implicit-explicit Runge-Kutta scheme for A u_t + I(t, u) + E(t, u) = g(t). *)
Definition imex_contract (n : nat) (A : vec -> vec) (I E : operator) (g : R -> vec) (f : imex_residual) : Prop :=
  forall t u ut (r : vec) a b e c force, length r = n -> (a = 0 \/ ut <> None) -> (b = 0 /\ e = 0 \/ u <> None) ->
  exists r' : vec, f t u ut r a b e c force = Ok r' /\ length r' = n /\
    forall i, (i < n)%nat -> rat r' i = a * rat (A (given ut [])) i + b * rat (I t (given u [])) i + e * rat (E t (given u [])) i - c * rat (given force (g t)) i.
Definition entry (M : list (list R)) (k j : nat) : R := nth j (nth k M []) 0.
Definition imex_equation (n : nat) (A : vec -> vec) (I E : operator) (g : nat -> vec) (T : tableau) (dt t : R) (u u' : vec) : Prop :=
  let s := length (tb_c T) in
  let time := fun k => t + nth k (tb_c T) 0 * dt in
  exists U : nat -> vec,
    (forall k, (k < s)%nat -> forall i, (i < n)%nat ->
       rat (A (U k)) i =
       rat (A u) i - dt * rsum (S k) (fun j => entry (tb_AImpl T) k j * (rat (I (time j) (U j)) i - rat (g j) i))
                   - dt * rsum k (fun j => entry (tb_AExpl T) k j * rat (E (time j) (U j)) i)) /\
    forall i, (i < n)%nat ->
       rat (A u') i =
       rat (A u) i - dt * rsum s (fun j => nth j (tb_bImpl T) 0 * (rat (I (time j) (U j)) i - rat (g j) i))
                   - dt * rsum s (fun j => nth j (tb_bExpl T) 0 * rat (E (time j) (U j)) i).

(** Conditions on the tableau under which the stepper follows it: s stages; a stage
    without explicit part has no implicit part either; a column whose sum is zero and whose weight
    is zero is not used; the diagonal entries of the implicit stages are all equal to [d]. *)
Definition tableau_ok (T : tableau) (d : R) : Prop :=
  let s := length (tb_c T) in
  length (tb_bExpl T) = s /\ length (tb_bImpl T) = s /\ length (tb_AExpl T) = s /\ length (tb_AImpl T) = s /\
  Forall (fun r => length r = s) (tb_AExpl T) /\ Forall (fun r => length r = s) (tb_AImpl T) /\
  (forall k, (k < s)%nat -> (forall j, (j < s)%nat -> entry (tb_AExpl T) k j = 0) -> forall j, (j <= k)%nat -> entry (tb_AImpl T) k j = 0) /\
  (forall k, (k < s)%nat -> ~ (forall j, (j < s)%nat -> entry (tb_AExpl T) k j = 0) -> entry (tb_AImpl T) k k = d) /\
  (forall k, (k < s)%nat -> rsum s (fun i => entry (tb_AExpl T) i k) = 0 -> nth k (tb_bExpl T) 0 = 0 -> forall i, (k < i < s)%nat -> entry (tb_AExpl T) i k = 0) /\
  (forall k, (k < s)%nat -> rsum s (fun i => entry (tb_AImpl T) i k) = 0 -> nth k (tb_bImpl T) 0 = 0 -> forall i, (k <= i < s)%nat -> entry (tb_AImpl T) i k = 0).

(** Order conditions of a partitioned scheme (A1, b1), (A2, b2) with common times c. *)
Definition row_sums (T : tableau) : Prop :=
  let s := length (tb_c T) in
  forall k, (k < s)%nat -> rsum s (entry (tb_AExpl T) k) = nth k (tb_c T) 0 /\ rsum s (entry (tb_AImpl T) k) = nth k (tb_c T) 0.
Definition order_two (T : tableau) : Prop :=
  let s := length (tb_c T) in
  row_sums T /\ forall b, b = tb_bExpl T \/ b = tb_bImpl T ->
    rsum s (fun k => nth k b 0) = 1 /\ rsum s (fun k => nth k b 0 * nth k (tb_c T) 0) = 1 / 2.
Definition order_three (T : tableau) : Prop :=
  let s := length (tb_c T) in
  order_two T /\ forall b M, b = tb_bExpl T \/ b = tb_bImpl T -> M = tb_AExpl T \/ M = tb_AImpl T ->
    rsum s (fun k => nth k b 0 * (nth k (tb_c T) 0 * nth k (tb_c T) 0)) = 1 / 3 /\
    rsum s (fun k => nth k b 0 * rsum s (fun j => entry M k j * nth j (tb_c T) 0)) = 1 / 6.
