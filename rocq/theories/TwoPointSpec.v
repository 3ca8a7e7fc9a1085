(** What is expected of functions of two points and of fractional orders. *)
From Coq Require Import R_sqrt Ratan Rtrigo_def.
From Verif Require Import LinR InteractionModel TwoPointModel.
Open Scope R_scope.
Set Default Proof Using "Type".

(** The function has the same value (or error) at (x, y) and at (y, x), through
    __call__ and through the pointers used by the assembly. *)
Definition symmetric_on (n : nat) (f : tpf) : Prop :=
  forall x y, length x = n -> length y = n ->
  tp_call f x y = tp_call f y x /\ tp_evalPtr f n x y = tp_evalPtr f n y x.
(** Both methods give the same. *)
Definition methods_agree (n : nat) (f : tpf) : Prop :=
  forall x y, length x = n -> length y = n -> tp_evalPtr f n x y = tp_call f x y.

(** Entry (i, j) of a table of numbers some of which are missing: the mean of the
    diagonal entries takes the place of a missing one. *)
Definition raw (m : list (list (option R))) (i j : nat) : option R := nth j (nth i m []) None.
Definition the (o : option R) : R := match o with Some v => v | None => 0 end.
Definition filled (m : list (list (option R))) (i j : nat) : R :=
  match raw m i j with Some v => v | None => (the (raw m i i) + the (raw m j j)) / 2 end.
Definition table (m : list (list R)) (i j : nat) : R := nth j (nth i m []) 0.
Definition square {A} (m : list (list A)) : Prop := forall row, In row m -> length row = length m.

(** What a user must promise: functions given as symmetric are symmetric; values
    of blocks are equal or further apart than the tolerance of the code. *)
Fixpoint honest_order (e : oexpr) : Prop :=
  match e with
  | OLambda _ _ _ sym f => sym = true -> forall x y, length x = length y -> f x y = f y x
  | OPiecewise _ _ sVals => forall i j, (i < length sVals)%nat -> (j < length sVals)%nat ->
      filled sVals i j = filled sVals j i \/ 1 / 10 ^ 10 <= Rabs (filled sVals i j - filled sVals j i)
  | OSum a _ b _ => honest_order a /\ honest_order b
  | _ => True
  end.
(** The two-dimensional case of interfaceTwoPoint is left out, see the refutation. *)
Fixpoint honest (n : nat) (e : texpr) : Prop :=
  match e with
  | XLambda f sym => sym = true -> forall x y, length x = n -> length y = n -> f x y = f y x
  | XInterface _ _ _ _ => n = 1%nat
  | XLookup _ A sym => sym = true -> square A /\ forall i j, table A i j = table A j i
  | XOrder o => honest_order o
  | XInverse e => honest n e
  | XMul a b => honest n a /\ honest n b
  | _ => True
  end.
(** Sums of orders and, where points coincide, matrices are left out, see the refutations. *)
Definition no_sum (e : oexpr) : Prop := match e with OSum _ _ _ _ => False | _ => True end.
Fixpoint plain (n : nat) (e : texpr) : Prop :=
  match e with
  | XMatrix _ => False
  | XTempered _ dim => dim = n
  | XSingle e => forall x, length x = n -> ex_evalPtr e n x = ex_eval e x
  | XOrder o => no_sum o
  | XInverse e => plain n e
  | XMul a b => plain n a /\ plain n b
  | _ => True
  end.

(** The values of an order lie between its attributes min and max. *)
Definition in_range (o : order) : Prop :=
  (forall x y v, tp_call (o_tp o) x y = Ok v -> o_min o <= v <= o_max o) /\
  (forall n x y v, tp_evalPtr (o_tp o) n x y = Ok v -> o_min o <= v <= o_max o).
(** The shape functions of every cell are nonnegative and sum up to one, and every
    one belongs to a degree of freedom. *)
Definition convex_shapes (L : lookup) : Prop :=
  forall x c b, lk_find L x = Some (c, b) ->
  (forall k, (k < lk_dofs L)%nat -> 0 <= lk_shape L k b /\ (0 <= lk_dof L c k)%Z) /\
  rsum (lk_dofs L) (fun k => lk_shape L k b) = 1.
Definition range_ok (e : oexpr) : Prop :=
  match e with
  | OLambda _ smin smax _ f => forall x y, smin <= f x y <= smax
  | OPiecewise _ ind sVals => forall x, - 1 < ind x < INR (length sVals)
  | OSmoothedLeftRight _ _ r _ | OLinearLeftRight _ _ r _ => 0 < r
  | OFe L u smin smax => convex_shapes L /\ forall v, In v u -> smin <= v <= smax
  | OSum _ _ _ _ => False
  | _ => True
  end.

(** The parameters of an order, and the order with other parameters. *)
Definition parameters (e : oexpr) : option (list R) :=
  match e with
  | OConst s | OConstNonSym s => Some [s]
  | OSmoothedLeftRight sl sr _ _ | OLinearLeftRight sl sr _ _ => Some [sl; sr]
  | OFe _ u _ _ => Some u
  | _ => None
  end.
Definition with_parameters (e : oexpr) (p : list R) : oexpr :=
  match e with
  | OConst _ => OConst (nth 0 p 0)
  | OConstNonSym _ => OConstNonSym (nth 0 p 0)
  | OSmoothedLeftRight _ _ r itf => OSmoothedLeftRight (nth 0 p 0) (nth 1 p 0) r itf
  | OLinearLeftRight _ _ r itf => OLinearLeftRight (nth 0 p 0) (nth 1 p 0) r itf
  | OFe L _ smin smax => OFe L p smin smax
  | _ => e
  end.
(** The order can be evaluated at x: there is a first coordinate; a cell contains
    x, and its degrees of freedom are those of the vector. *)
Definition evaluable (e : oexpr) (x : point) : Prop :=
  match e with
  | OSmoothedLeftRight _ _ _ _ | OLinearLeftRight _ _ _ _ => (1 <= length x)%nat
  | OFe L u _ _ => length u = lk_num L /\
      exists c b, lk_find L x = Some (c, b) /\ forall k, (k < lk_dofs L)%nat -> (lk_dof L c k < Z.of_nat (lk_num L))%Z
  | _ => True
  end.

(** Which of four values belongs to two points, given what is said of each of them. *)
Definition choose (P : point -> Prop) (x y : point) (a b c d v : R) : Prop :=
  (P x -> P y -> v = a) /\ (P x -> ~ P y -> v = b) /\ (~ P x -> P y -> v = c) /\ (~ P x -> ~ P y -> v = d).
(** A missing mixed value is the mean of the other two. *)
Definition default (a b : R) (c : option R) : R := match c with Some v => v | None => (a + b) / 2 end.
Definition left_of (itf : R) (x : point) : Prop := nth 0 x 0 < itf.
Definition on_island (r r2 : R) (x : point) : Prop := forall i, (i < 2)%nat -> r <= Rabs (nth i x 0) <= r2.
Definition inside (r : R) (c : point) (x : point) : Prop :=
  rsum (length c) (fun i => (nth i x 0 - nth i c 0) ^ 2) < r * r.
(** Layer i of boundaries bs: between boundaries i and i+1, where the first and
    the last layer have no end; a boundary belongs to the layer below. *)
Definition in_layer (bs : list R) (i : nat) (c : R) : Prop :=
  let n := (length bs - 1)%nat in
  (i < n)%nat /\ ((0 < i)%nat -> nth i bs 0 < c) /\ ((i < n - 1)%nat -> c <= nth (S i) bs 0).
Definition increasing (bs : list R) : Prop := forall i, (S i < length bs)%nat -> nth i bs 0 < nth (S i) bs 0.
(** The finite element function with coefficients A in both variables. *)
Definition shape_at (L : lookup) (c : nat) (b : list R) (i : nat) : R :=
  rsum (lk_dofs L) (fun k => if Z.eqb (lk_dof L c k) (Z.of_nat i) then lk_shape L k b else 0).
(** Squared distance, and the quadratic form of a matrix at the difference of two points. *)
Definition gap2 (n : nat) (x y : point) : R := rsum n (fun i => (nth i x 0 - nth i y 0) ^ 2).
Definition quad (n : nat) (m : list (list R)) (x y : point) : R :=
  rsum n (fun i => rsum n (fun j => (nth i x 0 - nth i y 0) * table m i j * (nth j x 0 - nth j y 0))).
(** A step from sl to sr of half width r around an interface: [shape] is applied to
    the relative position in between. *)
Definition is_step (shape : R -> R) (sl sr r itf c v : R) : Prop :=
  (c <= itf - r -> v = sl) /\ (itf + r <= c -> v = sr) /\
  (itf - r <= c <= itf + r -> v = sl + (sr - sl) * shape ((c - (itf - r)) / (2 * r))).
