(** Tensor products of Lagrange polynomials, quadrature and nested interpolation. *)
From Verif Require Import Util Lin DenseModel DenseSpec H2Model H2Spec TransferModel.
From Verif Require InterpSpec.
Local Open Scope nat_scope.

Fixpoint prodf (n : nat) (f : nat -> Qc) : Qc := match n with O => 1%Qc | S k => (prodf k f * f k)%Qc end.

(** Digit [l] of the number [I] written with [d] digits in base [m], the digit
    of the highest power first. *)
Definition digit (m d I l : nat) : nat := (I / m ^ (d - 1 - l)) mod m.
Definition digits (m d I : nat) : list nat := tab d (digit m d I).

(** The Lagrange polynomial of node [i] among [z 0], ..., [z (m-1)]. *)
Definition lag (m : nat) (z : nat -> Qc) (i : nat) (x : Qc) : Qc :=
  prodf m (fun k => if k =? i then 1%Qc else ((x - z k) / (z i - z k))%Qc).

(** Coordinate [l] of node [i] of a cluster: the node [cheb] of [-1, 1] moved to
    the box. *)
Definition node (G : geo) (n : ginfo) (l i : nat) : Qc :=
  let b := nth l (gbox n) (0, 0)%Qc in (fst b + (vat (cheb G (order n)) i + 1) * half * (snd b - fst b))%Qc.
(** Interpolation point number [I] and its Lagrange polynomial. *)
Definition gpoint (G : geo) (n : ginfo) (I : nat) : list Qc :=
  tab (dim G) (fun l => node G n l (digit (order n) (dim G) I l)).
Definition LT (G : geo) (n : ginfo) (I : nat) (x : list Qc) : Qc :=
  prodf (dim G) (fun l => lag (order n) (node G n l) (digit (order n) (dim G) I l) (vat x l)).
(** The interpolant of a function. *)
Definition interpolate (G : geo) (n : ginfo) (f : list Qc -> Qc) (x : list Qc) : Qc :=
  sumf (order n ^ dim G) (fun I => f (gpoint G n I) * LT G n I x)%Qc.

(** A polynomial of degree less than [m] in each of [d] variables. *)
Definition poly (m d : nat) (f : list Qc -> Qc) : Prop := forall l x, l < d -> length x = d ->
  exists c, length c <= m /\ forall t, f (upd x l t) = InterpSpec.evalp c t.

(** A cluster with a box that is not flat and different nodes. *)
Record wf_cluster (G : geo) (n : ginfo) : Prop := WfC {
  wc_order : 1 <= order n;
  wc_box : length (gbox n) = dim G;
  wc_wide : forall b, In b (gbox n) -> fst b <> snd b;
  wc_nodes : length (cheb G (order n)) = order n;
  wc_distinct : NoDup (cheb G (order n));
  wc_dofs : NoDup (gdofs n) }.
(** Arrays of the right sizes. *)
Record wf_geo (G : geo) : Prop := WfG {
  wg_dim : 1 <= dim G;
  wg_weights : forall m, length (weights G m) = num_nodes G m;
  wg_PHI : forall m, wf_dense (dofs_per_element G) (num_nodes G m) (PHI G m);
  wg_nodes : forall m c, wf_dense (num_nodes G m) (dim G) (qnodes G m c) }.

(** Two numbers are equal or further apart than the tolerance. *)
Definition clear (tol a b : Qc) : Prop := a = b \/ (tol < a - b)%Qc \/ (tol < b - a)%Qc.
(** The nodes of parent and child. *)
Definition clear_nodes (G : geo) (p c : ginfo) : Prop := forall l i j, l < dim G -> i < order p -> j < order c ->
  clear tol8 (node G p l i) (node G c l j).
(** The nodes of a leaf and of the quadrature rule. *)
Definition clear_leaf (G : geo) (n : ginfo) : Prop := forall cell j l i, In cell (gcells n) ->
  j < num_nodes G (order n) -> l < dim G -> i < order n -> clear tol9 (dmat (qnodes G (order n) cell) j l) (node G n l i).

(** All clusters of a tree, with their parents. *)
Fixpoint gnodes (t : gnode) : list gnode := let 'GNode _ cs := t in t :: flat_map gnodes cs.
Definition gkids (t : gnode) : list gnode := let 'GNode _ cs := t in cs.
Record wf_tree (G : geo) (t : gnode) : Prop := WfT {
  wt_nodes : forall s, In s (gnodes t) -> wf_cluster G (ginf s);
  wt_leaf : forall s, In s (gnodes t) -> gkids s = [] -> clear_leaf G (ginf s);
  wt_kid : forall s c, In s (gnodes t) -> In c (gkids s) -> clear_nodes G (ginf s) (ginf c) }.

(** Node [j] of the quadrature rule in a cell, and the quadrature over the cells
    of a leaf of [F] times the basis function of [d]; the rule is that of
    the order of the leaf. *)
Definition qpoint (G : geo) (m cell j : nat) : list Qc := tab (dim G) (dmat (qnodes G m cell) j).
Definition quad (G : geo) (n : ginfo) (d : nat) (F : list Qc -> Qc) : Qc :=
  if existsb (Nat.eqb d) (gdofs n) then
    suml (map (fun cell => sumf (dofs_per_element G) (fun k =>
      if (cell2dof G cell k =? Z.of_nat d)%Z then
        sumf (num_nodes G (order n)) (fun j =>
          vol G cell * vat (weights G (order n)) j * dmat (PHI G (order n)) k j * F (qpoint G (order n) cell j))%Qc
      else 0%Qc)) (gcells n))
  else 0%Qc.

(** The sum of the quadratures over the leaves of a cluster: of [F] itself, and of
    [F] interpolated in each cluster on the way from the cluster to the leaf. *)
Fixpoint integral (G : geo) (t : gnode) (d : nat) (F : list Qc -> Qc) : Qc :=
  let 'GNode n cs := t in
  match cs with [] => quad G n d F | _ => suml (map (fun c => integral G c d F) cs) end.
Fixpoint nested (G : geo) (t : gnode) (d : nat) (F : list Qc -> Qc) : Qc :=
  let 'GNode n cs := t in
  match cs with [] => quad G n d F | _ => suml (map (fun c => nested G c d (interpolate G (ginf c) F)) cs) end.

(** No cluster has a higher order than one of its children. *)
Definition orders_grow (t : gnode) : Prop := forall s c, In s (gnodes t) -> In c (gkids s) -> order (ginf s) <= order (ginf c).

(** The work arrays before the first leaf and the first transfer matrix. *)
Definition pits0 (G : geo) : list Z * list Z := (repeat 0%Z (dim G), repeat 0%Z (dim G)).
Definition leaf0 (G : geo) : lstate := LS 0 [] [] [] (repeat 0%Z (dim G)).

(** Node [s] of the tree with transfer matrices and values belongs to cluster
    [g]: its basis consists of the quadratures of the Lagrange polynomials of the
    cluster, interpolated on the way to the leaves. *)
Definition stands_for (G : geo) (g : gnode) (s : hnode) : Prop :=
  nid (inf s) = gid (ginf g) /\ ksize (inf s) = order (ginf g) ^ dim G /\
  forall d I, I < order (ginf g) ^ dim G -> bas 0 s d I = nested G g d (LT G (ginf g) I).
