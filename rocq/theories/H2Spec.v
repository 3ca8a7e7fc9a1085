(** What a hierarchical matrix stands for: near field plus, for each far field
    pair, the product of the two nested bases with the interpolated kernel. *)
From Verif Require Import Util Lin CSRModel CSRSpec DenseModel DenseSpec H2Model.
Local Open Scope nat_scope.

(** All nodes of a tree. *)
Fixpoint nodes (t : hnode) : list hnode := let 'HNode _ cs := t in t :: flat_map nodes cs.

(** Entry (k, i) of component [comp] of the values of a leaf, and the transfer
    matrix of a node. *)
Definition leafval (n : ninfo) (comp k i : nat) : Qc := dmat (nth comp (value n) (Dense 0 0 [])) k i.
Definition tmat (n : ninfo) : mat := match transferOp n with Some T => dmat T | None => fun _ _ => 0%Qc end.

(** The basis of a cluster: entry [i] of the degree of freedom [dof].  For a leaf
    it is the row of values of this degree of freedom, for other nodes it comes
    from the children through their transfer matrices. *)
Fixpoint bas (comp : nat) (t : hnode) (dof i : nat) : Qc :=
  let 'HNode n cs := t in
  match cs with
  | [] => sumf (length (ldofs n)) (fun k => if nth k (ldofs n) 0 =? dof then leafval n comp k i else 0%Qc)
  | _ => suml (map (fun c => sumf (ksize (inf c)) (fun j => bas comp c dof j * tmat (inf c) i j)%Qc) cs)
  end.

(** The block of a pair, and the matrix of all pairs and all components. *)
Definition block_of (comp : nat) (p : pair) : mat := fun r c =>
  sumf (ksize (inf (p1 p))) (fun a => sumf (ksize (inf (p2 p))) (fun b =>
    bas comp (p1 p) r a * dmat (interpolant p) a b * bas comp (p2 p) c b)%Qc).
Definition farmat (ncomp : nat) (ps : list pair) : mat := fun r c =>
  sumf ncomp (fun comp => suml (map (fun p => block_of comp p r c) ps)).
Definition h2mat (M : h2) : mat := fun r c => (matrix (Anear M) r c + farmat (components M) (far M) r c)%Qc.

(** Shapes: the tree belongs to [N] degrees of freedom and values with [ncomp]
    components, and transfer matrices lead from the coefficients of a child to
    those of its parent.  Numbers of nodes differ. *)
Record shaped (N ncomp : nat) (t : hnode) : Prop := Shaped {
  sh_ids : NoDup (map (fun s => nid (inf s)) (nodes t));
  sh_leaf : forall s, In s (nodes t) -> kids s = [] ->
    (forall d, In d (ldofs (inf s)) -> d < N) /\ length (value (inf s)) = ncomp /\
    forall V, In V (value (inf s)) -> wf_dense (length (ldofs (inf s))) (ksize (inf s)) V;
  sh_transfer : forall s c, In s (nodes t) -> In c (kids s) ->
    exists T, transferOp (inf c) = Some T /\ wf_dense (ksize (inf s)) (ksize (inf c)) T }.

(** No node has more coefficients than one of its children. *)
Definition no_taller (t : hnode) : Prop := forall s c, In s (nodes t) -> In c (kids s) -> ksize (inf s) <= ksize (inf c).

(** The pairs consist of nodes of the tree and a matrix of the right shape. *)
Definition pairs_ok (t : hnode) (ps : list pair) : Prop := forall p, In p ps ->
  In (p1 p) (nodes t) /\ In (p2 p) (nodes t) /\ wf_dense (ksize (inf (p1 p))) (ksize (inf (p2 p))) (interpolant p).

(** Coefficient arrays of the right sizes, whatever is in them. *)
Definition sized (t : hnode) (h : heap) : Prop := forall s, In s (nodes t) -> length (h (nid (inf s))) = ksize (inf s).

(** A hierarchical matrix of size N. *)
Record wf_h2 (N : nat) (M : h2) : Prop := WfH2 {
  wf_near : wf_csr N N (Anear M);
  wf_shape : shaped N (components M) (tree M);
  wf_pairs : pairs_ok (tree M) (far M) }.

(** Work arrays that products may use: of the right sizes, with anything in them. *)
Definition ready (M : h2) (w : work) : Prop :=
  sized (tree M) (w_up w) /\ sized (tree M) (w_down w) /\
  match basis M with None => True | Some (B, _) => length (w_leaf w) = c_nrows B end.

(** The degrees of freedom of a cluster, and the places of the block of a pair. *)
Fixpoint tdofs (t : hnode) : list nat := let 'HNode n cs := t in match cs with [] => ldofs n | _ => flat_map tdofs cs end.
Definition covers (p : pair) (r c : nat) : Prop := In r (tdofs (p1 p)) /\ In c (tdofs (p2 p)).

(** No place belongs to the blocks of two pairs, or to a block and to the near field. *)
Definition apart (N : nat) (M : h2) : Prop :=
  (forall i j p q r c, nth_error (far M) i = Some p -> nth_error (far M) j = Some q -> covers p r c -> covers q r c -> i = j) /\
  (forall p r c, In p (far M) -> covers p r c -> r < N -> c < N -> matrix (Anear M) r c = 0%Qc).

(** An n x m array holds these entries. *)
Definition array_of (n m : nat) (a : list Qc) (A : mat) : Prop :=
  length a = n * m /\ forall r c, r < n -> c < m -> vat a (r * m + c) = A r c.

(** The array a product returns, or its error. *)
Definition outcome (r : res (buf Qc * work)) : res (buf Qc) := '(y, _) <- r ;; Ok y.
