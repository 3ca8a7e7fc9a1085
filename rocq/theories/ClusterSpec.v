(** What is said about cluster trees: partitions of the degrees of freedom,
    boxes as sets of points, and covers of the pairs of degrees of freedom. *)
From Coq Require Import Sorting.Permutation Sorting.Sorted.
From Verif Require Import Util Lin ClusterModel.
Local Open Scope nat_scope.

(** [s] is a node of the tree [t]. *)
Inductive subtree (s : tree) : tree -> Prop :=
| sub_refl : subtree s s
| sub_child c t : In c (children t) -> subtree s c -> subtree s t.

(** Strictly increasing lists. *)
Definition increasing (l : list nat) : Prop := StronglySorted lt l.

(** In every node the degrees of freedom are listed increasingly, each is in
    exactly one child, and their number is what get_num_dofs says. *)
Definition partitioned (t : tree) : Prop := forall s, subtree s t ->
  increasing (get_dofs s) /\ get_num_dofs s = length (get_dofs s) /\
  (children s <> [] -> Permutation (get_dofs s) (flat_map get_dofs (children s))).

(** Points of a box, and squared distances of points in [d] dimensions. *)
Definition inside (b : box) (v : nat -> Qc) : Prop :=
  forall k p, nth_error b k = Some p -> (fst p <= v k /\ v k <= snd p)%Qc.
Definition pdist2 (d : nat) (v w : nat -> Qc) : Qc := sumf d (fun k => ((v k - w k) * (v k - w k))%Qc).

(** The smallest box around the boxes of some degrees of freedom. *)
Definition hull (D : data) (d : nat) (l : list nat) (b : box) : Prop :=
  length b = d /\ forall k p, nth_error b k = Some p ->
    (forall i q, In i l -> nth_error (boxes D i) k = Some q -> (fst p <= fst q /\ snd q <= snd p)%Qc) /\
    (exists i q, In i l /\ nth_error (boxes D i) k = Some q /\ fst q = fst p) /\
    (exists i q, In i l /\ nth_error (boxes D i) k = Some q /\ snd q = snd p).

(** All boxes have [d] sides, none of them reversed. *)
Definition proper_boxes (D : data) (d : nat) : Prop := forall i, length (boxes D i) = d /\
  forall k p, nth_error (boxes D i) k = Some p -> (fst p <= snd p)%Qc.

(** Every node is boxed by the smallest box around its degrees of freedom. *)
Definition boxed (D : data) (d : nat) (t : tree) : Prop :=
  forall s, subtree s t -> get_dofs s <> [] /\ hull D d (get_dofs s) (nbox (info_of s)).

(** The number of pairs of clusters in a list that contain (i, j). *)
Definition member (i : nat) (l : list nat) : bool := existsb (Nat.eqb i) l.
Definition hits (cps : list cpair) (i j : nat) : nat :=
  length (filter (fun cp => member i (get_dofs (fst cp)) && member j (get_dofs (snd cp))) cps).
Definition far_pairs (ps : pairs) : list cpair := flat_map snd (Pfar ps).

(** The interpolation order does not grow with the mesh size. *)
Definition order_decreases (D : data) : Prop := forall h h', (h <= h')%Qc -> orderOf D h' <= orderOf D h.

(** Identification numbers of all nodes. *)
Definition ids (t : tree) : list Z := map (fun s => id (info_of s)) (get_tree_nodes t).

(** Depth of a node below the root, and the nodes at a depth. *)
Inductive at_depth (s : tree) : nat -> tree -> Prop :=
| depth_here : at_depth s 0 s
| depth_below c n t : In c (children t) -> at_depth s n c -> at_depth s (S n) t.
Fixpoint nodes_at (n : nat) (t : tree) : list tree :=
  match n with O => [t] | S m => flat_map (nodes_at m) (children t) end.

(** The pair of boxes has been dropped: by the distances that the code
    computes, the kernel vanishes between them. *)
Definition dropped (K : kernel) (b1 b2 : box) : Prop :=
  match horizon K with
  | None => False
  | Some h => if complement K then (0 <= h /\ maxDist2 b1 b2 <= h * h)%Qc else (h < 0 \/ h * h < dist2 b1 b2)%Qc
  end.

(** No side of one box lies within the side of the other. *)
Definition staggered (b1 b2 : box) : Prop := forall k p q, nth_error b1 k = Some p -> nth_error b2 k = Some q ->
  ((fst p <= fst q /\ snd p <= snd q) \/ (fst q < fst p /\ snd q <= snd p))%Qc.

(** A node that has children has at least two, all of them smaller, and is
    above the last level. *)
Definition branching (P : refinementParams) (s : tree) : Prop := children s <> [] ->
  2 <= length (children s) /\ (mixed (info_of s) = false -> levelNo (info_of s) + 1 < maxLevels P) /\
  (mixed (info_of s) = true -> levelNo (info_of s) + 1 < maxLevelsMixed P) /\
  forall c, In c (children s) -> length (get_dofs c) < length (get_dofs s) /\ levelNo (info_of c) = S (levelNo (info_of s)).

(** Blocks that partition the degrees of freedom, none of them empty. *)
Definition good_blocks (dofs : list nat) (bl : list (list nat * bool)) : Prop :=
  bl <> [] /\ Permutation dofs (flat_map fst bl) /\ forall b, In b bl -> increasing (fst b) /\ fst b <> [].

(** A node of the trimmed tree stands for a node of the original one. *)
Definition same_node (s s' : tree) : Prop := info_of s' = info_of s /\ get_dofs s' = get_dofs s.

(** a, a + 1, ..., a + n - 1 *)
Definition zseq (a : Z) (n : nat) : list Z := map (fun k => (a + Z.of_nat k)%Z) (seq 0 n).
