(** Theorems about the cluster tree of the hierarchical matrices. *)
From Coq Require Import Sorting.Permutation Sorting.Sorted.
From Verif Require Import Util Lin ClusterModel ClusterSpec ClusterProofs ClusterProofs2 ClusterProofs3 ClusterProofs4 ClusterWitness.
Local Open Scope nat_scope.

(** C45. Refining the root partitions the degrees of freedom: every node holds
    its degrees of freedom increasingly, each one in exactly one child, and the
    leaves together hold all of them.  Every node below the root has at least
    minSize of them, and nodes are only split above the last level, into at
    least two smaller ones. *)
Theorem cluster_tree_partition D P fuel mx dofs t : increasing dofs -> refine_tree fuel D P 0 (root_info D mx dofs) dofs = Ok t ->
  get_dofs t = dofs /\ partitioned t /\ Permutation dofs (flat_map get_dofs (leaves t)) /\
  (forall s, subtree s t -> s = t \/ (mixed (info_of s) = mx /\ canBeAssembled (info_of s) = true /\ minSize P <= length (get_dofs s))) /\
  (forall s, subtree s t -> branching P s).
Proof. exact (cluster_partition_ok D P fuel mx dofs t). Qed.
Print Assumptions cluster_tree_partition.

(** C45. The box of every node is the smallest one around the boxes of its
    degrees of freedom. *)
Theorem cluster_tree_boxes D P d fuel mx dofs t : proper_boxes D d -> 1 <= minSize P -> increasing dofs -> dofs <> [] ->
  refine_tree fuel D P 0 (root_info D mx dofs) dofs = Ok t -> boxed D d t.
Proof. exact (cluster_boxed_ok D P d fuel mx dofs t). Qed.
Print Assumptions cluster_tree_boxes.

(** C45. No assertion of the refinement fails.  It can only fail with an
    IndexError, and only if a node in two dimensions is split along both. *)
Theorem cluster_tree_failure D P d fuel mx dofs : order_decreases D -> proper_boxes D d -> 1 <= minSize P -> increasing dofs -> dofs <> [] -> length dofs < fuel ->
  (exists t, refine_tree fuel D P 0 (root_info D mx dofs) dofs = Ok t) \/
  (refine_tree fuel D P 0 (root_info D mx dofs) dofs = Err EIndex /\ d = 2 /\ mx = false /\ splitEveryDim P = true).
Proof. exact (cluster_failure_ok D P d fuel mx dofs). Qed.
Print Assumptions cluster_tree_failure.

(** C45. The ids that refinement computes are distinct. *)
Theorem cluster_tree_ids D P d fuel mx dofs t : proper_boxes D d -> 1 <= minSize P -> increasing dofs -> dofs <> [] ->
  refine_tree fuel D P 0 (root_info D mx dofs) dofs = Ok t -> NoDup (ids t).
Proof. exact (cluster_ids_ok D P d fuel mx dofs t). Qed.
Print Assumptions cluster_tree_ids.

(** C45. The same for a root whose children are given blocks. *)
Theorem cluster_blocks D P d fuel dofs mx can bl t : proper_boxes D d -> 1 <= minSize P -> increasing dofs -> good_blocks dofs bl ->
  block_tree fuel D P dofs mx can bl = Ok t ->
  get_dofs t = dofs /\ partitioned t /\ boxed D d t /\ map get_dofs (children t) = map fst bl /\
  (splitEveryDim P = false \/ d <> 2 \/ (exists m, forall b, In b bl -> snd b = m) -> NoDup (ids t)).
Proof. exact (cluster_blocks_ok D P d fuel dofs mx can bl t). Qed.
Print Assumptions cluster_blocks.

(** C45. A partitioning that passes the tests of [partition] gives every rank
    its own, non-empty set of degrees of freedom, one child of the root per rank,
    and all ids are distinct. *)
Theorem cluster_ranks D P d fuel prt num size mx can bl t : proper_boxes D d -> 1 <= minSize P -> partition_blocks prt num size mx = Ok bl ->
  block_tree fuel D P (seq 0 num) mx can bl = Ok t ->
  length (children t) = size /\ partitioned t /\ boxed D d t /\ NoDup (ids t) /\ get_dofs t = seq 0 num /\
  forall p c, nth_error (children t) p = Some c -> get_dofs c <> [] /\ forall i, In i (get_dofs c) <-> i < num /\ nth_error prt i = Some p.
Proof. exact (cluster_ranks_ok D P d fuel prt num size mx can bl t). Qed.
Print Assumptions cluster_ranks.

(** C45. numLevels, getNumNodesOnLevel and getNumLeavesOnLevel count the nodes at
    a given distance from the node they are called for. *)
Theorem cluster_levels t l :
  (l < getLevels t <-> exists s, at_depth s l t) /\
  (forall s, In s (nodes_at l t) <-> at_depth s l t) /\
  getNumNodesOnLevel (Z.of_nat l) t = length (nodes_at l t) /\
  getNumLeavesOnLevel (Z.of_nat l) t = length (filter is_leaf (nodes_at l t)) /\
  (forall s, In s (get_tree_nodes t) <-> subtree s t).
Proof. exact (cluster_levels_ok t l). Qed.
Print Assumptions cluster_levels.

(** C45. set_id numbers the nodes consecutively, get_max_id is the largest id and
    idsAreUnique says whether the ids are distinct. *)
Theorem cluster_id_queries t m :
  (fst (set_id m t) = m + Z.of_nat (length (get_tree_nodes t)))%Z /\ ids (snd (set_id m t)) = zseq m (length (get_tree_nodes t)) /\
  get_dofs (snd (set_id m t)) = get_dofs t /\
  In (get_max_id t) (ids t) /\ (forall z, In z (ids t) -> (z <= get_max_id t)%Z) /\
  (fst (idsAreUnique [] t) = true <-> NoDup (ids t)).
Proof. exact (cluster_id_queries_ok t m). Qed.
Print Assumptions cluster_id_queries.

(** C45. Splitting along both dimensions does fail if a quadrant without degrees of
    freedom comes before one that has some. *)
Theorem cluster_tree_failure_refuted : ~ (forall D P d fuel dofs, order_decreases D -> proper_boxes D d -> 1 <= minSize P -> increasing dofs -> dofs <> [] ->
  length dofs < fuel -> exists t, refine_tree fuel D P 0 (root_info D false dofs) dofs = Ok t).
Proof. exact quadrant_failure. Qed.
Print Assumptions cluster_tree_failure_refuted.

(** C45. With both mixed and other blocks, and splitting along both dimensions,
    two nodes may get the same id. *)
Theorem cluster_blocks_ids_refuted : ~ (forall D P d fuel dofs mx can bl t, proper_boxes D d -> 1 <= minSize P -> increasing dofs -> good_blocks dofs bl ->
  block_tree fuel D P dofs mx can bl = Ok t -> NoDup (ids t)).
Proof. exact id_collision. Qed.
Print Assumptions cluster_blocks_ids_refuted.

(** C45. get_tree_nodes_on_level also gives the nodes of the levels between. *)
Theorem cluster_on_level_refuted : ~ (forall t l s, partitioned t -> In s (get_tree_nodes_on_level l t) -> at_depth s l t).
Proof. exact on_level_wrong. Qed.
Print Assumptions cluster_on_level_refuted.

(** Eight degrees of freedom on a line, split in the middle of the box. *)
Example line_tree : exists t, refine_tree 9 line_data line_params 0 (root_info line_data false (seq 0 8)) (seq 0 8) = Ok t /\
  map get_dofs (leaves t) = [[0; 1]; [2; 3]; [4; 5]; [6; 7]] /\ ids t = [0; 1; 3; 4; 2; 5; 6]%Z /\
  map (fun s => map (fun p => (this (fst p), this (snd p))) (nbox (info_of s))) (leaves t) = [[(-1, 2)]; [(1, 4)]; [(3, 6)]; [(5, 8)]]%Q /\
  getLevels t = 3 /\ getNumNodesOnLevel 1 t = 2 /\ getNumLeavesOnLevel 2 t = 4 /\ fst (idsAreUnique [] t) = true.
Proof. eexists. split; [vm_compute; reflexivity|]. vm_compute. repeat split; reflexivity. Qed.
Example line_ok : order_decreases line_data /\ proper_boxes line_data 1 /\ 1 <= minSize line_params /\ increasing (seq 0 8).
Proof. exact line_hyps. Qed.
(** Sixteen on a square, split along both dimensions, and by nested medians *)
Example square_tree : exists t, refine_tree 17 square_data square_params 0 (root_info square_data false (seq 0 16)) (seq 0 16) = Ok t /\
  map get_dofs (leaves t) = [[0; 1; 4; 5]; [2; 3; 6; 7]; [8; 9; 12; 13]; [10; 11; 14; 15]] /\ ids t = [0; 1; 2; 3; 4]%Z.
Proof. eexists. split; [vm_compute; reflexivity|]. vm_compute. repeat split; reflexivity. Qed.
Example square_median_tree : exists t, refine_tree 17 square_data (RP 5 5 3 3 MEDIAN true 1) 0 (root_info square_data false (seq 0 16)) (seq 0 16) = Ok t /\
  map get_dofs (leaves t) = [[0; 1; 4; 5]; [8; 9; 12; 13]; [2; 3; 6; 7]; [10; 11; 14; 15]] /\ ids t = [0; 1; 2; 3; 4]%Z.
Proof. eexists. split; [vm_compute; reflexivity|]. vm_compute. repeat split; reflexivity. Qed.
(** The same along the longest side *)
Example square_longest_tree : exists t, refine_tree 17 square_data (RP 3 3 3 3 GEOMETRIC false 1) 0 (root_info square_data false (seq 0 16)) (seq 0 16) = Ok t /\
  map get_dofs (leaves t) = [[0; 1; 4; 5]; [8; 9; 12; 13]; [2; 3; 6; 7]; [10; 11; 14; 15]] /\ ids t = [0; 1; 3; 4; 2; 5; 6]%Z.
Proof. eexists. split; [vm_compute; reflexivity|]. vm_compute. repeat split; reflexivity. Qed.
Example square_ok : proper_boxes square_data 2 /\ order_decreases square_data /\ increasing (seq 0 16).
Proof. exact square_hyps. Qed.
(** Two ranks *)
Example line_ranks : exists bl t, partition_blocks [0; 0; 0; 1; 1; 1; 1; 0] 8 2 false = Ok bl /\ block_tree 9 line_data line_params (seq 0 8) false true bl = Ok t /\
  map get_dofs (children t) = [[0; 1; 2; 7]; [3; 4; 5; 6]] /\ ids t = [0; 1; 2; 5; 6]%Z.
Proof. eexists. eexists. split; [vm_compute; reflexivity|]. split; [vm_compute; reflexivity|]. vm_compute. repeat split; reflexivity. Qed.
Example line_ranks_bad : partition_blocks [0; 0; 0; 2; 2; 2; 2; 0] 8 3 false = Err EValue.
Proof. vm_compute. reflexivity. Qed.
