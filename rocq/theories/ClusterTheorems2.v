(** Theorems about the split of the pairs of clusters into near and far field. *)
From Coq Require Import Sorting.Permutation Sorting.Sorted.
From Verif Require Import Util Lin ClusterModel ClusterSpec ClusterProofs ClusterProofs2 ClusterProofs4 ClusterProofs5 ClusterProofs6 ClusterProofs7 ClusterWitness ClusterWitness2.
Local Open Scope nat_scope.

(** C46. getAdmissibleClusters never fails, and the pairs of clusters it collects
    cover every pair of degrees of freedom exactly once, except for those in a
    pair of clusters between which the kernel vanishes by the distances that the
    code computes.  The far field holds pairs that queryAdmissibility calls
    admissible, the near field pairs that it calls inadmissible. *)
Theorem near_far_cover K P n1 n2 level fuel : partitioned n1 -> partitioned n2 -> getLevels n1 + getLevels n2 <= fuel ->
  exists b st, getAdmissibleClusters fuel K P n1 n2 level (Pairs [] []) = Ok (b, st) /\
  (forall cp, In cp (far_pairs st ++ Pnear st) -> subtree (fst cp) n1 /\ subtree (snd cp) n2) /\
  (forall cp, In cp (far_pairs st) -> queryAdmissibility K P (fst cp) (snd cp) = ADMISSIBLE) /\
  (forall cp, In cp (Pnear st) -> queryAdmissibility K P (fst cp) (snd cp) = INADMISSIBLE) /\
  (forall i j, In i (get_dofs n1) -> In j (get_dofs n2) -> hits (far_pairs st ++ Pnear st) i j = 1 \/
     (hits (far_pairs st ++ Pnear st) i j = 0 /\ exists s1 s2, subtree s1 n1 /\ subtree s2 n2 /\ In i (get_dofs s1) /\ In j (get_dofs s2) /\
        dropped K (nbox (info_of s1)) (nbox (info_of s2)))).
Proof. exact (near_far_cover_ok K P n1 n2 level fuel). Qed.
Print Assumptions near_far_cover.

(** C46. From the degrees of freedom to the pairs, for kernels without horizon, or
    with a horizon: every pair of degrees of freedom is covered exactly once
    unless their supports are farther apart than the horizon. *)
Theorem near_far_cover_tree D P d K mx dofs fuel fuel2 t : proper_boxes D d -> 1 <= minSize P -> increasing dofs -> dofs <> [] -> complement K = false ->
  refine_tree fuel D P 0 (root_info D mx dofs) dofs = Ok t -> getLevels t + getLevels t <= fuel2 ->
  exists b st, getAdmissibleClusters fuel2 K P t t 0 (Pairs [] []) = Ok (b, st) /\
  forall i j, In i dofs -> In j dofs -> hits (far_pairs st ++ Pnear st) i j = 1 \/
    (hits (far_pairs st ++ Pnear st) i j = 0 /\ exists h, horizon K = Some h /\
       forall v w, inside (boxes D i) v -> inside (boxes D j) w -> (h < 0 \/ h * h < pdist2 d v w)%Qc).
Proof. exact (near_far_cover_tree_ok D P d K mx dofs fuel fuel2 t). Qed.
Print Assumptions near_far_cover_tree.

(** C46. The supports in an admissible pair of clusters are small in comparison with
    their distance: two points v, v' of one cluster are at most eta times as far
    apart as v is from any point w of the other. *)
Theorem far_pairs_separated K P n1 n2 v v' w d : length (nbox (info_of n1)) = d -> length (nbox (info_of n2)) = d ->
  queryAdmissibility K P n1 n2 = ADMISSIBLE -> inside (nbox (info_of n1)) v -> inside (nbox (info_of n2)) w ->
  (inside (nbox (info_of n1)) v' -> pdist2 d v v' <= eta P * eta P * pdist2 d v w)%Qc /\
  (inside (nbox (info_of n2)) v' -> pdist2 d w v' <= eta P * eta P * pdist2 d v w)%Qc.
Proof. exact (far_separated_ok K P n1 n2 v v' w d). Qed.
Print Assumptions far_pairs_separated.

(** C46. In an admissible pair of clusters the horizon does not cut the kernel: in
    the complement all points are beyond the horizon, otherwise all are within
    it, provided that no side of one box lies within that of the other. *)
Theorem far_pairs_horizon K P n1 n2 v w d h : length (nbox (info_of n1)) = d -> length (nbox (info_of n2)) = d ->
  queryAdmissibility K P n1 n2 = ADMISSIBLE -> horizon K = Some h -> inside (nbox (info_of n1)) v -> inside (nbox (info_of n2)) w ->
  if complement K then (h < 0 \/ h * h < pdist2 d v w)%Qc
  else (0 <= h)%Qc /\ (staggered (nbox (info_of n1)) (nbox (info_of n2)) -> (pdist2 d v w < h * h)%Qc).
Proof. exact (adm_horizon K P n1 n2 v w d h). Qed.
Print Assumptions far_pairs_horizon.

(** C46. In one dimension the proviso always holds. *)
Theorem far_pairs_horizon_1d K P n1 n2 p q v w h : nbox (info_of n1) = [p] -> nbox (info_of n2) = [q] -> (fst p <= snd p)%Qc -> (fst q <= snd q)%Qc ->
  queryAdmissibility K P n1 n2 = ADMISSIBLE -> horizon K = Some h -> complement K = false -> inside (nbox (info_of n1)) v -> inside (nbox (info_of n2)) w ->
  (pdist2 1 v w < h * h)%Qc.
Proof. exact (far_horizon_1d_ok K P n1 n2 p q v w h). Qed.
Print Assumptions far_pairs_horizon_1d.

(** C46. distBoxes is the smallest distance of points of two boxes.  maxDistBoxes is
    the distance of two points, and the largest one if no side of one box lies
    within that of the other. *)
Theorem box_distances b1 b2 : length b1 = length b2 -> (forall p, In p (b1 ++ b2) -> fst p <= snd p)%Qc ->
  (forall v w, inside b1 v -> inside b2 w -> (dist2 b1 b2 <= pdist2 (length b1) v w)%Qc) /\
  (exists v w, inside b1 v /\ inside b2 w /\ dist2 b1 b2 = pdist2 (length b1) v w) /\
  (exists v w, inside b1 v /\ inside b2 w /\ maxDist2 b1 b2 = pdist2 (length b1) v w) /\
  (staggered b1 b2 -> forall v w, inside b1 v -> inside b2 w -> (pdist2 (length b1) v w <= maxDist2 b1 b2)%Qc).
Proof. exact (box_distances_ok b1 b2). Qed.
Print Assumptions box_distances.

(** C46. getCoveringClusters never fails and covers every pair of degrees of freedom
    exactly once, unless they are farther apart than the horizon. *)
Theorem covering_clusters D d K P n1 n2 level fuel : partitioned n1 -> partitioned n2 -> proper_boxes D d -> boxed D d n1 -> boxed D d n2 ->
  getLevels n1 + getLevels n2 <= fuel ->
  exists near, getCoveringClusters fuel K P n1 n2 level [] = Ok near /\
  (forall cp, In cp near -> subtree (fst cp) n1 /\ subtree (snd cp) n2) /\
  (forall i j, In i (get_dofs n1) -> In j (get_dofs n2) -> hits near i j = 1 \/
     (hits near i j = 0 /\ exists h, horizon K = Some h /\
        forall v w, inside (boxes D i) v -> inside (boxes D j) w -> (h < 0 \/ h * h < pdist2 d v w)%Qc)).
Proof. exact (covering_clusters_ok D d K P n1 n2 level fuel). Qed.
Print Assumptions covering_clusters.

(** C46. Trimming the tree never fails.  It keeps the root, its children, the nodes of
    all pairs and the nodes to be kept with the same data and degrees of freedom,
    the trimmed tree is a partition again, and it has no new nodes. *)
Theorem trimmed_tree t P keep : partitioned t -> exists t', trimTree t P keep = Ok t' /\ same_node t t' /\ partitioned t' /\
  (forall s, subtree s t -> (In s keep \/ (exists cp, In cp (far_pairs P ++ Pnear P) /\ (s = fst cp \/ s = snd cp)) \/ In s (t :: children t)) ->
     exists s', subtree s' t' /\ same_node s s') /\
  (forall s', subtree s' t' -> exists s, subtree s t /\ same_node s s').
Proof. exact (trimTree_ok t P keep). Qed.
Print Assumptions trimmed_tree.

(** C46. Whatever order the set of pairs is emptied in, symmetrizing adds exactly the
    transposes that are missing, each once. *)
Theorem symmetrized_near_field pick near : exists new, symmetrizeNearFieldClusters pick near = Ok (near ++ new) /\ NoDup (map pair_ids new) /\
  (forall q, In q (map pair_ids new) <-> ~ In q (map pair_ids near) /\ In (snd q, fst q) (map pair_ids near)) /\
  (forall cp, In cp new -> In (fst cp) (flat_map (fun cp => [fst cp; snd cp]) near) /\ In (snd cp) (flat_map (fun cp => [fst cp; snd cp]) near)).
Proof. exact (symmetrize_ok pick near). Qed.
Print Assumptions symmetrized_near_field.

(** C46. Without the proviso, maxDistBoxes is too small, and an admissible pair of
    clusters in two dimensions may be cut by the horizon. *)
Theorem far_pairs_horizon_refuted : ~ (forall K P n1 n2 v w d h, length (nbox (info_of n1)) = d -> length (nbox (info_of n2)) = d ->
  queryAdmissibility K P n1 n2 = ADMISSIBLE -> horizon K = Some h -> complement K = false -> inside (nbox (info_of n1)) v -> inside (nbox (info_of n2)) w ->
  (pdist2 d v w <= h * h)%Qc).
Proof. exact horizon_cuts. Qed.
Print Assumptions far_pairs_horizon_refuted.

(** C46. For the same reason, in the complement of the horizon pairs of clusters are
    dropped although they have points beyond the horizon, even in one dimension. *)
Theorem near_far_complement_refuted : ~ (forall K P n1 n2 v w h, length (nbox (info_of n1)) = 1 -> length (nbox (info_of n2)) = 1 ->
  queryAdmissibility K P n1 n2 = ZERO -> horizon K = Some h -> complement K = true -> inside (nbox (info_of n1)) v -> inside (nbox (info_of n2)) w ->
  (pdist2 1 v w <= h * h)%Qc).
Proof. exact complement_drops. Qed.
Print Assumptions near_far_complement_refuted.

(** The tree of eight degrees of freedom on a line: far and near pairs *)
Definition line_t : tree := Eval vm_compute in match refine_tree 17 line_data long_params 0 (root_info line_data false (seq 0 16)) (seq 0 16) with Ok t => t | Err _ => Tree (root_info line_data false []) [] [] end.
Definition show (st : pairs) := (map (fun l => (fst l, map (fun cp => (get_dofs (fst cp), get_dofs (snd cp))) (snd l))) (Pfar st), map (fun cp => (get_dofs (fst cp), get_dofs (snd cp))) (Pnear st)).
Example line_t_is : refine_tree 17 line_data long_params 0 (root_info line_data false (seq 0 16)) (seq 0 16) = Ok line_t /\ getLevels line_t = 3.
Proof. vm_compute. split; reflexivity. Qed.
Example line_pairs : exists st, getAdmissibleClusters 6 (Kernel 1 None false) long_params line_t line_t 0 (Pairs [] []) = Ok (true, st) /\
  show st = ([(2, [([0; 1; 2; 3], [8; 9; 10; 11]); ([0; 1; 2; 3], [12; 13; 14; 15]); ([4; 5; 6; 7], [12; 13; 14; 15]);
                   ([8; 9; 10; 11], [0; 1; 2; 3]); ([12; 13; 14; 15], [0; 1; 2; 3]); ([12; 13; 14; 15], [4; 5; 6; 7])])],
             [([0; 1; 2; 3; 4; 5; 6; 7], [0; 1; 2; 3; 4; 5; 6; 7]); ([4; 5; 6; 7], [8; 9; 10; 11]);
              ([8; 9; 10; 11], [4; 5; 6; 7]); ([8; 9; 10; 11; 12; 13; 14; 15], [8; 9; 10; 11; 12; 13; 14; 15])]).
Proof. eexists. split; [vm_compute; reflexivity|]. vm_compute. reflexivity. Qed.
(** With horizon 5: the pair of the ends is dropped *)
Example line_pairs_horizon : exists st, getAdmissibleClusters 6 (Kernel 1 (Some (qz 5)) false) long_params line_t line_t 0 (Pairs [] []) = Ok (true, st) /\
  hits (far_pairs st ++ Pnear st) 0 15 = 0 /\ hits (far_pairs st ++ Pnear st) 0 9 = 1 /\ length (far_pairs st) = 0.
Proof. eexists. split; [vm_compute; reflexivity|]. vm_compute. repeat split; reflexivity. Qed.
Example line_covering : exists near, getCoveringClusters 6 (Kernel 1 (Some (qz 5)) false) long_params line_t line_t 0 [] = Ok near /\
  hits near 0 15 = 0 /\ hits near 0 9 = 1.
Proof. eexists. split; [vm_compute; reflexivity|]. vm_compute. repeat split; reflexivity. Qed.
(** Trimming to one pair *)
Example line_trimmed : exists t', trimTree line_t (Pairs [] [(nth 2 (get_tree_nodes line_t) line_t, nth 1 (get_tree_nodes line_t) line_t)]) [] = Ok t' /\
  map get_dofs (get_tree_nodes t') = [seq 0 16; seq 0 8; seq 0 4; seq 4 4; seq 8 8].
Proof. eexists. split; [vm_compute; reflexivity|]. vm_compute. reflexivity. Qed.
(** Symmetrizing, with two orders *)
Example line_symmetrized : let n := get_tree_nodes line_t in
  let near := [(nth 1 n line_t, nth 1 n line_t); (nth 2 n line_t, nth 3 n line_t); (nth 5 n line_t, nth 6 n line_t); (nth 6 n line_t, nth 5 n line_t)] in
  (exists r, symmetrizeNearFieldClusters (fun _ => 0) near = Ok r /\ map pair_ids r = [(1, 1); (3, 4); (5, 6); (6, 5); (4, 3)]%Z) /\
  (exists r, symmetrizeNearFieldClusters (fun c => 7) near = Ok r /\ map pair_ids r = [(1, 1); (3, 4); (5, 6); (6, 5); (4, 3)]%Z).
Proof. split; eexists; (split; [vm_compute; reflexivity|]); vm_compute; reflexivity. Qed.
