(** Data for the examples about cluster trees, and the lemmas in the form in which
    the theorems state them. *)
From Coq Require Import Sorting.Permutation Sorting.Sorted Lqa.
From Verif Require Import Util Lin MeshGeom ClusterModel ClusterSpec ClusterProofs ClusterProofs2 ClusterProofs3 ClusterProofs4.
Local Open Scope nat_scope.
Set Default Proof Using "Type".

Definition qn (n : nat) : Qc := qz (Z.of_nat n).
(** numpy's median *)
Fixpoint qinsert (a : Qc) (l : list Qc) : list Qc :=
  match l with [] => [a] | b :: r => if qle a b then a :: l else b :: qinsert a r end.
Definition med (l : list Qc) : Qc :=
  let s := fold_right qinsert [] l in
  middle (nth ((length s - 1) / 2) s 0%Qc, nth (length s / 2) s 0%Qc).

(** Degree of freedom i at i, supported on [i-1, i+1] *)
Definition line_data : data := Data (fun i => [(qn i - 1, qn i + 1)%Qc]) (fun i _ => qn i) (fun _ => 1%Qc) med (fun _ => 2).
Definition line_params : refinementParams := RP 5 5 2 2 GEOMETRIC false 1.
(** Degree of freedom i at (i mod 4, i / 4) *)
Definition square_data : data :=
  Data (fun i => [(qn (i mod 4) - 1, qn (i mod 4) + 1); (qn (i / 4) - 1, qn (i / 4) + 1)]%Qc)
       (fun i k => if k =? 0 then qn (i mod 4) else qn (i / 4)) (fun _ => 1%Qc) med (fun _ => 2).
Definition square_params : refinementParams := RP 5 5 2 4 GEOMETRIC true 1.
(** Degree of freedom i at (i, i) *)
Definition diagonal_data : data := Data (fun i => [(qn i - 1, qn i + 1); (qn i - 1, qn i + 1)]%Qc) (fun i _ => qn i) (fun _ => 1%Qc) med (fun _ => 2).

Lemma seq_increasing n : forall a, increasing (seq a n).
Proof.
  induction n as [|n IH]; intros a; cbn [seq]; constructor; [apply IH|]. apply Forall_forall. intros i Hi. apply in_seq in Hi. lia.
Qed.
Lemma line_hyps : order_decreases line_data /\ proper_boxes line_data 1 /\ 1 <= minSize line_params /\ increasing (seq 0 8).
Proof.
  split; [intros h h' _; cbn; lia|]. split; [|split; [cbn; lia|apply seq_increasing]]. intros i. split; [reflexivity|].
  intros [|[|k]] p E; inversion E; subst; cbn [fst snd]; qclra.
Qed.
Lemma square_hyps : proper_boxes square_data 2 /\ order_decreases square_data /\ increasing (seq 0 16).
Proof.
  split; [|split; [intros h h' _; cbn; lia|apply seq_increasing]]. intros i. split; [reflexivity|].
  intros [|[|[|k]]] p E; inversion E; subst; cbn [fst snd]; qclra.
Qed.
Lemma diagonal_hyps : proper_boxes diagonal_data 2 /\ order_decreases diagonal_data.
Proof.
  split; [|intros h h' _; cbn; lia]. intros i. split; [reflexivity|].
  intros [|[|[|k]]] p E; inversion E; subst; cbn [fst snd]; qclra.
Qed.

Lemma root_hull D d mx dofs : proper_boxes D d -> dofs <> [] -> hull D d dofs (nbox (root_info D mx dofs)).
Proof. intros. apply init_box_hull; auto. Qed.
Lemma cluster_partition_ok D P fuel mx dofs t : increasing dofs -> refine_tree fuel D P 0 (root_info D mx dofs) dofs = Ok t ->
  get_dofs t = dofs /\ partitioned t /\ Permutation dofs (flat_map get_dofs (leaves t)) /\
  (forall s, subtree s t -> s = t \/ (mixed (info_of s) = mx /\ canBeAssembled (info_of s) = true /\ minSize P <= length (get_dofs s))) /\
  (forall s, subtree s t -> branching P s).
Proof.
  intros Hi E. destruct (refine_tree_ok D P _ _ _ _ _ Hi E) as (E1 & E2 & E3 & E4 & E5). split; auto. split; auto. split; [rewrite <- E2 at 1; apply leaves_perm; auto|]. split; auto.
  intros s Hs. destruct (E4 s Hs) as [H|(A & B & _ & _ & C)]; auto.
Qed.
Lemma cluster_boxed_ok D P d fuel mx dofs t : proper_boxes D d -> 1 <= minSize P -> increasing dofs -> dofs <> [] ->
  refine_tree fuel D P 0 (root_info D mx dofs) dofs = Ok t -> boxed D d t.
Proof. intros HD Hm Hi Hn E. eapply refine_tree_boxed; eauto. apply root_hull; auto. Qed.
Lemma cluster_failure_ok D P d fuel mx dofs : order_decreases D -> proper_boxes D d -> 1 <= minSize P -> increasing dofs -> dofs <> [] -> length dofs < fuel ->
  (exists t, refine_tree fuel D P 0 (root_info D mx dofs) dofs = Ok t) \/
  (refine_tree fuel D P 0 (root_info D mx dofs) dofs = Err EIndex /\ d = 2 /\ mx = false /\ splitEveryDim P = true).
Proof.
  intros Ho HD Hm Hi Hn Hf. destruct (refine_tree fuel D P 0 (root_info D mx dofs) dofs) as [t|e] eqn:E; [eauto|]. right.
  destruct (refine_tree_err D P d Ho Hm HD _ _ _ _ _ Hi (proj1 (root_hull D d mx dofs HD Hn)) eq_refl Hf E) as (-> & A & B & C). auto.
Qed.
Lemma cluster_ids_ok D P d fuel mx dofs t : proper_boxes D d -> 1 <= minSize P -> increasing dofs -> dofs <> [] ->
  refine_tree fuel D P 0 (root_info D mx dofs) dofs = Ok t -> NoDup (ids t).
Proof. intros HD Hm Hi Hn E. exact (root_tree_ids D P d fuel 0 _ dofs t HD Hm Hi (proj1 (root_hull D d mx dofs HD Hn)) eq_refl eq_refl E). Qed.
Lemma cluster_blocks_ok D P d fuel dofs mx can bl t : proper_boxes D d -> 1 <= minSize P -> increasing dofs -> good_blocks dofs bl ->
  block_tree fuel D P dofs mx can bl = Ok t ->
  get_dofs t = dofs /\ partitioned t /\ boxed D d t /\ map get_dofs (children t) = map fst bl /\
  (splitEveryDim P = false \/ d <> 2 \/ (exists m, forall b, In b bl -> snd b = m) -> NoDup (ids t)).
Proof.
  intros HD Hm Hi Hg E. destruct (block_tree_ok _ _ _ _ _ _ _ _ _ HD Hm Hi Hg E) as (A & B & C & F). split; auto. split; auto. split; auto. split; auto.
  intros H. eapply block_tree_ids; eauto.
Qed.
Lemma cluster_ranks_ok D P d fuel prt num size mx can bl t : proper_boxes D d -> 1 <= minSize P -> partition_blocks prt num size mx = Ok bl ->
  block_tree fuel D P (seq 0 num) mx can bl = Ok t ->
  length (children t) = size /\ partitioned t /\ boxed D d t /\ NoDup (ids t) /\ get_dofs t = seq 0 num /\
  forall p c, nth_error (children t) p = Some c -> get_dofs c <> [] /\ forall i, In i (get_dofs c) <-> i < num /\ nth_error prt i = Some p.
Proof.
  intros HD Hm Hp E. destruct (partition_blocks_ok _ _ _ _ _ Hp) as (L1 & L2 & Hg & Hb).
  destruct (cluster_blocks_ok _ _ _ _ _ _ _ _ _ HD Hm (seq_increasing _ _) Hg E) as (A & B & C & F & G).
  split; [apply (f_equal (@length _)) in F; rewrite !map_length in F; congruence|]. split; auto. split; auto. split; [|split; auto].
  - apply G. right. right. exists mx. intros b Hbl. apply In_nth_error in Hbl as (p & Hp'). apply (Hb _ _ Hp').
  - intros p c Hc. assert (X : nth_error (map get_dofs (children t)) p = Some (get_dofs c)) by (apply map_nth_error; auto).
    rewrite F in X. destruct (nth_error bl p) as [b|] eqn:Eb; [|apply nth_error_None in Eb; assert (nth_error (map fst bl) p = None) by (apply nth_error_None; rewrite map_length; auto); congruence].
    erewrite map_nth_error in X by eauto. inversion X as [Ec]. destruct (Hb _ _ Eb) as (_ & H). split; auto. destruct Hg as (_ & _ & Hg). apply Hg. eapply nth_error_In; eauto.
Qed.
Lemma cluster_levels_ok t l :
  (l < getLevels t <-> exists s, at_depth s l t) /\
  (forall s, In s (nodes_at l t) <-> at_depth s l t) /\
  getNumNodesOnLevel (Z.of_nat l) t = length (nodes_at l t) /\
  getNumLeavesOnLevel (Z.of_nat l) t = length (filter is_leaf (nodes_at l t)) /\
  (forall s, In s (get_tree_nodes t) <-> subtree s t).
Proof.
  split; [|split; [|split; [|split]]].
  - rewrite <- levels_spec. split.
    + intros H. destruct (nodes_at l t) as [|s r] eqn:E; [congruence|]. exists s. apply nodes_at_spec. rewrite E. cbn; auto.
    + intros (s & H) C. apply nodes_at_spec in H. rewrite C in H. destruct H.
  - intros s. apply nodes_at_spec.
  - apply num_nodes_spec.
  - apply num_leaves_spec.
  - intros s. apply in_nodes.
Qed.
Lemma cluster_id_queries_ok t m :
  (fst (set_id m t) = m + Z.of_nat (length (get_tree_nodes t)))%Z /\ ids (snd (set_id m t)) = zseq m (length (get_tree_nodes t)) /\
  get_dofs (snd (set_id m t)) = get_dofs t /\
  In (get_max_id t) (ids t) /\ (forall z, In z (ids t) -> (z <= get_max_id t)%Z) /\
  (fst (idsAreUnique [] t) = true <-> NoDup (ids t)).
Proof.
  destruct (set_id_spec t m) as (A & B & C). destruct (max_id_spec t) as (E & F). destruct (unique_spec t []) as (_ & G).
  split; auto. split; auto. split; auto. split; auto. split; auto. rewrite G. split; [tauto|]. intros H. split; auto.
Qed.

Lemma quadrant_failure : ~ (forall D P d fuel dofs, order_decreases D -> proper_boxes D d -> 1 <= minSize P -> increasing dofs -> dofs <> [] ->
  length dofs < fuel -> exists t, refine_tree fuel D P 0 (root_info D false dofs) dofs = Ok t).
Proof.
  intros H. destruct (H diagonal_data square_params 2 5 (seq 0 4)) as (t & E).
  - apply diagonal_hyps.
  - apply diagonal_hyps.
  - cbn; lia.
  - apply seq_increasing.
  - discriminate.
  - cbn; lia.
  - vm_compute in E. discriminate.
Qed.
Lemma id_collision : ~ (forall D P d fuel dofs mx can bl t, proper_boxes D d -> 1 <= minSize P -> increasing dofs -> good_blocks dofs bl ->
  block_tree fuel D P dofs mx can bl = Ok t -> NoDup (ids t)).
Proof.
  intros H. set (bl := [(seq 0 16, false); (seq 16 8, true)]).
  destruct (block_tree 30 square_data square_params (seq 0 24) false true bl) as [t|e] eqn:E; [|vm_compute in E; discriminate].
  specialize (H square_data square_params 2 30 (seq 0 24) false true bl t (proj1 square_hyps) ltac:(cbn; lia) (seq_increasing _ _)).
  assert (N : ~ NoDup (ids t)).
  { intros N. apply (proj2 (proj2 (proj2 (proj2 (proj2 (cluster_id_queries_ok t 0)))))) in N. revert N. vm_compute in E. inversion E. subst t. clear. vm_compute. discriminate. }
  apply N, H; auto. split; [discriminate|]. split; [apply Permutation_refl|]. intros b [<-|[<-|[]]]; split; try apply seq_increasing; discriminate.
Qed.
Lemma on_level_wrong : ~ (forall t l s, partitioned t -> In s (get_tree_nodes_on_level l t) -> at_depth s l t).
Proof.
  intros H. destruct (refine_tree 9 line_data line_params 0 (root_info line_data false (seq 0 8)) (seq 0 8)) as [t|e] eqn:E; [|vm_compute in E; discriminate].
  destruct (cluster_partition_ok _ _ _ _ _ _ (seq_increasing 8 0) E) as (_ & Hp & _).
  assert (Hc : exists c, hd_error (children t) = Some c /\ length (get_dofs c) = 4 /\ forall s, In s (nodes_at 2 t) -> length (get_dofs s) = 2).
  { clear Hp H. vm_compute in E. inversion E. eexists. split; [reflexivity|]. split; [reflexivity|]. intros s Hs. vm_compute in Hs.
    repeat destruct Hs as [<-|Hs]; try reflexivity. destruct Hs. }
  destruct Hc as (c & Hc & L & N). assert (Ic : In c (children t)) by (destruct (children t); inversion Hc; cbn; auto).
  assert (X : at_depth c 2 t).
  { apply H; auto. unfold get_tree_nodes_on_level. apply in_flat_map. exists c. split; auto. cbn; auto. }
  apply nodes_at_spec in X. apply N in X. congruence.
Qed.
