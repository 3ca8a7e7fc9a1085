(** Counterexamples about near and far field, and the lemmas in the form in which
    the theorems state them. *)
From Coq Require Import Sorting.Permutation Sorting.Sorted Lqa.
From Verif Require Import Util Lin MeshGeom ClusterModel ClusterSpec ClusterProofs ClusterProofs2 ClusterProofs4 ClusterProofs5 ClusterProofs6 ClusterProofs7 ClusterWitness.
Local Open Scope nat_scope.
Set Default Proof Using "Type".

Definition long_params : refinementParams := RP 5 5 4 4 GEOMETRIC false (qz 2).

Lemma near_far_cover_ok K P n1 n2 level fuel : partitioned n1 -> partitioned n2 -> getLevels n1 + getLevels n2 <= fuel ->
  exists b st, getAdmissibleClusters fuel K P n1 n2 level (Pairs [] []) = Ok (b, st) /\
  (forall cp, In cp (far_pairs st ++ Pnear st) -> subtree (fst cp) n1 /\ subtree (snd cp) n2) /\
  (forall cp, In cp (far_pairs st) -> queryAdmissibility K P (fst cp) (snd cp) = ADMISSIBLE) /\
  (forall cp, In cp (Pnear st) -> queryAdmissibility K P (fst cp) (snd cp) = INADMISSIBLE) /\
  (forall i j, In i (get_dofs n1) -> In j (get_dofs n2) -> hits (far_pairs st ++ Pnear st) i j = 1 \/
     (hits (far_pairs st ++ Pnear st) i j = 0 /\ exists s1 s2, subtree s1 n1 /\ subtree s2 n2 /\ In i (get_dofs s1) /\ In j (get_dofs s2) /\
        dropped K (nbox (info_of s1)) (nbox (info_of s2)))).
Proof.
  intros P1 P2 Hf. destruct (adm_total K P fuel n1 n2 level (Pairs [] [])) as ((b & st) & E); [lia|]. exists b, st. split; auto. eapply split_ok; eauto.
Qed.
Lemma near_far_cover_tree_ok D P d K mx dofs fuel fuel2 t : proper_boxes D d -> 1 <= minSize P -> increasing dofs -> dofs <> [] -> complement K = false ->
  refine_tree fuel D P 0 (root_info D mx dofs) dofs = Ok t -> getLevels t + getLevels t <= fuel2 ->
  exists b st, getAdmissibleClusters fuel2 K P t t 0 (Pairs [] []) = Ok (b, st) /\
  forall i j, In i dofs -> In j dofs -> hits (far_pairs st ++ Pnear st) i j = 1 \/
    (hits (far_pairs st ++ Pnear st) i j = 0 /\ exists h, horizon K = Some h /\
       forall v w, inside (boxes D i) v -> inside (boxes D j) w -> (h < 0 \/ h * h < pdist2 d v w)%Qc).
Proof.
  intros HD Hm Hi Hn Hc E Hf. destruct (cluster_partition_ok _ _ _ _ _ _ Hi E) as (Ed & Hp & _). pose proof (cluster_boxed_ok _ _ _ _ _ _ _ HD Hm Hi Hn E) as Hb.
  destruct (near_far_cover_ok K P t t 0 fuel2 Hp Hp Hf) as (b & st & Es & _ & _ & _ & Hh). exists b, st. split; auto. intros i j Ii Ij. rewrite Ed in Hh.
  destruct (Hh i j Ii Ij) as [H|(H & s1 & s2 & S1 & S2 & I1 & I2 & Hd)]; auto. right. split; auto.
  destruct (horizon K) as [h|] eqn:Eh; [|unfold dropped in Hd; rewrite Eh in Hd; destruct Hd]. exists h. split; auto. intros v w Hv Hw.
  pose proof (dropped_points K D d s1 s2 i j h v w HD (proj2 (Hb s1 S1)) (proj2 (Hb s2 S2)) I1 I2 Eh Hd Hv Hw) as X. rewrite Hc in X. auto.
Qed.
Lemma far_separated_ok K P n1 n2 v v' w d : length (nbox (info_of n1)) = d -> length (nbox (info_of n2)) = d ->
  queryAdmissibility K P n1 n2 = ADMISSIBLE -> inside (nbox (info_of n1)) v -> inside (nbox (info_of n2)) w ->
  (inside (nbox (info_of n1)) v' -> pdist2 d v v' <= eta P * eta P * pdist2 d v w)%Qc /\
  (inside (nbox (info_of n2)) v' -> pdist2 d w v' <= eta P * eta P * pdist2 d v w)%Qc.
Proof. intros L1 L2 Hq. apply query_adm in Hq as (_ & _ & Hs). apply (seems_separated K P n1 n2 v v' w d L1 L2 Hs). Qed.
Lemma far_horizon_1d_ok K P n1 n2 p q v w h : nbox (info_of n1) = [p] -> nbox (info_of n2) = [q] -> (fst p <= snd p)%Qc -> (fst q <= snd q)%Qc ->
  queryAdmissibility K P n1 n2 = ADMISSIBLE -> horizon K = Some h -> complement K = false -> inside (nbox (info_of n1)) v -> inside (nbox (info_of n2)) w ->
  (pdist2 1 v w < h * h)%Qc.
Proof.
  intros E1 E2 A B Hq Hh Hc Hv Hw. pose proof (adm_horizon K P n1 n2 v w 1 h) as X. rewrite Hc in X. apply X; auto; try (rewrite ?E1, ?E2; reflexivity).
  apply query_adm in Hq as (_ & _ & Hs). eapply seems_staggered_1; eauto.
Qed.
Lemma box_distances_ok b1 b2 : length b1 = length b2 -> (forall p, In p (b1 ++ b2) -> fst p <= snd p)%Qc ->
  (forall v w, inside b1 v -> inside b2 w -> (dist2 b1 b2 <= pdist2 (length b1) v w)%Qc) /\
  (exists v w, inside b1 v /\ inside b2 w /\ dist2 b1 b2 = pdist2 (length b1) v w) /\
  (exists v w, inside b1 v /\ inside b2 w /\ maxDist2 b1 b2 = pdist2 (length b1) v w) /\
  (staggered b1 b2 -> forall v w, inside b1 v -> inside b2 w -> (pdist2 (length b1) v w <= maxDist2 b1 b2)%Qc).
Proof.
  intros Hl Hs. assert (F1 : Forall side_ok b1) by (apply Forall_forall; intros p Hp; apply Hs, in_app_iff; auto).
  assert (F2 : Forall side_ok b2) by (apply Forall_forall; intros p Hp; apply Hs, in_app_iff; auto).
  split; [intros; apply dist2_le; auto|]. split; [apply dist2_at; auto|]. split; [apply maxDist2_at; auto|]. intros. apply maxDist2_ge; auto.
Qed.
Lemma covering_clusters_ok D d K P n1 n2 level fuel : partitioned n1 -> partitioned n2 -> proper_boxes D d -> boxed D d n1 -> boxed D d n2 ->
  getLevels n1 + getLevels n2 <= fuel ->
  exists near, getCoveringClusters fuel K P n1 n2 level [] = Ok near /\
  (forall cp, In cp near -> subtree (fst cp) n1 /\ subtree (snd cp) n2) /\
  (forall i j, In i (get_dofs n1) -> In j (get_dofs n2) -> hits near i j = 1 \/
     (hits near i j = 0 /\ exists h, horizon K = Some h /\
        forall v w, inside (boxes D i) v -> inside (boxes D j) w -> (h < 0 \/ h * h < pdist2 d v w)%Qc)).
Proof.
  intros P1 P2 HD B1 B2 Hf. destruct (covering_total K P fuel n1 n2 level []) as (near & E); [lia|]. exists near. split; auto.
  destruct (covering_ok K P _ _ _ _ _ _ P1 P2 E) as (new & -> & A & B). split; auto. intros i j Hi Hj. cbn [app].
  destruct (B i j) as [H|(H & s1 & s2 & S1 & S2 & Hc & (h & Hh & G))]; [unfold covers; cbn [fst snd]; apply andb_true_iff; split; apply member_in; auto|auto|].
  right. split; auto. exists h. split; auto. intros v w Hv Hw. unfold covers in Hc. cbn [fst snd] in Hc. apply andb_true_iff in Hc as [I1 I2]. apply member_in in I1, I2.
  destruct (B1 s1 S1) as (_ & H1). destruct (B2 s2 S2) as (_ & H2). destruct G as [G|G]; auto. right.
  pose proof (dist2_le _ _ v w (eq_trans (proj1 H1) (eq_sym (proj1 H2))) (hull_inside _ _ _ _ _ _ HD H1 I1 Hv) (hull_inside _ _ _ _ _ _ HD H2 I2 Hw)) as X.
  rewrite (proj1 H1) in X. qclra.
Qed.

(** [0,10]x[0,1] and [4,5]x[5,6], eta 3, horizon 8 *)
Definition bare (b : box) : tree := Tree (Info 0 0 false true b 1%Qc 2) (seq 0 16) [].
Lemma horizon_cuts : ~ (forall K P n1 n2 v w d h, length (nbox (info_of n1)) = d -> length (nbox (info_of n2)) = d ->
  queryAdmissibility K P n1 n2 = ADMISSIBLE -> horizon K = Some h -> complement K = false -> inside (nbox (info_of n1)) v -> inside (nbox (info_of n2)) w ->
  (pdist2 d v w <= h * h)%Qc).
Proof.
  intros H. specialize (H (Kernel 2 (Some (qz 8)) false) (RP 5 5 1 1 GEOMETRIC false (qz 3)) (bare [(qz 0, qz 10); (qz 0, qz 1)]) (bare [(qz 4, qz 5); (qz 5, qz 6)])
    (fun k => if k =? 0 then qz 10 else qz 0) (fun k => if k =? 0 then qz 4 else qz 6) 2 (qz 8) eq_refl eq_refl).
  assert (X : (pdist2 2 (fun k => if k =? 0 then qz 10 else qz 0) (fun k => if k =? 0 then qz 4 else qz 6) <= qz 8 * qz 8)%Qc).
  { apply H; [vm_compute; reflexivity|reflexivity|reflexivity| |]; intros [|[|[|k]]] p E; inversion E; subst; cbn [fst snd Nat.eqb]; split; vm_compute; discriminate. }
  vm_compute in X. congruence.
Qed.
Lemma complement_drops : ~ (forall K P n1 n2 v w h, length (nbox (info_of n1)) = 1 -> length (nbox (info_of n2)) = 1 ->
  queryAdmissibility K P n1 n2 = ZERO -> horizon K = Some h -> complement K = true -> inside (nbox (info_of n1)) v -> inside (nbox (info_of n2)) w ->
  (pdist2 1 v w <= h * h)%Qc).
Proof.
  intros H. specialize (H (Kernel 1 (Some (qz 5)) true) (RP 5 5 1 1 GEOMETRIC false (qz 3)) (bare [(qz 0, qz 10)]) (bare [(qz 2, qz 3)])
    (fun k => qz 10) (fun k => qz 2) (qz 5) eq_refl eq_refl).
  assert (X : (pdist2 1 (fun k => qz 10) (fun k => qz 2) <= qz 5 * qz 5)%Qc).
  { apply H; [vm_compute; reflexivity|reflexivity|reflexivity| |]; intros [|[|k]] p E; inversion E; subst; cbn [fst snd]; split; vm_compute; discriminate. }
  vm_compute in X. congruence.
Qed.
