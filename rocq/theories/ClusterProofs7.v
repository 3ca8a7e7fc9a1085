(** Proofs about the split of a whole tree, trimming the tree afterwards, and
    symmetrizing the near field. *)
From Coq Require Import Sorting.Permutation Sorting.Sorted Lqa.
From Verif Require Import Util Lin MeshGeom ClusterModel ClusterSpec ClusterProofs ClusterProofs2 ClusterProofs4 ClusterProofs5 ClusterProofs6.
Local Open Scope nat_scope.
Set Default Proof Using "Type".

(** ** Splitting from the root *)
Lemma split_ok K P n1 n2 level fuel b st : partitioned n1 -> partitioned n2 -> getAdmissibleClusters fuel K P n1 n2 level (Pairs [] []) = Ok (b, st) ->
  (forall cp, In cp (far_pairs st ++ Pnear st) -> subtree (fst cp) n1 /\ subtree (snd cp) n2) /\
  (forall cp, In cp (far_pairs st) -> queryAdmissibility K P (fst cp) (snd cp) = ADMISSIBLE) /\
  (forall cp, In cp (Pnear st) -> queryAdmissibility K P (fst cp) (snd cp) = INADMISSIBLE) /\
  (forall i j, In i (get_dofs n1) -> In j (get_dofs n2) -> hits (far_pairs st ++ Pnear st) i j = 1 \/
     (hits (far_pairs st ++ Pnear st) i j = 0 /\ exists s1 s2, subtree s1 n1 /\ subtree s2 n2 /\ In i (get_dofs s1) /\ In j (get_dofs s2) /\
        dropped K (nbox (info_of s1)) (nbox (info_of s2)))).
Proof.
  intros P1 P2 E. destruct (adm_ok K P _ _ _ _ _ _ _ P1 P2 E) as (far & near & (X1 & X2 & _) & (A1 & A2 & A3 & A4 & _)). cbn in X1. unfold far_pairs at 2 in X2. cbn [Pfar flat_map app] in X2.
  rewrite X1. split; [|split; [|split]].
  - intros cp Hcp. apply A1. apply in_app_iff in Hcp as [H|H]; apply in_app_iff; auto. left. eapply Permutation_in; eauto.
  - intros cp Hcp. apply A2. eapply Permutation_in; eauto.
  - auto.
  - intros i j Hi Hj. assert (Hp : hits (far_pairs st ++ near) i j = hits (far ++ near) i j) by (apply hits_perm, Permutation_app_tail; auto). rewrite Hp.
    destruct (A4 i j) as [H|(_ & H & s1 & s2 & S1 & S2 & Hc & Hd)].
    + unfold covers. cbn [fst snd]. apply andb_true_iff. split; apply member_in; auto.
    + auto.
    + right. split; auto. exists s1, s2. unfold covers in Hc. cbn [fst snd] in Hc. apply andb_true_iff in Hc as [H1 H2]. apply member_in in H1, H2. auto 6.
Qed.
Lemma dropped_points K D d s1 s2 i j h v w : proper_boxes D d -> hull D d (get_dofs s1) (nbox (info_of s1)) -> hull D d (get_dofs s2) (nbox (info_of s2)) ->
  In i (get_dofs s1) -> In j (get_dofs s2) -> horizon K = Some h -> dropped K (nbox (info_of s1)) (nbox (info_of s2)) -> inside (boxes D i) v -> inside (boxes D j) w ->
  if complement K then (0 <= h)%Qc /\ (staggered (nbox (info_of s1)) (nbox (info_of s2)) -> (pdist2 d v w <= h * h)%Qc) else (h < 0 \/ h * h < pdist2 d v w)%Qc.
Proof.
  intros HD H1 H2 Hi Hj Hh Hd Hv Hw. unfold dropped in Hd. rewrite Hh in Hd. pose proof (hull_inside _ _ _ _ _ _ HD H1 Hi Hv) as V. pose proof (hull_inside _ _ _ _ _ _ HD H2 Hj Hw) as W.
  assert (L1 : length (nbox (info_of s1)) = d) by apply H1. assert (L2 : length (nbox (info_of s2)) = d) by apply H2.
  destruct (complement K).
  - destruct Hd as (Hd1 & Hd2). split; auto. intros Hs. pose proof (maxDist2_ge _ _ v w (eq_trans L1 (eq_sym L2)) Hs V W) as X. rewrite L1 in X. qclra.
  - pose proof (dist2_le _ _ v w (eq_trans L1 (eq_sym L2)) V W) as X. rewrite L1 in X. destruct Hd as [Hd|Hd]; [auto|right; qclra].
Qed.

(** ** Trimming with the pairs *)
Lemma used_has P keep t n : (In n keep \/ (exists cp, In cp (far_pairs P ++ Pnear P) /\ (n = fst cp \/ n = snd cp)) \/ In n (get_tree_nodes_up_to_level 1 t)) ->
  existsb (Z.eqb (id (info_of n))) (used_ids P keep t) = true.
Proof.
  intros H. apply existsb_exists. exists (id (info_of n)). split; [|apply Z.eqb_refl]. unfold used_ids. rewrite !in_app_iff.
  destruct H as [H|[(cp & H & E)|H]].
  - left. apply (in_map (fun n => id (info_of n))); auto.
  - apply in_app_iff in H as [H|H].
    + right. right. left. unfold far_pairs in H. apply in_flat_map in H as (l & Hl & H). apply in_flat_map. exists l. split; auto. apply in_flat_map. exists cp. split; auto. destruct E as [->| ->]; cbn; auto.
    + right. left. apply in_flat_map. exists cp. split; auto. destruct E as [->| ->]; cbn; auto.
  - right. right. right. apply (in_map (fun n => id (info_of n))); auto.
Qed.
Lemma trimTree_ok t P keep : partitioned t -> exists t', trimTree t P keep = Ok t' /\ same_node t t' /\ partitioned t' /\
  (forall s, subtree s t -> (In s keep \/ (exists cp, In cp (far_pairs P ++ Pnear P) /\ (s = fst cp \/ s = snd cp)) \/ In s (t :: children t)) -> exists s', subtree s' t' /\ same_node s s') /\
  (forall s', subtree s' t' -> exists s, subtree s t /\ same_node s s').
Proof.
  intros Hp. unfold trimTree. destruct (trim_ok (fun z => existsb (Z.eqb z) (used_ids P keep t)) t Hp) as (b & t' & -> & S1 & S2 & _ & _ & S3 & S4). cbn [bind snd].
  exists t'. split; auto. split; auto. split; auto. split.
  - intros s Hs H. apply S3; auto. apply used_has. destruct H as [H|[H|H]]; auto. right. right. cbn [get_tree_nodes_up_to_level]. destruct H as [->|H]; [left; auto|].
    right. apply in_flat_map. exists s. split; auto. left. auto.
  - intros s' Hs'. destruct (S4 s' Hs') as (s & H1 & H2 & _). eauto.
Qed.

(** ** Symmetrizing *)
Definition swap (p : Z * Z) : Z * Z := (snd p, fst p).
Lemma same_pair_true p q : same_pair p q = true <-> p = q.
Proof.
  unfold same_pair. rewrite andb_true_iff, !Z.eqb_eq. destruct p as [a b], q as [c d]. cbn [fst snd]. split; [intros (-> & ->); auto|intros E; inversion E; auto].
Qed.
Lemma same_pair_false p q : same_pair p q = false <-> p <> q.
Proof. rewrite <- same_pair_true. destruct (same_pair p q); split; congruence. Qed.
Lemma mem_pair p c : existsb (same_pair p) c = true <-> In p c.
Proof.
  rewrite existsb_exists. split.
  - intros (q & H & E). apply same_pair_true in E. subst. auto.
  - intros H. exists p. split; auto. apply same_pair_true. auto.
Qed.
Lemma mem_pair_false p c : existsb (same_pair p) c = false <-> ~ In p c.
Proof. rewrite <- mem_pair. destruct (existsb _ _); split; congruence. Qed.
Lemma remove_in p q c : In q (filter (fun q => negb (same_pair p q)) c) <-> In q c /\ q <> p.
Proof. rewrite filter_In, negb_true_iff, same_pair_false. split; intros (A & B); split; auto. Qed.
Lemma set_add_spec c p : (forall q, In q (set_add c p) <-> In q c \/ q = p) /\ (NoDup c -> NoDup (set_add c p)).
Proof.
  unfold set_add. destruct (existsb (same_pair p) c) eqn:E.
  - apply mem_pair in E. split; auto. intros q. split; auto. intros [H| ->]; auto.
  - apply mem_pair_false in E. split.
    + intros q. rewrite in_app_iff. cbn. split; [intros [H|[H|[]]]|intros [H|H]]; auto.
    + intros H. apply NoDup_app; auto; [repeat constructor; auto|]. intros z Hz [<-|[]]. auto.
Qed.
Lemma pair_set_spec near : (forall q, In q (pair_set near) <-> In q (map pair_ids near)) /\ NoDup (pair_set near).
Proof.
  unfold pair_set. assert (G : forall l c, NoDup c -> (forall q, In q (fold_left set_add l c) <-> In q c \/ In q l) /\ NoDup (fold_left set_add l c)).
  { induction l as [|p l IH]; intros c Hc; cbn [fold_left]; [split; [cbn; tauto|auto]|]. destruct (set_add_spec c p) as (A & B). destruct (IH _ (B Hc)) as (C & D). split; auto.
    intros q. rewrite C, A. cbn. firstorder. }
  destruct (G (map pair_ids near) [] (NoDup_nil _)) as (A & B). split; auto. intros q. rewrite A. cbn. tauto.
Qed.
Lemma lookup_ok near z : In z (flat_map (fun cp => [id (info_of (fst cp)); id (info_of (snd cp))]) near) ->
  exists n, lookup near z = Ok n /\ id (info_of n) = z /\ In n (flat_map (fun cp => [fst cp; snd cp]) near).
Proof.
  intros H. unfold lookup. destruct (find _ _) as [n|] eqn:E.
  - apply find_some in E as (E1 & E2). apply Z.eqb_eq in E2. apply in_rev in E1. eauto.
  - exfalso. apply in_flat_map in H as (cp & Hcp & H).
    assert (X : exists n, In n [fst cp; snd cp] /\ id (info_of n) = z) by (destruct H as [H|[H|[]]]; [exists (fst cp)|exists (snd cp)]; cbn; auto).
    destruct X as (n & Hn & Ez). eapply find_none in E; [|rewrite <- in_rev; apply in_flat_map; eauto]. apply Z.eqb_neq in E. auto.
Qed.
Lemma symmetrize_loop_ok pick near : forall fuel c out, NoDup c -> length c < fuel -> incl c (map pair_ids near) ->
  exists new, symmetrize_loop fuel pick near c out = Ok (out ++ new) /\ NoDup (map pair_ids new) /\
    (forall q, In q (map pair_ids new) <-> ~ In q c /\ In (swap q) c) /\
    (forall cp, In cp new -> In (fst cp) (flat_map (fun cp => [fst cp; snd cp]) near) /\ In (snd cp) (flat_map (fun cp => [fst cp; snd cp]) near)).
Proof.
  induction fuel as [|fuel IH]; intros c out Hc Hf Hi; [lia|]. cbn [symmetrize_loop]. destruct c as [|p0 c0].
  { exists []. rewrite app_nil_r. split; auto. split; [constructor|]. split; [cbn; tauto|intros cp []]. }
  set (c := p0 :: c0) in *. set (p := nth (pick c mod length c) c p0). set (c' := filter (fun q => negb (same_pair p q)) c).
  assert (Hp : In p c) by (apply nth_In, Nat.mod_upper_bound; discriminate).
  assert (Hc' : NoDup c') by (apply NoDup_filter; auto).
  assert (R : forall q, In q c' <-> In q c /\ q <> p) by (intros q; apply remove_in).
  assert (Less : forall l : list (Z * Z), NoDup l -> incl l c' -> length l < fuel).
  { intros l Hl Hil. assert (X : length (p :: l) <= length c); [|cbn [length] in X; lia]. apply NoDup_incl_length.
    - constructor; auto. intros C. apply Hil, R in C as (_ & C). congruence.
    - intros q [<-|Hq]; auto. apply Hil, R in Hq as (Hq & _). auto. }
  assert (Inc : incl c' (map pair_ids near)) by (intros q Hq; apply Hi, R; auto).
  destruct (fst p =? snd p)%Z eqn:Ed.
  - apply Z.eqb_eq in Ed. assert (Es : swap p = p) by (destruct p as [a b]; cbn in *; subst; auto).
    destruct (IH c' out Hc' (Less c' Hc' (incl_refl _)) Inc) as (new & -> & N1 & N2 & N3). exists new. split; auto. split; auto. split; auto. intros q. rewrite N2, !R.
    split; intros (A & B).
    + destruct B as (B1 & B2). split; auto. intros C. apply A. split; auto. intros ->. congruence.
    + split; [tauto|]. split; auto. intros C. apply A. replace q with (swap (swap q)) by (destruct q; auto). rewrite C, Es. auto.
  - apply Z.eqb_neq in Ed. assert (Es : swap p <> p) by (destruct p as [a b]; cbn in *; intros E; inversion E; congruence).
    change (snd p, fst p) with (swap p). destruct (existsb (same_pair (swap p)) c') eqn:Em.
    + apply mem_pair in Em. set (c'' := filter (fun q => negb (same_pair (swap p) q)) c').
      assert (R' : forall q, In q c'' <-> In q c' /\ q <> swap p) by (intros q; apply remove_in).
      assert (Hc'' : NoDup c'') by (apply NoDup_filter; auto).
      destruct (IH c'' out Hc'' (Less c'' Hc'' (fun q H => proj1 (proj1 (R' q) H))) (fun q H => Inc q (proj1 (proj1 (R' q) H)))) as (new & -> & N1 & N2 & N3).
      exists new. split; auto. split; auto. split; auto. intros q. rewrite N2, !R', !R. apply R in Em as (Em & _).
      split; intros (A & B).
      * destruct B as ((B1 & B2) & B3). split; auto. intros C. apply A. split; [split; auto; intros ->; auto|]. intros ->. apply B2. destruct p; auto.
      * split; [tauto|]. split; [split; auto|].
        -- intros C. apply A. replace q with (swap (swap q)) by (destruct q; auto). rewrite C. auto.
        -- intros C. apply A. replace q with (swap (swap q)) by (destruct q; auto). rewrite C. destruct p; auto.
    + apply mem_pair_false in Em.
      assert (Hs : ~ In (swap p) c) by (intros C; apply Em, R; auto).
      pose proof (Hi p Hp) as Hpi. apply in_map_iff in Hpi as (cp & Ecp & Hcp).
      destruct (lookup_ok near (snd p)) as (n2 & -> & E2 & I2); [apply in_flat_map; exists cp; split; auto; rewrite <- Ecp; cbn; auto|].
      destruct (lookup_ok near (fst p)) as (n1 & -> & E1 & I1); [apply in_flat_map; exists cp; split; auto; rewrite <- Ecp; cbn; auto|]. cbn [bind].
      destruct (IH c' (out ++ [(n2, n1)]) Hc' (Less c' Hc' (incl_refl _)) Inc) as (new & -> & N1 & N2 & N3).
      assert (Ep : pair_ids (n2, n1) = swap p) by (unfold pair_ids, swap; cbn [fst snd]; rewrite E1, E2; auto).
      exists ((n2, n1) :: new). split; [rewrite <- app_assoc; auto|]. cbn [map]. rewrite Ep. split; [|split].
      * constructor; auto. rewrite N2, !R. intros (_ & _ & C). apply C. destruct p; auto.
      * intros q. cbn [In]. rewrite N2, !R. split.
        -- intros [<-|(A & B & C)]; [split; auto; destruct p; auto|]. split; auto. intros D. apply A. split; auto. intros ->. apply Hs. auto.
        -- intros (A & B). destruct (same_pair (swap q) p) eqn:Eq; [apply same_pair_true in Eq; left; rewrite <- Eq; destruct q; auto|]. apply same_pair_false in Eq. right. split; [tauto|]. auto.
      * intros cq [<-|H]; auto.
Qed.
Lemma symmetrize_ok pick near : exists new, symmetrizeNearFieldClusters pick near = Ok (near ++ new) /\ NoDup (map pair_ids new) /\
  (forall q, In q (map pair_ids new) <-> ~ In q (map pair_ids near) /\ In (snd q, fst q) (map pair_ids near)) /\
  (forall cp, In cp new -> In (fst cp) (flat_map (fun cp => [fst cp; snd cp]) near) /\ In (snd cp) (flat_map (fun cp => [fst cp; snd cp]) near)).
Proof.
  destruct (pair_set_spec near) as (A & B). unfold symmetrizeNearFieldClusters.
  destruct (symmetrize_loop_ok pick near (S (length (pair_set near))) (pair_set near) near B (Nat.lt_succ_diag_r _) (fun q H => proj1 (A q) H)) as (new & E & N1 & N2 & N3).
  exists new. split; auto. split; auto. split; auto. intros q. rewrite N2, !A. reflexivity.
Qed.
