(** The regular partition as a whole, and the sizes of irregular partitions of an interval. *)
From Verif Require Import Util Lin AssemblyProofs TransferProofs2 SubMapProofs6 SubMapProofs PartitionModel PartitionSpec PartitionProofs PartitionProofs2 PartitionProofs3 PartitionProofs4.
From Coq Require Import Sorting.Sorted Permutation.
Local Open Scope nat_scope.
Set Default Proof Using "Type".

Lemma regular_whole dim vs per lo hi pd npd nparts : in_dim dim vs -> 0 < length vs -> length per = dim -> (forall j, j < dim -> 0 < nth j per 0) ->
  (forall j, j < dim -> is_min (length vs) (fun i => at_vertex vs i j) (lo j)) -> (forall j, j < dim -> is_max (length vs) (fun i => at_vertex vs i j) (hi j)) ->
  npd = Some per \/ npd = None /\ balancePartitions dim vs pd nparts = Ok per ->
  let n := fun j => nth j per 0 in
  exists z, (forall i j, i < length vs -> j < dim -> in_interval (lo j) (hi j + Q2Qc (1 # 100000) - lo j) (n j) (z i j) (at_vertex vs i j)) /\
    ((forall p, p < product n dim -> exists i, i < length vs /\ first_fastest n (z i) dim = p) ->
       partitionVertices dim vs pd npd nparts = Ok (map (fun i => first_fastest n (z i) dim) (seq 0 (length vs)), product n dim)) /\
    ((exists p, p < product n dim /\ forall i, i < length vs -> first_fastest n (z i) dim <> p) -> partitionVertices dim vs pd npd nparts = Err EValue) /\
    (forall i i', i < length vs -> i' < length vs -> (first_fastest n (z i) dim = first_fastest n (z i') dim <-> forall j, j < dim -> z i j = z i' j)).
Proof.
  intros HD HN HL Hpos Hlo Hhi Hn n. exists (zbox vs per lo hi).
  assert (ZB : forall i j, i < length vs -> j < dim -> in_interval (lo j) (hi j + Q2Qc (1 # 100000) - lo j) (n j) (zbox vs per lo hi i j) (at_vertex vs i j))
    by (intros i j Hi Hj; exact (proj2 (zbox_ok dim vs per lo hi Hpos Hlo Hhi i j Hi Hj))).
  assert (HN1 : npd = Some per \/ npd = None) by tauto. assert (HN2 : npd = None -> balancePartitions dim vs pd nparts = Ok per) by (intros ->; destruct Hn as [Hn|Hn]; [discriminate|tauto]).
  assert (EPP : product n dim = prod per) by (unfold n; rewrite prod_product, HL; reflexivity).
  destruct (regular_ok dim vs per lo hi HD HN HL Hpos Hlo Hhi pd npd HN1 nparts HN2) as (A & B). split; [exact ZB|]. rewrite EPP. split; [exact A|]. split; [exact B|].
  intros i i' Hi Hi'. split; [|intros H; apply radix_ext; exact H]. intros H. apply (radix_inj n); [| |exact H]; intros j Hj; apply ZB; assumption.
Qed.

(** Sorting *)
Lemma insert_up_perm x l : Permutation (insert_up x l) (x :: l).
Proof. induction l as [|y l IH]; cbn [insert_up]; [reflexivity|]. destruct (Qclt_le_dec y x); [|reflexivity]. rewrite IH. apply perm_swap. Qed.
Lemma sort_up_perm l : Permutation (sort_up l) l.
Proof. induction l as [|x l IH]; cbn [sort_up fold_right]; [reflexivity|]. fold (sort_up l). rewrite insert_up_perm, IH. reflexivity. Qed.
Lemma insert_up_sorted x l : StronglySorted Qcle l -> StronglySorted Qcle (insert_up x l).
Proof.
  induction 1 as [|y l SS IH F]; cbn [insert_up]; [repeat constructor|]. rewrite Forall_forall in F. destruct (Qclt_le_dec y x) as [L|L].
  - constructor; [exact IH|]. rewrite Forall_forall. intros z Hz. apply (Permutation_in _ (insert_up_perm x l)) in Hz. destruct Hz as [<-|Hz]; [apply Qclt_le_weak; exact L|apply F; exact Hz].
  - constructor; [constructor; [exact SS|rewrite Forall_forall; exact F]|]. rewrite Forall_forall. intros z [<-|Hz]; [exact L|]. apply (Qcle_trans _ y); [exact L|apply F; exact Hz].
Qed.
Lemma sort_up_sorted l : StronglySorted Qcle (sort_up l).
Proof. induction l as [|x l IH]; cbn [sort_up fold_right]; [constructor|]. apply insert_up_sorted. exact IH. Qed.
Lemma sorted_nth_lt l : StronglySorted Qcle l -> NoDup l -> forall i j, i < j -> j < length l -> (nth i l 0 < nth j l 0)%Qc.
Proof.
  induction 1 as [|x l SS IH F]; intros ND i j Hij Hj; cbn [length] in Hj; [lia|]. inversion_clear ND as [|? ? NI ND']. rewrite Forall_forall in F. destruct j as [|j]; [lia|]. destruct i as [|i]; cbn [nth].
  - assert (HI : In (nth j l 0%Qc) l) by (apply nth_In; lia). destruct (Qcle_lt_or_eq _ _ (F _ HI)) as [L|E]; [exact L|]. rewrite <- E in HI. contradiction.
  - apply IH; [exact ND'|lia|lia].
Qed.

(** The number of values below a value *)
Definition below (c : list Qc) (x : Qc) : nat := length (filter (fun y => if Qclt_le_dec y x then true else false) c).
Lemma filter_perm_length {A} (f : A -> bool) l l' : Permutation l l' -> length (filter f l) = length (filter f l').
Proof. induction 1 as [|x l l' _ IH|x y l|l l' l'' _ IH1 _ IH2]; cbn [filter]; [reflexivity| | |congruence]; destruct (f x); try destruct (f y); cbn [length]; congruence. Qed.
Lemma filter_ext_len {A} (f g : A -> bool) l : (forall x, In x l -> f x = g x) -> length (filter f l) = length (filter g l).
Proof. intros H. rewrite (filter_ext_in f g l H). reflexivity. Qed.
Lemma count_interval a b : forall n s, length (filter (fun k => (a <=? k) && (k <? b)) (seq s n)) = Nat.min b (s + n) - Nat.max a s.
Proof.
  induction n as [|n IH]; intros s; cbn [seq filter]; [cbn [length]; lia|].
  destruct (Nat.leb_spec a s), (Nat.ltb_spec s b); cbn [andb length]; rewrite IH; lia.
Qed.
Lemma nth_map_seq {A} (l : list A) d : l = map (fun k => nth k l d) (seq 0 (length l)).
Proof. apply (nth_ext _ _ d d); [rewrite map_length, seq_length; reflexivity|]. intros k Hk. rewrite (nth_indep (map (fun k => nth k l d) (seq 0 (length l))) d (nth 0 l d)) by (rewrite map_length, seq_length; exact Hk). rewrite (map_nth (fun k => nth k l d)), seq_nth by exact Hk. reflexivity. Qed.
Lemma filter_map_len {A B} (f : B -> bool) (g : A -> B) l : length (filter f (map g l)) = length (filter (fun x => f (g x)) l).
Proof. induction l as [|x l IH]; cbn [map filter]; [reflexivity|]. destruct (f (g x)); cbn [length]; rewrite IH; reflexivity. Qed.

Section Line.
  Variable c : list Qc.
  Hypothesis ND : NoDup c.
  Let s := sort_up c.
  Let N := length c.
  Lemma s_len : length s = N.
  Proof. apply Permutation_length. apply sort_up_perm. Qed.
  Lemma s_lt i j : i < N -> j < N -> ((nth i s 0 < nth j s 0)%Qc <-> i < j).
  Proof using ND.
    assert (SN : NoDup s) by (apply (Permutation_NoDup (Permutation_sym (sort_up_perm c))); exact ND). pose proof s_len as SL.
    assert (G : forall a b, a < b -> b < N -> (nth a s 0 < nth b s 0)%Qc) by (intros a b Hab Hb; apply sorted_nth_lt; [apply sort_up_sorted|exact SN|exact Hab|lia]).
    intros Hi Hj. split; [|intros H; apply G; assumption]. intros H. destruct (lt_eq_lt_dec i j) as [[L|E]|L]; [exact L| |]; exfalso.
    - subst j. exact (Qclt_not_eq _ _ H eq_refl).
    - exact (Qclt_not_le _ _ H (Qclt_le_weak _ _ (G j i L Hi))).
  Qed.
  Lemma below_s k : k < N -> below c (nth k s 0%Qc) = k.
  Proof using ND.
    intros Hk. unfold below. rewrite (filter_perm_length _ c s (Permutation_sym (sort_up_perm c))). rewrite (nth_map_seq s 0%Qc) at 1. rewrite filter_map_len, s_len.
    rewrite (filter_ext_len _ (fun i => (0 <=? i) && (i <? k))); [rewrite count_interval; lia|]. intros i Hi. apply in_seq in Hi. change (0 <=? i) with true. cbn [andb].
    pose proof (s_lt i k ltac:(lia) Hk) as SI. destruct (Qclt_le_dec (nth i s 0%Qc) (nth k s 0%Qc)) as [L|L]; destruct (Nat.ltb_spec i k) as [L'|L']; try reflexivity; exfalso.
    - apply SI in L. lia.
    - apply SI in L'. exact (Qclt_not_le _ _ L' L).
  Qed.
  Lemma below_perm : Permutation (map (below c) c) (seq 0 N).
  Proof using ND.
    rewrite <- (Permutation_map (below c) (sort_up_perm c)). fold s. rewrite (nth_map_seq s 0%Qc), map_map, s_len. rewrite (map_ext_in _ (fun k => k)); [rewrite map_id; reflexivity|].
    intros k Hk. apply in_seq in Hk. apply below_s. lia.
  Qed.
  Lemma below_inv x : In x c -> below c x < N /\ x = nth (below c x) s 0%Qc.
  Proof using ND.
    intros Hx. apply (Permutation_in _ (Permutation_sym (sort_up_perm c))) in Hx. destruct (In_nth _ _ 0%Qc Hx) as (k & Hk & <-). fold s in Hk |- *. rewrite s_len in Hk. rewrite below_s by exact Hk. auto.
  Qed.

  Variable m : nat.
  Hypothesis Hm : 0 < m.
  Definition bnd j : Qc := (nth (j * (N - 1) / m) s 0 + (nth (Nat.min (j * (N - 1) / m + 1) (N - 1)) s 0 - nth (j * (N - 1) / m) s 0) * (qz (Z.of_nat (j * (N - 1) mod m)) / qz (Z.of_nat m)))%Qc.
  Lemma quantiles_ok : 0 < N -> quantiles c m = Ok (map bnd (seq 1 (m - 1))).
  Proof using Hm.
    intros HN. unfold quantiles. fold N s. rewrite (proj2 (Nat.eqb_neq N 0)) by lia.
    assert (G : forall l acc, (forall j, In j l -> j < m) -> for_list l (fun j bs => let i := j * (N - 1) / m in lo <- aget s i ;; hi <- aget s (Nat.min (i + 1) (N - 1)) ;;
      Ok (bs ++ [lo + (hi - lo) * (qz (Z.of_nat (j * (N - 1) mod m)) / qz (Z.of_nat m))]%Qc)) acc = Ok (acc ++ map bnd l)).
    { induction l as [|j l IH]; intros acc Hl; cbn [for_list map]; [rewrite app_nil_r; reflexivity|]. cbv zeta.
      assert (IB : j * (N - 1) / m < N).
      { apply Nat.div_lt_upper_bound; [lia|]. pose proof (Hl j (or_introl eq_refl)) as Hj. pose proof (Nat.mul_le_mono_r j m (N - 1) ltac:(lia)). nia. }
      rewrite (aget_nth s _ 0%Qc) by (rewrite s_len; exact IB). cbn [bind]. rewrite (aget_nth s (Nat.min _ _) 0%Qc) by (rewrite s_len; lia). cbn [bind].
      rewrite IH by (intros i Hi; apply Hl; right; exact Hi). rewrite <- app_assoc. reflexivity. }
    apply (G _ []). intros j Hj. apply in_seq in Hj. lia.
  Qed.
  Lemma bnd_spec k j : k < N -> 0 < j < m -> ((nth k s 0 < bnd j)%Qc <-> m * k < j * (N - 1)).
  Proof using ND Hm.
    intros Hk Hj. unfold bnd. set (i := j * (N - 1) / m). set (r := j * (N - 1) mod m). pose proof (Nat.div_mod (j * (N - 1)) m ltac:(lia)) as DM. fold i r in DM.
    pose proof (Nat.mod_upper_bound (j * (N - 1)) m ltac:(lia)) as RB. fold r in RB.
    assert (IB : i < N) by (apply Nat.div_lt_upper_bound; [lia|]; pose proof (Nat.mul_le_mono_r j m (N - 1) ltac:(lia)); nia).
    destruct (Nat.eq_dec r 0) as [R0|R0].
    - rewrite R0. replace (nth i s 0 + (nth (Nat.min (i + 1) (N - 1)) s 0 - nth i s 0) * (qz (Z.of_nat 0) / qz (Z.of_nat m)))%Qc with (nth i s 0%Qc).
      + rewrite s_lt by assumption. rewrite DM, R0, Nat.add_0_r. apply Nat.mul_lt_mono_pos_l. exact Hm.
      + replace (qz (Z.of_nat 0)) with 0%Qc by (apply Qc_is_canon; reflexivity). unfold Qcdiv. ring.
    - assert (IB2 : i + 1 < N).
      { destruct (le_lt_dec (N - 1) i) as [L|L]; [exfalso|lia]. pose proof (Nat.mul_le_mono_l _ _ m L). pose proof (Nat.mul_le_mono_r j m (N - 1) ltac:(lia)). lia. }
      replace (Nat.min (i + 1) (N - 1)) with (i + 1) by lia.
      assert (PI : (nth i s 0 < nth (i + 1) s 0)%Qc) by (apply s_lt; lia).
      assert (PM : (0 < qz (Z.of_nat m))%Qc) by (apply (proj2 (qz_lt 0 (Z.of_nat m))); lia).
      assert (PR : (0 < qz (Z.of_nat r))%Qc) by (apply (proj2 (qz_lt 0 (Z.of_nat r))); lia).
      assert (PRM : (qz (Z.of_nat r) < qz (Z.of_nat m))%Qc) by (apply qz_lt; lia).
      set (t := (qz (Z.of_nat r) / qz (Z.of_nat m))%Qc).
      assert (TM : (t * qz (Z.of_nat m) = qz (Z.of_nat r))%Qc) by (unfold t; apply Qcmult_div_l || (field; intros X; rewrite X in PM; exact (Qclt_not_eq _ _ PM eq_refl))).
      assert (T0 : (0 < t)%Qc) by (destruct (Qclt_le_dec 0 t) as [L|L]; [exact L|exfalso]; pose proof (Qcmult_le_compat_r _ _ _ L (Qclt_le_weak _ _ PM)) as Q0; rewrite TM, Qcmult_0_l in Q0; exact (Qclt_not_le _ _ PR Q0)).
      assert (T1 : (t < 1)%Qc) by (destruct (Qclt_le_dec t 1) as [L|L]; [exact L|exfalso]; pose proof (Qcmult_le_compat_r _ _ _ L (Qclt_le_weak _ _ PM)) as Q0; rewrite TM, Qcmult_1_l in Q0; exact (Qclt_not_le _ _ PRM Q0)).
      set (a := nth i s 0%Qc) in *. set (b := nth (i + 1) s 0%Qc) in *.
      assert (AB : (0 < b - a)%Qc) by (apply Qclt_minus_iff in PI; exact PI).
      assert (LO : (a < a + (b - a) * t)%Qc) by (apply Qclt_minus_iff; replace (a + (b - a) * t + - a)%Qc with (t * (b - a))%Qc by ring; pose proof (Qcmult_lt_compat_r 0 t (b - a) AB T0) as Q0; rewrite Qcmult_0_l in Q0; exact Q0).
      assert (HI : (a + (b - a) * t < b)%Qc) by (pose proof (Qcmult_lt_compat_r t 1 (b - a) AB T1) as Q0; apply Qclt_minus_iff in Q0; apply Qclt_minus_iff; replace (b + - (a + (b - a) * t))%Qc with (1 * (b - a) + - (t * (b - a)))%Qc by ring; exact Q0).
      split; intros H.
      + assert (KI : k < i + 1) by (apply s_lt; [exact Hk|lia|]; fold b; exact (Qclt_trans _ _ _ H HI)). pose proof (Nat.mul_le_mono_l k i m ltac:(lia)). lia.
      + assert (KI : k <= i) by (destruct (le_lt_dec k i) as [|L]; [assumption|exfalso]; pose proof (Nat.mul_le_mono_l (i + 1) k m ltac:(lia)); lia).
        apply (Qcle_lt_trans _ a); [|exact LO]. destruct (Nat.eq_dec k i) as [->|]; [apply Qcle_refl|]. apply Qclt_le_weak. apply s_lt; lia.
  Qed.
End Line.
