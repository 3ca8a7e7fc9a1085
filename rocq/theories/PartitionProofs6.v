(** The sizes of irregular partitions of an interval. *)
From Verif Require Import Util Lin AssemblyProofs TransferProofs2 SubMapProofs6 SubMapProofs MeshProofs3 PartitionModel PartitionSpec PartitionProofs PartitionProofs2 PartitionProofs3 PartitionProofs4 PartitionProofs5.
From Coq Require Import Sorting.Sorted Permutation.
Local Open Scope nat_scope.
Set Default Proof Using "Type".

Lemma slot_total x bs : forall fuel j, j + fuel <= length bs -> exists r, slot x bs j fuel = Ok r.
Proof.
  induction fuel as [|fuel IH]; intros j H; cbn [slot]; [eauto|]. rewrite (aget_nth bs j 0%Qc) by lia. cbn [bind]. destruct (Qclt_le_dec x (nth j bs 0%Qc)); [eauto|]. apply IH. lia.
Qed.

(** Cuts: K j vertices are in the sets before j. *)
Section Cuts.
  Variables N m : nat.
  Hypothesis Hm : 0 < m.
  Definition cut j := if j <? m then (j * (N - 1) + (m - 1)) / m else N.
  Lemma cut_spec j : j < m -> j * (N - 1) <= m * cut j < j * (N - 1) + m.
  Proof using Hm.
    intros Hj. unfold cut. rewrite (proj2 (Nat.ltb_lt j m) Hj). pose proof (Nat.div_mod (j * (N - 1) + (m - 1)) m ltac:(lia)) as D.
    pose proof (Nat.mod_upper_bound (j * (N - 1) + (m - 1)) m ltac:(lia)). lia.
  Qed.
  Lemma cut_0 : cut 0 = 0.
  Proof using Hm. pose proof (cut_spec 0 Hm) as C. destruct (cut 0) as [|x]; [reflexivity|]. exfalso. rewrite Nat.mul_succ_r in C. lia. Qed.
  Lemma cut_m : cut m = N.
  Proof. unfold cut. rewrite Nat.ltb_irrefl. reflexivity. Qed.
  Lemma lt_cut k j : j < m -> (k < cut j <-> m * k < j * (N - 1)).
  Proof using Hm.
    intros Hj. pose proof (cut_spec j Hj) as C. split; intros H.
    - pose proof (Nat.mul_le_mono_l (S k) (cut j) m H) as L. rewrite Nat.mul_succ_r in L. lia.
    - destruct (le_lt_dec (cut j) k) as [L|L]; [exfalso|exact L]. pose proof (Nat.mul_le_mono_l (cut j) k m L). lia.
  Qed.
  Lemma le_of_mul a b : m * a < m * b + m -> a <= b.
  Proof using Hm. intros H. rewrite <- Nat.mul_succ_r in H. apply Nat.mul_lt_mono_pos_l in H; lia. Qed.
  Hypothesis HmN : m <= N.
  Lemma cut_le_N j : j <= m -> cut j <= N.
  Proof using Hm HmN.
    intros Hj. destruct (Nat.eq_dec j m) as [->|Nj]; [rewrite cut_m; lia|]. pose proof (cut_spec j ltac:(lia)) as C. destruct (le_lt_dec (cut j) N) as [L|L]; [exact L|exfalso].
    pose proof (Nat.mul_le_mono_l _ _ m L) as M. rewrite Nat.mul_succ_r in M. pose proof (Nat.mul_le_mono_r j m (N - 1) ltac:(lia)) as M2. pose proof (Nat.mul_le_mono_l (N - 1) N m ltac:(lia)). lia.
  Qed.
  Lemma cut_size j : j < m -> cut j + (N - 1) / m <= cut (S j) <= cut j + (N - 1) / m + 1 /\ cut j < cut (S j).
  Proof using Hm HmN.
    intros Hj. pose proof (cut_spec j Hj) as C. pose proof (Nat.div_mod (N - 1) m ltac:(lia)) as D. pose proof (Nat.mod_upper_bound (N - 1) m ltac:(lia)) as RB. set (q := (N - 1) / m) in *. set (r := (N - 1) mod m) in *.
    assert (ES : S j * (N - 1) = j * (N - 1) + (N - 1)) by (cbn [Nat.mul]; lia).
    assert (CS : S j * (N - 1) <= m * cut (S j) /\ (S j < m -> m * cut (S j) < S j * (N - 1) + m) /\ (S j = m -> cut (S j) = N)).
    { destruct (Nat.eq_dec (S j) m) as [E|Ne].
      - rewrite E, cut_m. split; [apply Nat.mul_le_mono_l; lia|]. split; [lia|reflexivity].
      - pose proof (cut_spec (S j) ltac:(lia)). split; [lia|]. split; [lia|intros; lia]. }
    destruct CS as (CL & CU & CE).
    assert (A1 : cut j + q <= cut (S j)) by (apply (le_of_mul); rewrite Nat.mul_add_distr_l; lia).
    assert (A2 : cut (S j) <= cut j + q + 1).
    { apply (le_of_mul). rewrite !Nat.mul_add_distr_l, Nat.mul_1_r. destruct (Nat.eq_dec (S j) m) as [E|Ne]; [|pose proof (CU ltac:(lia)); lia].
      rewrite (CE E). assert (EM : m * N = m * (N - 1) + m) by (rewrite <- Nat.mul_succ_r; f_equal; lia). assert (EJ : m * (N - 1) = j * (N - 1) + (N - 1)) by (rewrite <- E; exact ES). lia. }
    split; [split; assumption|]. destruct (Nat.eq_dec q 0) as [Q0|]; [|lia]. rewrite Q0, Nat.mul_0_r in D. assert (EN : m = N) by lia.
    assert (EN1 : forall x, x * (N - 1) + x = m * x) by (intros x; rewrite EN, (Nat.mul_comm N), <- Nat.mul_succ_r; f_equal; lia).
    assert (J1 : cut j <= j) by (apply (le_of_mul); pose proof (EN1 j); lia).
    assert (J2 : j < cut (S j)).
    { destruct (Nat.eq_dec (S j) m) as [E|Ne]; [rewrite (CE E); lia|]. apply (Nat.mul_lt_mono_pos_l m); [exact Hm|]. pose proof (EN1 (S j)) as X. rewrite Nat.mul_succ_r in X. lia. }
    lia.
  Qed.
End Cuts.

Section OneDim.
  Variable vs : list (list Qc).
  Hypothesis HD : in_dim 1 vs.
  Hypothesis Hdist : forall i i', i < length vs -> i' < length vs -> at_vertex vs i 0 = at_vertex vs i' 0 -> i = i'.
  Let N := length vs.
  Let xs := map (fun i => at_vertex vs i 0) (seq 0 N).
  Lemma xs_len : length xs = N.
  Proof. unfold xs. rewrite map_length, seq_length. reflexivity. Qed.
  Lemma xs_nodup : NoDup xs.
  Proof using Hdist. apply NoDup_map_inj; [|apply seq_NoDup]. intros i i' Hi Hi'. apply in_seq in Hi. apply in_seq in Hi'. apply Hdist; fold N; lia. Qed.
  Lemma rank_below i : rank vs i = below xs (at_vertex vs i 0).
  Proof. unfold rank, below, xs. rewrite filter_map_len. reflexivity. Qed.
  Lemma xs_in i : i < N -> In (at_vertex vs i 0) xs.
  Proof. intros Hi. apply (in_map (fun i => at_vertex vs i 0)). apply in_seq. lia. Qed.
  Lemma rank_lt i : i < N -> rank vs i < N.
  Proof using Hdist. intros Hi. rewrite rank_below. pose proof (proj1 (below_inv xs xs_nodup _ (xs_in i Hi))) as B. rewrite xs_len in B. exact B. Qed.
  Lemma rank_perm : Permutation (map (rank vs) (seq 0 N)) (seq 0 N).
  Proof using Hdist. pose proof (below_perm xs xs_nodup) as P. rewrite xs_len in P. unfold xs at 2 in P. rewrite map_map in P. rewrite (map_ext _ _ rank_below). exact P. Qed.
  Variable m : nat.
  Hypothesis Hm : 0 < m.
  Let bs := map (bnd xs m) (seq 1 (m - 1)).
  Lemma nth_bs j : j < m - 1 -> nth j bs 0%Qc = bnd xs m (S j).
  Proof. intros Hj. unfold bs. rewrite (nth_indep _ 0%Qc (bnd xs m 0)) by (rewrite map_length, seq_length; exact Hj). rewrite map_nth, seq_nth by exact Hj. reflexivity. Qed.
  Lemma slot_line i : i < N -> exists r, slot (at_vertex vs i 0) bs 0 (m - 1) = Ok r /\ r < m /\ forall j, 0 < j < m -> (r < j <-> m * rank vs i < j * (N - 1)).
  Proof using Hdist Hm.
    intros Hi. destruct (slot_total (at_vertex vs i 0) bs (m - 1) 0) as (r & E); [unfold bs; rewrite map_length, seq_length; lia|]. exists r. split; [exact E|].
    destruct (slot_spec _ _ _ _ _ E) as (RB & A & B). split; [lia|]. destruct (below_inv xs xs_nodup _ (xs_in i Hi)) as (L & EX). rewrite <- rank_below in L, EX.
    assert (X : forall t, t < m - 1 -> ((at_vertex vs i 0 < nth t bs 0)%Qc <-> m * rank vs i < S t * (N - 1))).
    { intros t Ht. rewrite nth_bs by exact Ht. rewrite EX. pose proof (bnd_spec xs xs_nodup m Hm (rank vs i) (S t) L ltac:(lia)) as BS. rewrite xs_len in BS. exact BS. }
    intros j Hj. split; intros H.
    - pose proof (proj1 (X r ltac:(lia)) (B ltac:(lia))) as Y. pose proof (Nat.mul_le_mono_r (S r) j (N - 1) H). lia.
    - destruct (le_lt_dec j r) as [L2|L2]; [exfalso|exact L2]. apply (A (j - 1) ltac:(lia)). apply (X (j - 1) ltac:(lia)). replace (S (j - 1)) with j by lia. exact H.
  Qed.
  Definition lpart i := match slot (at_vertex vs i 0) bs 0 (m - 1) with Ok r => r | Err _ => 0 end.
  Lemma lpart_ok i : i < N -> slot (at_vertex vs i 0) bs 0 (m - 1) = Ok (lpart i) /\ lpart i < m /\ forall j, 0 < j < m -> (lpart i < j <-> m * rank vs i < j * (N - 1)).
  Proof using Hdist Hm. intros Hi. destruct (slot_line i Hi) as (r & E & H). unfold lpart. rewrite E. auto. Qed.
  Hypothesis HmN : m <= length vs.
  Lemma lpart_cut i j : i < N -> j < m -> (lpart i = j <-> cut N m j <= rank vs i < cut N m (S j)).
  Proof using Hdist Hm HmN.
    intros Hi Hj. destruct (lpart_ok i Hi) as (_ & B & H). pose proof (rank_lt i Hi) as RL.
    assert (G : forall t, t <= m -> (lpart i < t <-> rank vs i < cut N m t)).
    { intros t Ht. destruct (Nat.eq_dec t m) as [->|]; [rewrite cut_m; split; intros; assumption|]. destruct (Nat.eq_dec t 0) as [->|]; [rewrite cut_0 by exact Hm; lia|].
      rewrite (lt_cut N m Hm) by lia. apply H. lia. }
    pose proof (G j ltac:(lia)). pose proof (G (S j) ltac:(lia)). lia.
  Qed.

  Lemma line_ok pd nparts : exists part, partitionVerticesIrregular quantiles 1 vs pd (Some [m]) nparts = Ok (part, m) /\ length part = N /\
    (forall i, i < N -> nth i part m < m /\ forall j, 0 < j < m -> (nth i part m < j <-> m * rank vs i < j * (N - 1))) /\
    (forall j, j < m -> (N - 1) / m <= part_size part j <= (N - 1) / m + 1 /\ 0 < part_size part j).
  Proof using HD Hdist Hm HmN.
    exists (map lpart (seq 0 N)). split; [|split; [rewrite map_length, seq_length; reflexivity|split]].
    - unfold partitionVerticesIrregular. cbn [bind]. change (1 - 1) with 0. cbn [partitionDim]. unfold aget. cbn [nth_error bind]. rewrite (proj2 (Nat.eqb_neq m 0)) by lia. cbn [negb guard bind]. fold N.
      assert (EC : forall l acc, (forall k, In k l -> k < N) -> for_list l (fun k c => x <- coord vs k 0 ;; Ok (c ++ [x])) acc = Ok (acc ++ map (fun i => at_vertex vs i 0) l)).
      { induction l as [|k l IH]; intros acc Hl; cbn [for_list map]; [rewrite app_nil_r; reflexivity|]. rewrite (coord_ok 1) by (assumption || lia || (apply Hl; left; reflexivity)). cbn [bind].
        rewrite IH by (intros i Hi; apply Hl; right; exact Hi). rewrite <- app_assoc. reflexivity. }
      rewrite EC by (intros k Hk; apply in_seq in Hk; lia). cbn [bind app]. fold xs. rewrite (quantiles_ok xs m Hm) by (rewrite xs_len; unfold N; lia). cbn [bind]. fold bs. fold N.
      assert (EW : for_range 0 N (fun k part => x <- coord vs k 0 ;; j <- slot x bs 0 (m - 1) ;; wr part k (0 + j)) (alloc N) = Ok (map Some (map lpart (seq 0 N)))).
      { match goal with |- for_range 0 N ?f ?s0 = _ => destruct (for_range_inv (fun t p => p = map (fun i => Some (lpart i)) (seq 0 t) ++ repeat None (N - t)) f 0 N s0) as (p & E & EP); [lia| | |] end.
        - rewrite Nat.sub_0_r. reflexivity.
        - intros t p Ht EP. rewrite (coord_ok 1) by (assumption || lia). cbn [bind]. rewrite (proj1 (lpart_ok t ltac:(lia))). cbn [bind Nat.add]. eexists. split.
          + apply wr_ok. rewrite EP, app_length, map_length, seq_length, repeat_length. lia.
          + rewrite EP. replace (N - t) with (S (N - S t)) by lia. cbn [repeat]. rewrite upd_at by (rewrite map_length, seq_length; reflexivity). rewrite seq_S, map_app, <- app_assoc. reflexivity.
        - rewrite E, EP, Nat.sub_diag. cbn [repeat]. rewrite app_nil_r, map_map. reflexivity. }
      rewrite for_range_list, Nat.sub_0_r in EW. rewrite EW. cbn [bind]. rewrite all_init_some. reflexivity.
    - intros i Hi. rewrite (nth_indep _ m (lpart 0)) by (rewrite map_length, seq_length; exact Hi). rewrite map_nth, seq_nth by exact Hi. cbn [Nat.add]. exact (proj2 (lpart_ok i Hi)).
    - intros j Hj. assert (SZ : part_size (map lpart (seq 0 N)) j = cut N m (S j) - cut N m j).
      { unfold part_size. rewrite filter_map_len. rewrite (filter_ext_len _ (fun i => (cut N m j <=? rank vs i) && (rank vs i <? cut N m (S j)))).
        - rewrite <- (filter_map_len (fun k => (cut N m j <=? k) && (k <? cut N m (S j))) (rank vs)). rewrite (filter_perm_length _ _ _ rank_perm), count_interval.
          pose proof (cut_le_N N m Hm HmN (S j) ltac:(lia)). lia.
        - intros i Hi. apply in_seq in Hi. pose proof (lpart_cut i j ltac:(lia) Hj) as LC. destruct (Nat.eqb_spec j (lpart i)), (Nat.leb_spec (cut N m j) (rank vs i)), (Nat.ltb_spec (rank vs i) (cut N m (S j))); cbn [andb]; try reflexivity; exfalso; lia. }
      rewrite SZ. pose proof (cut_size N m Hm HmN j Hj). lia.
  Qed.
End OneDim.

Lemma irregular_nonempty_refuted :
  ~ (forall vertices m part num, in_dim 1 vertices -> 0 < m -> m <= length vertices -> partitionVerticesIrregular quantiles 1 vertices None (Some [m]) m = Ok (part, num) ->
       forall p, p < num -> 0 < part_size part p).
Proof.
  intros H. pose proof (H [[qz 0]; [qz 0]; [qz 0]] 2 [1; 1; 1] 2) as X. assert (Y : 0 < part_size [1; 1; 1] 0); [|vm_compute in Y; lia].
  apply X; [|lia|cbn; lia|vm_compute; reflexivity|lia]. intros v Hv. cbn in Hv. repeat destruct Hv as [<-|Hv]; try reflexivity; contradiction.
Qed.
Lemma primes_whole n : 0 < n -> exists fs, primes n = Ok fs /\ product (fun k => nth k fs 0) (length fs) = n /\ forall p, In p fs -> is_prime p.
Proof. intros H. destruct (primes_ok n H) as (fs & E & P & A). exists fs. rewrite <- prod_product. auto. Qed.
Lemma balance_whole dim vs pd n : in_dim dim vs -> 0 < n -> 0 < dim -> (match pd with None => True | Some k => 0 < k end) ->
  exists per, balancePartitions dim vs pd n = Ok per /\ length per = dim /\ product (fun j => nth j per 0) dim = n /\ (forall j, j < dim -> 0 < nth j per 0) /\
    (match pd with None => True | Some k => forall j, k <= j -> j < dim -> nth j per 0 = 1 end).
Proof.
  intros HD Hn H0 Hpd. destruct (balance_ok dim vs pd n HD Hn) as (per & E & L & P & A & B); [destruct pd; auto|]. exists per. split; [exact E|]. split; [exact L|].
  rewrite <- P, prod_product, L. auto.
Qed.
