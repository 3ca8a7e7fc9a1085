(** Boxes. *)
From Verif Require Import Util Lin AssemblyProofs TransferProofs2 SubMapProofs6 PartitionModel PartitionSpec PartitionProofs PartitionProofs2.
From Coq Require Import Qround Lqa.
Local Open Scope nat_scope.
Set Default Proof Using "Type".

Lemma qz_le a b : (qz a <= qz b)%Qc <-> (a <= b)%Z.
Proof. unfold qz, Qcle. cbn [this Q2Qc]. rewrite !Qred_correct. rewrite <- Zle_Qle. reflexivity. Qed.
Lemma qz_lt a b : (qz a < qz b)%Qc <-> (a < b)%Z.
Proof. unfold qz, Qclt. cbn [this Q2Qc]. rewrite !Qred_correct. rewrite <- Zlt_Qlt. reflexivity. Qed.
Lemma floor_spec (q : Qc) : (qz (Qfloor q) <= q)%Qc /\ (q < qz (Qfloor q + 1))%Qc.
Proof.
  unfold qz, Qcle, Qclt. cbn [this Q2Qc]. rewrite !Qred_correct. split; [apply Qfloor_le|apply Qlt_floor].
Qed.
Lemma qz0 : qz 0 = 0%Qc. Proof. reflexivity. Qed.

Lemma interval_ok (lo hi v : Qc) (n : nat) : (lo <= v)%Qc -> (v <= hi)%Qc -> 0 < n ->
  exists z, Qfloor ((v - lo) / (hi + delta - lo) * qz (Z.of_nat n))%Qc = Z.of_nat z /\ in_interval lo (hi + delta - lo) n z v.
Proof.
  intros H1 H2 Hn. set (len := (hi + delta - lo)%Qc). assert (DP : (0 < delta)%Qc) by reflexivity.
  assert (LV : (v - lo < len)%Qc).
  { unfold len. apply Qclt_minus_iff. replace (hi + delta - lo + - (v - lo))%Qc with ((hi + - v) + delta)%Qc by ring.
    apply Qclt_le_trans with (delta)%Qc; [exact DP|]. rewrite <- (Qcplus_0_l delta) at 1. apply Qcplus_le_compat; [apply -> Qcle_minus_iff; exact H2|apply Qcle_refl]. }
  assert (V0 : (0 <= v - lo)%Qc) by (apply -> Qcle_minus_iff; exact H1).
  assert (LP : (0 < len)%Qc) by (apply Qcle_lt_trans with (v - lo)%Qc; assumption).
  assert (LN : len <> 0%Qc) by (intros E; rewrite E in LP; discriminate).
  assert (NP : (0 < qz (Z.of_nat n))%Qc) by (rewrite <- qz0; apply qz_lt; lia).
  set (q := ((v - lo) / len * qz (Z.of_nat n))%Qc). assert (EQ : (q * len = (v - lo) * qz (Z.of_nat n))%Qc) by (unfold q; field; exact LN).
  destruct (floor_spec q) as (F1 & F2). set (f := Qfloor q) in *.
  assert (G1 : (qz f * len <= (v - lo) * qz (Z.of_nat n))%Qc) by (rewrite <- EQ; apply Qcmult_le_compat_r; [exact F1|apply Qclt_le_weak; exact LP]).
  assert (G2 : ((v - lo) * qz (Z.of_nat n) < qz (f + 1) * len)%Qc) by (rewrite <- EQ; apply Qcmult_lt_compat_r; [exact LP|exact F2]).
  assert (P0 : (0 <= (v - lo) * qz (Z.of_nat n))%Qc) by (rewrite <- (Qcmult_0_l (qz (Z.of_nat n))); apply Qcmult_le_compat_r; [exact V0|apply Qclt_le_weak; exact NP]).
  assert (FP : (0 <= f)%Z).
  { destruct (Z.le_gt_cases 0 f) as [|L]; [assumption|exfalso]. assert (Q0 : (qz (f + 1) <= 0)%Qc) by (rewrite <- qz0; apply qz_le; lia).
    apply (Qcle_not_lt _ _ P0). apply Qclt_le_trans with (qz (f + 1) * len)%Qc; [exact G2|]. rewrite <- (Qcmult_0_l len). apply Qcmult_le_compat_r; [exact Q0|apply Qclt_le_weak; exact LP]. }
  assert (FN : (f < Z.of_nat n)%Z).
  { destruct (Z.le_gt_cases (Z.of_nat n) f) as [L|]; [exfalso|assumption]. assert (Q0 : (qz (Z.of_nat n) <= qz f)%Qc) by (apply qz_le; exact L).
    assert (A : (qz (Z.of_nat n) * len <= qz f * len)%Qc) by (apply Qcmult_le_compat_r; [exact Q0|apply Qclt_le_weak; exact LP]).
    assert (B : ((v - lo) * qz (Z.of_nat n) < len * qz (Z.of_nat n))%Qc) by (apply Qcmult_lt_compat_r; [exact NP|exact LV]).
    apply (Qcle_not_lt _ _ (Qcle_trans _ _ _ A G1)). rewrite (Qcmult_comm (qz (Z.of_nat n))). exact B. }
  exists (Z.to_nat f). rewrite Z2Nat.id by exact FP. split; [reflexivity|]. split; [lia|]. rewrite Nat2Z.inj_succ, Z2Nat.id by exact FP. unfold Z.succ. split; [exact G1|exact G2].
Qed.
(** Intervals do not meet. *)
Lemma interval_unique lo len n z z' v : (0 < len)%Qc -> in_interval lo len n z v -> in_interval lo len n z' v -> z = z'.
Proof.
  intros LP (_ & A & B) (_ & A' & B'). assert (K : forall a b, (qz a * len <= (v - lo) * qz (Z.of_nat n))%Qc -> ((v - lo) * qz (Z.of_nat n) < qz b * len)%Qc -> (a < b)%Z).
  { intros a b Ha Hb. destruct (Z.le_gt_cases b a) as [L|]; [exfalso|assumption]. apply (Qcle_not_lt _ _ (Qcle_trans _ _ _ (Qcmult_le_compat_r _ _ len (proj2 (qz_le b a) L) (Qclt_le_weak _ _ LP)) Ha)). exact Hb. }
  pose proof (K _ _ A B'). pose proof (K _ _ A' B). lia.
Qed.

Lemma radix_lt n z d : (forall j, j < d -> z j < n j) -> first_fastest n z d < product n d.
Proof.
  induction d as [|d IH]; intros H; cbn [first_fastest product]; [lia|]. pose proof (IH (fun j Hj => H j (Nat.lt_lt_succ_r _ _ Hj))). pose proof (H d ltac:(lia)).
  pose proof (Nat.mul_le_mono_l (S (z d)) (n d) (product n d) H1). lia.
Qed.
Lemma radix_inj n z z' d : (forall j, j < d -> z j < n j) -> (forall j, j < d -> z' j < n j) -> first_fastest n z d = first_fastest n z' d -> forall j, j < d -> z j = z' j.
Proof.
  induction d as [|d IH]; intros H H' E j Hj; cbn [first_fastest] in E; [lia|].
  pose proof (radix_lt n z d (fun j Hj => H j (Nat.lt_lt_succ_r _ _ Hj))) as L. pose proof (radix_lt n z' d (fun j Hj => H' j (Nat.lt_lt_succ_r _ _ Hj))) as L'.
  destruct (Nat.div_mod_unique (product n d) (z d) (z' d) (first_fastest n z d) (first_fastest n z' d) L L' ltac:(lia)) as (E1 & E2).
  destruct (Nat.eq_dec j d) as [->|]; [exact E1|]. apply IH; [| |exact E2|lia]; intros i Hi; [apply H|apply H']; lia.
Qed.
Lemma radix_ext n z z' d : (forall j, j < d -> z j = z' j) -> first_fastest n z d = first_fastest n z' d.
Proof. induction d as [|d IH]; intros H; cbn [first_fastest]; [reflexivity|]. rewrite IH by (intros j Hj; apply H; lia). rewrite (H d) by lia. reflexivity. Qed.
Lemma product_S_l n d : product n (S d) = n 0 * product (fun j => n (S j)) d.
Proof. induction d as [|d IH]; [cbn; lia|]. change (product n (S (S d))) with (product n (S d) * n (S d)). rewrite IH. cbn [product]. ring. Qed.
Lemma prod_product l : prod l = product (fun j => nth j l 0) (length l).
Proof. induction l as [|x l IH]; [reflexivity|]. rewrite prod_cons. cbn [length]. rewrite product_S_l. cbn [nth]. rewrite IH. reflexivity. Qed.

Lemma scale_loop per z0 : forall j, j <= length per -> for_range 0 j (fun k z => m <- aget per k ;; Ok (z * Z.of_nat m)%Z) z0 = Ok (z0 * Z.of_nat (product (fun j => nth j per 0%nat) j))%Z.
Proof.
  intros j Hj. destruct (for_range_inv (fun k z => z = z0 * Z.of_nat (product (fun j => nth j per 0%nat) k))%Z (fun k z => m <- aget per k ;; Ok (z * Z.of_nat m)%Z) 0 j z0) as (z & E & ->); [lia|cbn; lia| |exact E].
  intros k z Hk ->. rewrite (aget_nth per k 0) by lia. cbn [bind]. eexists; split; [reflexivity|]. cbn [product]. lia.
Qed.

Section Regular.
  Variables (dim : nat) (vs : list (list Qc)) (per : list nat) (lo hi : nat -> Qc).
  Hypothesis HD : in_dim dim vs.
  Hypothesis HN : 0 < length vs.
  Hypothesis Hper : length per = dim.
  Hypothesis Hpos : forall j, j < dim -> 0 < nth j per 0.
  Hypothesis Hlo : forall j, j < dim -> is_min (length vs) (fun i => at_vertex vs i j) (lo j).
  Hypothesis Hhi : forall j, j < dim -> is_max (length vs) (fun i => at_vertex vs i j) (hi j).
  Let n := fun j => nth j per 0.
  Definition zbox i j : nat := Z.to_nat (Qfloor ((at_vertex vs i j - lo j) / (hi j + delta - lo j) * qz (Z.of_nat (n j)))%Qc).
  Definition qbox i : nat := first_fastest n (zbox i) dim.
  Lemma zbox_ok i j : i < length vs -> j < dim ->
    Qfloor ((at_vertex vs i j - lo j) / (hi j + delta - lo j) * qz (Z.of_nat (n j)))%Qc = Z.of_nat (zbox i j) /\ in_interval (lo j) (hi j + delta - lo j) (n j) (zbox i j) (at_vertex vs i j).
  Proof using Hpos Hlo Hhi.
    intros Hi Hj. destruct (interval_ok (lo j) (hi j) (at_vertex vs i j) (n j)) as (z & E & H); [apply Hlo; assumption|apply Hhi; assumption|apply Hpos; exact Hj|].
    unfold zbox. rewrite E, Nat2Z.id. auto.
  Qed.
  Lemma is_min_unique (f : nat -> Qc) N a b : is_min N f a -> is_min N f b -> a = b.
  Proof. intros ((i & Hi & <-) & H) ((j & Hj & <-) & H'). apply Qcle_antisym; auto. Qed.
  Lemma is_max_unique (f : nat -> Qc) N a b : is_max N f a -> is_max N f b -> a = b.
  Proof. intros ((i & Hi & <-) & H) ((j & Hj & <-) & H'). apply Qcle_antisym; auto. Qed.
  Lemma qbox_lt i : i < length vs -> qbox i < prod per.
  Proof using Hpos Hlo Hhi Hper. intros Hi. rewrite prod_product, Hper. apply radix_lt. intros j Hj. apply zbox_ok; assumption. Qed.

  Lemma regular_ok pd npd : npd = Some per \/ npd = None -> forall nparts, (npd = None -> balancePartitions dim vs pd nparts = Ok per) ->
    ((forall p, p < prod per -> exists i, i < length vs /\ qbox i = p) -> partitionVertices dim vs pd npd nparts = Ok (map qbox (seq 0 (length vs)), prod per)) /\
    ((exists p, p < prod per /\ forall i, i < length vs -> qbox i <> p) -> partitionVertices dim vs pd npd nparts = Err EValue).
  Proof using HD HN Hper Hpos Hlo Hhi.
    intros Hnpd nparts Hbal. unfold partitionVertices.
    assert (EP : (match npd with None => balancePartitions dim vs pd nparts | Some per => Ok per end) = Ok per) by (destruct Hnpd as [->| ->]; [reflexivity|apply Hbal; reflexivity]).
    rewrite EP. cbn [bind]. destruct (box_ok dim vs HD) as (mins & maxs & EB & L1 & L2 & HB). rewrite EB. cbn [bind].
    assert (MI : forall j, j < dim -> nth j mins None = Some (lo j)).
    { intros j Hj. destruct (HB j Hj) as (A & _). destruct (nth j mins None) as [m|]; cbn [ext] in A; [|lia]. f_equal. exact (is_min_unique _ _ _ _ A (Hlo j Hj)). }
    assert (MA : forall j, j < dim -> nth j maxs None = Some (hi j)).
    { intros j Hj. destruct (HB j Hj) as (_ & A). destruct (nth j maxs None) as [m|]; cbn [ext] in A; [|lia]. f_equal. exact (is_max_unique _ _ _ _ A (Hhi j Hj)). }
    set (N := length vs) in *.
    match goal with |- context [for_range 0 N ?f ?s] => destruct (for_range_inv (fun t '(part, counter) => part = map (fun i => Some (qbox i)) (seq 0 t) ++ repeat None (N - t) /\
      length counter = prod per /\ forall p, p < prod per -> (nth p counter 0 = 0 <-> forall i, i < t -> qbox i <> p)) f 0 N s) as ([part counter] & E & EPA & LC & HC); [lia| | |] end.
    - split; [rewrite Nat.sub_0_r; reflexivity|]. split; [apply repeat_length|]. intros p Hp. rewrite nth_repeat. split; [intros _ i Hi; lia|reflexivity].
    - intros t [part counter] Ht (EPA & LC & HC).
      match goal with |- context [for_range 0 dim ?f ?s] => assert (EW : for_range 0 dim f s = Ok (Z.of_nat (qbox t))) end.
      { match goal with |- for_range 0 dim ?f ?s = _ => destruct (for_range_inv (fun j w => w = Z.of_nat (first_fastest n (zbox t) j)) f 0 dim s) as (w & EW & ->); [lia|reflexivity| |exact EW] end.
        intros j w Hj ->. rewrite (coord_ok dim) by (assumption || lia). cbn [bind]. rewrite (aget_nth mins j None) by lia. cbn [bind]. rewrite MI by lia. cbn [getc bind].
        rewrite (aget_nth maxs j None) by lia. cbn [bind]. rewrite MA by lia. cbn [getc bind]. rewrite (aget_nth per j 0) by lia. cbn [bind]. fold (n j).
        rewrite (proj1 (zbox_ok t j ltac:(lia) ltac:(lia))). rewrite scale_loop by lia. cbn [bind]. eexists; split; [reflexivity|]. cbn [first_fastest]. fold n. lia. }
      rewrite EW. cbn [bind]. rewrite (proj2 (Z.leb_le 0 (Z.of_nat (qbox t)))) by lia. cbn [guard bind]. rewrite Nat2Z.id.
      pose proof (qbox_lt t ltac:(lia)) as QL.
      assert (EU : wr part t (qbox t) = Ok (map (fun i => Some (qbox i)) (seq 0 (S t)) ++ repeat None (N - S t))).
      { rewrite wr_ok by (rewrite EPA, app_length, map_length, seq_length, repeat_length; lia). f_equal. rewrite EPA. replace (N - t) with (S (N - S t)) by lia. cbn [repeat].
        rewrite upd_at by (rewrite map_length, seq_length; reflexivity). rewrite seq_S, map_app, <- app_assoc. reflexivity. }
      rewrite EU. cbn [bind]. rewrite (aget_nth counter (qbox t) 0) by lia. cbn [bind]. destruct (aset_nth counter (qbox t) (nth (qbox t) counter 0 + 1) 0 ltac:(lia)) as (c' & E' & L' & V').
      rewrite E'. cbn [bind]. eexists; split; [reflexivity|]. cbv beta iota. split; [reflexivity|]. split; [lia|]. intros p Hp. rewrite V'. destruct (Nat.eqb_spec p (qbox t)) as [->|Np].
      + split; [lia|]. intros H. exfalso. apply (H t ltac:(lia)). reflexivity.
      + rewrite (HC p Hp). split; intros H i Hi; [destruct (Nat.eq_dec i t) as [->|]; [congruence|apply H; lia]|apply H; lia].
    - rewrite E. cbn [bind]. rewrite Nat.sub_diag in EPA. cbn [repeat] in EPA. rewrite app_nil_r in EPA.
      assert (P0 : 0 < prod per) by (pose proof (qbox_lt 0 HN); lia). rewrite (proj2 (Nat.eqb_neq _ _)) by lia. cbn [negb andb]. split.
      + intros HALL. assert (FB : forallb (fun c => negb (c =? 0)) counter = true).
        { apply forallb_forall. intros c Hc. destruct (In_nth counter c 0 Hc) as (p & Hp & <-). destruct (HALL p ltac:(lia)) as (i & Hi & Ei).
          destruct (Nat.eqb_spec (nth p counter 0) 0) as [E0|]; [|reflexivity]. exfalso. apply (proj1 (HC p ltac:(lia)) E0 i Hi Ei). }
        rewrite FB. cbn [guard bind]. assert (EI : all_init part = Ok (map qbox (seq 0 N))) by (rewrite EPA, <- (map_map qbox Some); apply all_init_some).
        rewrite EI. cbn [bind]. f_equal. f_equal.
        assert (IN : forall p, In p (nodup Nat.eq_dec (map qbox (seq 0 N))) <-> p < prod per).
        { intros p. rewrite nodup_In, in_map_iff. split.
          - intros (i & <- & Hi). apply in_seq in Hi. apply qbox_lt. fold N. lia.
          - intros Hp. destruct (HALL p Hp) as (i & Hi & Ei). exists i. split; [exact Ei|]. apply in_seq. lia. }
        apply Nat.le_antisymm.
        * rewrite <- (seq_length (prod per) 0). apply NoDup_incl_length; [apply NoDup_nodup|]. intros p Hp. apply IN in Hp. apply in_seq. lia.
        * rewrite <- (seq_length (prod per) 0) at 1. apply NoDup_incl_length; [apply seq_NoDup|]. intros p Hp. apply in_seq in Hp. apply IN. lia.
      + intros (p & Hp & HNO). assert (FB : forallb (fun c => negb (c =? 0)) counter = false).
        { destruct (forallb (fun c => negb (c =? 0)) counter) eqn:FB; [|reflexivity]. rewrite forallb_forall in FB.
          assert (PL : p < length counter) by lia. pose proof (FB (nth p counter 0) (nth_In counter 0 PL)) as F. rewrite (proj2 (HC p Hp) HNO) in F. discriminate. }
        rewrite FB. reflexivity.
  Qed.
End Regular.
