(** Which dimensions balancePartitions splits. *)
From Verif Require Import Util Lin AssemblyProofs PartitionModel PartitionSpec PartitionProofs PartitionProofs2 PartitionProofs3 PartitionProofs6.
From Coq Require Import Sorting.Sorted Permutation.
Local Open Scope nat_scope.
Set Default Proof Using "Type".

Lemma argmin_from_ok l : forall pre m q, q < length pre -> nth q pre 0%Qc = m -> (forall j, j < length pre -> (m <= nth j pre 0)%Qc) -> (forall j, j < q -> (m < nth j pre 0)%Qc) ->
  let r := argmin_from (map Some l) (length pre) (Some m) q in let a := pre ++ l in
  r < length a /\ (forall j, j < length a -> (nth r a 0 <= nth j a 0)%Qc) /\ (forall j, j < r -> (nth r a 0 < nth j a 0)%Qc).
Proof.
  induction l as [|x l IH]; intros pre m q Hq Em H1 H2; cbn [map argmin_from]; cbv zeta.
  - rewrite app_nil_r, Em. auto.
  - replace (pre ++ x :: l) with ((pre ++ [x]) ++ l) by (rewrite <- app_assoc; reflexivity). assert (LS : length (pre ++ [x]) = S (length pre)) by (rewrite app_length; cbn; lia).
    assert (N1 : forall j, j < length pre -> nth j (pre ++ [x]) 0%Qc = nth j pre 0%Qc) by (intros j Hj; apply app_nth1; exact Hj).
    assert (N2 : nth (length pre) (pre ++ [x]) 0%Qc = x) by (rewrite app_nth2, Nat.sub_diag by lia; reflexivity).
    unfold rless. destruct (Qclt_le_dec x m) as [L|L]; rewrite <- LS; apply IH; rewrite ?LS; try lia.
    + exact N2.
    + intros j Hj. destruct (Nat.eq_dec j (length pre)) as [->|]; [rewrite N2; apply Qcle_refl|]. rewrite N1 by lia. apply Qclt_le_weak. apply (Qclt_le_trans _ m); [exact L|apply H1; lia].
    + intros j Hj. rewrite N1 by lia. apply (Qclt_le_trans _ m); [exact L|apply H1; lia].
    + rewrite N1 by lia. exact Em.
    + intros j Hj. destruct (Nat.eq_dec j (length pre)) as [->|]; [rewrite N2; exact L|]. rewrite N1 by lia. apply H1. lia.
    + intros j Hj. rewrite N1 by lia. apply H2. exact Hj.
Qed.
Lemma argmin_ok a : a <> [] -> exists r, argmin (map Some a) = Ok r /\ r < length a /\ (forall j, j < length a -> (nth r a 0 <= nth j a 0)%Qc) /\ (forall j, j < r -> (nth r a 0 < nth j a 0)%Qc).
Proof.
  intros Ha. destruct a as [|x l]; [congruence|]. cbn [map argmin]. eexists. split; [reflexivity|]. apply (argmin_from_ok l [x] x 0); cbn [length nth]; [lia|reflexivity| |intros; lia].
  intros j Hj. replace j with 0 by lia. apply Qcle_refl.
Qed.
Lemma div_cmp a b c d : (0 < b)%Qc -> (0 < d)%Qc -> ((a / b <= c / d)%Qc <-> (d * a <= b * c)%Qc) /\ ((a / b < c / d)%Qc <-> (d * a < b * c)%Qc).
Proof.
  intros Hb Hd. assert (Nb : b <> 0%Qc) by (intros E; subst b; exact (Qclt_not_eq _ _ Hb eq_refl)). assert (Nd : d <> 0%Qc) by (intros E; subst d; exact (Qclt_not_eq _ _ Hd eq_refl)).
  assert (BD : (0 < b * d)%Qc) by (pose proof (Qcmult_lt_compat_r 0 b d Hd Hb) as X; rewrite Qcmult_0_l in X; exact X).
  assert (E1 : (a / b * (b * d) = d * a)%Qc) by (field; exact Nb). assert (E2 : (c / d * (b * d) = b * c)%Qc) by (field; exact Nd).
  assert (LE : forall x y, (x < y)%Qc -> (x * (b * d) < y * (b * d))%Qc) by (intros x y H; apply Qcmult_lt_compat_r; assumption).
  rewrite <- E1, <- E2. split; split; intros H.
  - apply Qcmult_le_compat_r; [exact H|apply Qclt_le_weak; exact BD].
  - destruct (Qclt_le_dec (c / d) (a / b)) as [L|L]; [exfalso|exact L]. exact (Qclt_not_le _ _ (LE _ _ L) H).
  - apply LE. exact H.
  - destruct (Qclt_le_dec (a / b) (c / d)) as [L|L]; [exact L|exfalso]. apply (Qclt_not_le _ _ H). apply Qcmult_le_compat_r; [exact L|apply Qclt_le_weak; exact BD].
Qed.
Lemma insert_down_sorted p l : StronglySorted ge l -> StronglySorted ge (insert_down p l).
Proof.
  induction 1 as [|y l SS IH F]; cbn [insert_down]; [repeat constructor|]. rewrite Forall_forall in F. destruct (Nat.ltb_spec y p) as [L|L].
  - constructor; [constructor; [exact SS|rewrite Forall_forall; exact F]|]. rewrite Forall_forall. intros z [<-|Hz]; [lia|]. pose proof (F z Hz). lia.
  - constructor; [exact IH|]. rewrite Forall_forall. intros z Hz. apply (Permutation_in _ (insert_down_perm p l)) in Hz. destruct Hz as [<-|Hz]; [lia|apply F; exact Hz].
Qed.
Lemma sort_down_sorted l : StronglySorted ge (sort_down l).
Proof. induction l as [|x l IH]; cbn [sort_down fold_right]; [constructor|]. apply insert_down_sorted. exact IH. Qed.

Section Balance.
  Variables (dim : nat) (vs : list (list Qc)) (lo hi : nat -> Qc) (pd : option nat).
  Hypothesis HD : in_dim dim vs.
  Hypothesis HN : 0 < length vs.
  Hypothesis H0 : 0 < dim.
  Hypothesis Hpd : match pd with None => True | Some k => 0 < k <= dim end.
  Hypothesis Hlo : forall j, j < dim -> is_min (length vs) (fun i => at_vertex vs i j) (lo j).
  Hypothesis Hhi : forall j, j < dim -> is_max (length vs) (fun i => at_vertex vs i j) (hi j).
  Hypothesis Hext : forall j, j < dim -> (lo j < hi j)%Qc.
  Let k := match pd with None => dim | Some k => k end.
  Let len := fun j => (hi j - lo j)%Qc.

  Lemma balance_greedy n : 0 < n -> exists fs per, balancePartitions dim vs pd n = Ok per /\ greedy len k fs (repeat 1 dim) per /\
    StronglySorted ge fs /\ (forall p, In p fs -> is_prime p) /\ product (fun i => nth i fs 0) (length fs) = n.
  Proof using HD HN H0 Hpd Hlo Hhi Hext.
    intros Hn. unfold balancePartitions. fold k. destruct (box_ok dim vs HD) as (mins & maxs & EB & L1 & L2 & HB). rewrite EB. cbn [bind].
    destruct (primes_ok n Hn) as (fs & EF & PF & PR). rewrite EF. cbn [bind].
    assert (MI : forall j, j < dim -> nth j mins None = Some (lo j)).
    { intros j Hj. destruct (HB j Hj) as (A & _). destruct (nth j mins None) as [m|]; cbn [ext] in A; [|lia]. f_equal. exact (is_min_unique _ _ _ _ A (Hlo j Hj)). }
    assert (MA : forall j, j < dim -> nth j maxs None = Some (hi j)).
    { intros j Hj. destruct (HB j Hj) as (_ & A). destruct (nth j maxs None) as [m|]; cbn [ext] in A; [|lia]. f_equal. exact (is_max_unique _ _ _ _ A (Hhi j Hj)). }
    assert (Hk : 0 < k <= dim) by (unfold k; destruct pd; lia).
    assert (PL : forall j, j < dim -> (0 < len j)%Qc) by (intros j Hj; apply (proj1 (Qclt_minus_iff (lo j) (hi j))); apply Hext; exact Hj).
    assert (G : forall l per, length per = dim -> exists per', for_list l (fun p per => q <- argmin (firstn k (map (fun '(n, (lo, hi)) => ratio n lo hi) (combine per (combine mins maxs)))) ;;
      n <- aget per q ;; aset per q (n * p)) per = Ok per' /\ greedy len k l per per').
    { induction l as [|p l IH]; intros per LP; cbn [for_list]; [exists per; split; [reflexivity|constructor]|].
      set (a := map (fun j => (qz (Z.of_nat (nth j per 0%nat)) / len j)%Qc) (seq 0 k)).
      assert (LA : length a = k) by (unfold a; rewrite map_length, seq_length; reflexivity).
      assert (VA : forall j, j < k -> nth j a 0%Qc = (qz (Z.of_nat (nth j per 0%nat)) / len j)%Qc).
      { intros j Hj. unfold a. rewrite (nth_indep _ 0%Qc ((fun j => (qz (Z.of_nat (nth j per 0%nat)) / len j)%Qc) 0)) by (rewrite map_length, seq_length; exact Hj).
        rewrite (map_nth (fun j => (qz (Z.of_nat (nth j per 0%nat)) / len j)%Qc)), seq_nth by exact Hj. reflexivity. }
      assert (EA : firstn k (map (fun '(n, (lo, hi)) => ratio n lo hi) (combine per (combine mins maxs))) = map Some a).
      { assert (LC : length (combine per (combine mins maxs)) = dim) by (rewrite !combine_length; lia).
        apply (nth_ext _ _ None None); [rewrite firstn_length, !map_length, LC, LA; lia|]. intros j Hj. rewrite firstn_length, map_length, LC in Hj.
        rewrite nth_firstn_lt by lia. set (rt := fun '(n, (lo, hi)) => ratio n lo hi). rewrite (nth_indep _ None (rt (0, (None, None)))) by (rewrite map_length, LC; lia).
        rewrite (map_nth rt). rewrite combine_nth by (rewrite combine_length; lia). rewrite combine_nth by lia. rewrite MI, MA by lia. unfold rt. cbn [ratio].
        rewrite (nth_indep _ None (Some 0%Qc)) by (rewrite map_length, LA; lia). rewrite map_nth, VA by lia. fold (len j). pose proof (PL j ltac:(lia)) as P0.
        destruct (Qc_eq_dec (len j) 0) as [E|]; [rewrite E in P0; exfalso; exact (Qclt_not_eq _ _ P0 eq_refl)|reflexivity]. }
      rewrite EA. destruct (argmin_ok a) as (q & EQ & Q1 & Q2 & Q3); [intros E; rewrite E in LA; cbn in LA; lia|]. rewrite LA in Q1, Q2. rewrite EQ. cbn [bind].
      rewrite (aget_nth per q 0) by lia. cbn [bind]. destruct (aset_nth per q (nth q per 0 * p) 0 ltac:(lia)) as (per1 & E1 & LL & VV). rewrite E1. cbn [bind].
      destruct (IH per1 ltac:(lia)) as (per' & E' & G'). exists per'. split; [exact E'|].
      apply (greedy_cons len k p l per per1 per' q); [exact Q1| | |lia| |exact G'].
      - intros j Hj. specialize (Q2 j Hj). rewrite !VA in Q2 by lia. apply (proj1 (div_cmp _ _ _ _ (PL q ltac:(lia)) (PL j ltac:(lia)))) in Q2. exact Q2.
      - intros j Hj. specialize (Q3 j Hj). rewrite !VA in Q3 by lia. apply (proj2 (div_cmp _ _ _ _ (PL q ltac:(lia)) (PL j ltac:(lia)))) in Q3. exact Q3.
      - intros j. rewrite VV. destruct (Nat.eqb_spec j q) as [->|]; reflexivity. }
    destruct (G (sort_down fs) (repeat 1 dim) (repeat_length _ _)) as (per & E & GR). exists (sort_down fs), per. split; [exact E|]. split; [exact GR|]. split; [apply sort_down_sorted|].
    assert (PS : Permutation (sort_down fs) fs) by (clear; induction fs as [|x l IH]; cbn [sort_down fold_right]; [reflexivity|]; fold (sort_down l); rewrite insert_down_perm, IH; reflexivity).
    split; [intros p Hp; apply PR; exact (Permutation_in _ PS Hp)|]. rewrite <- prod_product, (prod_perm _ _ PS). exact PF.
  Qed.
End Balance.
