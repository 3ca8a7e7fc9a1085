(** Proofs about the products R*A*R.T: the loops over pairs of rows. *)
From Coq Require Import Sorted.
From Verif Require Import Util Lin SparsitySpec CSRModel CSRSpec CSRProofs SSSProofs OpsProofs GalerkinModel GalerkinSpec.
Set Default Proof Using "Type".
Local Open Scope nat_scope.

Lemma slice_cons {X} (l : list X) a e d : a < e -> e <= length l -> slice l a e = nth a l d :: slice l (S a) e.
Proof.
  intros H1 H2. unfold slice. replace (e - a) with (S (e - S a)) by lia.
  replace (skipn a l) with (nth a l d :: skipn (S a) l); [reflexivity|].
  revert a H1. induction l as [|x l IH]; intros a H1; cbn [length] in H2; [lia|].
  assert (G : forall (l : list X) a, a < length l -> nth a l d :: skipn (S a) l = skipn a l).
  { clear. induction l as [|x l IH]; intros [|a] H; cbn in *; try lia; [reflexivity|]. apply IH. lia. }
  apply G. cbn [length]. lia.
Qed.
Lemma slice_nil {X} (l : list X) a e : e <= a -> slice l a e = [].
Proof. intros H. unfold slice. replace (e - a) with 0 by lia. reflexivity. Qed.
Lemma slice_nth {X} (l : list X) a e p d : e <= length l -> In p (slice l a e) -> exists k, a <= k < e /\ p = nth k l d.
Proof.
  intros H Hin. destruct (Nat.le_gt_cases e a) as [L|L]; [rewrite slice_nil in Hin by lia; destruct Hin|].
  remember (e - a) as r eqn:Er. revert a L Er Hin. induction r as [|r IH]; intros a L Er Hin; [lia|].
  rewrite (slice_cons l a e d) in Hin by lia. destruct Hin as [<-|Hin]; [exists a; split; [lia|reflexivity]|].
  destruct (Nat.eq_dec e (S a)) as [->|Hne]; [rewrite slice_nil in Hin by lia; destruct Hin|].
  destruct (IH (S a) ltac:(lia) ltac:(lia) Hin) as (k & Hk & E). exists k. split; [lia|exact E].
Qed.

Section Pairs.
  Local Open Scope Qc_scope.
  Variables (m : nat) (w : nat -> Qc).
  Definition pairing (l1 l2 : list (nat * Qc)) : Qc := sumf m (fun c => ent l1 c * w c * ent l2 c).
  Lemma pairing_nil_l l2 : pairing [] l2 = 0.
  Proof. unfold pairing. apply sumf_zero. intros c _. rewrite ent_nil. ring. Qed.
  Lemma pairing_nil_r l1 : pairing l1 [] = 0.
  Proof. unfold pairing. apply sumf_zero. intros c _. rewrite ent_nil. ring. Qed.
  Lemma sorted_absent c l : StronglySorted lt (c :: map fst l) -> ent l c = 0.
  Proof.
    intros H. apply ent_absent. intros p Hp E. apply StronglySorted_inv in H. destruct H as [_ H]. rewrite Forall_forall in H.
    specialize (H (fst p) (in_map fst _ _ Hp)). lia.
  Qed.
  Lemma sorted_below c d (l : list (nat * Qc)) : (c < d)%nat -> StronglySorted lt (d :: map fst l) -> StronglySorted lt (c :: map fst l).
  Proof.
    intros Hc H. apply StronglySorted_inv in H. destruct H as [H1 H2]. constructor; [exact H1|].
    eapply Forall_impl; [|exact H2]. cbn. intros; lia.
  Qed.
  Lemma pairing_left c v l1 p l2 : (c < fst p)%nat -> StronglySorted lt (map fst (p :: l2)) -> pairing ((c, v) :: l1) (p :: l2) = pairing l1 (p :: l2).
  Proof.
    intros Hc Hs. unfold pairing. apply sumf_ext. intros x Hx. rewrite (ent_cons (c, v)). cbn [fst snd].
    destruct (Nat.eqb_spec c x) as [<-|]; [|ring].
    assert (E : ent (p :: l2) c = 0).
    { rewrite ent_cons. destruct (Nat.eqb_spec (fst p) c); [lia|]. rewrite sorted_absent; [ring|]. apply (sorted_below c (fst p)); auto. }
    rewrite E. ring.
  Qed.
  Lemma pairing_right c v l2 p l1 : (c < fst p)%nat -> StronglySorted lt (map fst (p :: l1)) -> pairing (p :: l1) ((c, v) :: l2) = pairing (p :: l1) l2.
  Proof.
    intros Hc Hs. unfold pairing. apply sumf_ext. intros x Hx. rewrite (ent_cons (c, v)). cbn [fst snd].
    destruct (Nat.eqb_spec c x) as [<-|]; [|ring].
    assert (E : ent (p :: l1) c = 0).
    { rewrite ent_cons. destruct (Nat.eqb_spec (fst p) c); [lia|]. rewrite sorted_absent; [ring|]. apply (sorted_below c (fst p)); auto. }
    rewrite E. ring.
  Qed.
  Lemma pairing_both c v l1 u l2 : (c < m)%nat -> StronglySorted lt (c :: map fst l1) -> StronglySorted lt (c :: map fst l2) ->
    pairing ((c, v) :: l1) ((c, u) :: l2) = v * w c * u + pairing l1 l2.
  Proof.
    intros Hc H1 H2. unfold pairing.
    rewrite <- (sumf_delta m (fun x => v * w x * u) c Hc), <- sumf_plus. apply sumf_ext. intros x Hx.
    rewrite !ent_cons. cbn [fst snd]. rewrite (Nat.eqb_sym x c). destruct (Nat.eqb_spec c x) as [<-|]; [|ring].
    rewrite (sorted_absent c l1 H1), (sorted_absent c l2 H2). ring.
  Qed.
End Pairs.

Section Merge.
  Variables (m : nat) (w : nat -> Qc) (ind1 ind2 : list nat) (dat1 dat2 : list Qc) (e1 e2 : nat) (hit : nat -> nat -> Qc -> res Qc).
  Hypothesis L1 : length dat1 = length ind1.
  Hypothesis L2 : length dat2 = length ind2.
  Hypothesis E1 : e1 <= length ind1.
  Hypothesis E2 : e2 <= length ind2.
  Hypothesis C1 : forall j, In j ind1 -> j < m.
  Hypothesis Hit : forall a b s, a < e1 -> b < e2 -> nth a ind1 0 = nth b ind2 0 ->
    hit a b s = Ok (s + nth a dat1 0 * w (nth a ind1 0%nat) * nth b dat2 0)%Qc.
  Notation s1 a := (slice (combine ind1 dat1) a e1).
  Notation s2 b := (slice (combine ind2 dat2) b e2).

  Lemma merge_ok : forall fuel a b s, e1 - a + (e2 - b) < fuel ->
    StronglySorted lt (map fst (s1 a)) -> StronglySorted lt (map fst (s2 b)) ->
    merge_slots fuel ind1 e1 ind2 e2 hit a b s = Ok (s + pairing m w (s1 a) (s2 b))%Qc.
  Proof using All.
    induction fuel as [|fuel IH]; intros a b s Hf S1 S2; [lia|]. cbn [merge_slots].
    destruct (Nat.ltb_spec a e1) as [Ha|Ha]; cbn [andb].
    2: { rewrite (slice_nil _ a e1) by lia. rewrite pairing_nil_l. f_equal. ring. }
    destruct (Nat.ltb_spec b e2) as [Hb|Hb].
    2: { rewrite (slice_nil _ b e2) by lia. rewrite pairing_nil_r. f_equal. ring. }
    rewrite (aget_nth _ _ 0) by lia. cbn [bind]. rewrite (aget_nth _ _ 0) by lia. cbn [bind].
    assert (K1 : s1 a = (nth a ind1 0, nth a dat1 0%Qc) :: s1 (S a)).
    { rewrite (slice_cons _ a e1 (0, 0%Qc)) by (rewrite ?combine_length; lia). rewrite combine_nth by lia. reflexivity. }
    assert (K2 : s2 b = (nth b ind2 0, nth b dat2 0%Qc) :: s2 (S b)).
    { rewrite (slice_cons _ b e2 (0, 0%Qc)) by (rewrite ?combine_length; lia). rewrite combine_nth by lia. reflexivity. }
    assert (T1 : StronglySorted lt (map fst (s1 (S a)))) by (rewrite K1 in S1; cbn [map] in S1; apply StronglySorted_inv in S1; apply S1).
    assert (T2 : StronglySorted lt (map fst (s2 (S b)))) by (rewrite K2 in S2; cbn [map] in S2; apply StronglySorted_inv in S2; apply S2).
    destruct (Nat.ltb_spec (nth a ind1 0) (nth b ind2 0)) as [Hlt|Hge].
    - rewrite Nat.add_1_r, IH by (auto; lia). f_equal. f_equal. rewrite K1, K2. symmetry. apply pairing_left; [exact Hlt|].
      rewrite <- K2. exact S2.
    - destruct (Nat.ltb_spec (nth b ind2 0) (nth a ind1 0)) as [Hlt|Hge'].
      + rewrite Nat.add_1_r, IH by (auto; lia). f_equal. f_equal. rewrite K1, K2. symmetry. apply pairing_right; [exact Hlt|].
        rewrite <- K1. exact S1.
      + assert (Eq : nth a ind1 0 = nth b ind2 0) by lia.
        rewrite Hit by auto. cbn [bind]. rewrite !Nat.add_1_r, IH by (auto; lia). f_equal.
        rewrite K1, K2, <- Eq, pairing_both.
        * ring.
        * apply C1, nth_In. lia.
        * rewrite K1 in S1. exact S1.
        * rewrite K2 in S2. rewrite Eq. exact S2.
  Qed.
End Merge.

Section Seek.
  Variables (ind : list nat) (dat : list Qc) (e j : nat).
  Hypothesis L : length dat = length ind.
  Hypothesis E : e <= length ind.
  Notation sl a := (slice (combine ind dat) a e).
  Lemma seek_ok (hit : nat -> Qc -> res Qc) (u : Qc) s : (forall a, a < e -> nth a ind 0 = j -> hit a s = Ok (s + u * nth a dat 0)%Qc) ->
    forall fuel a, e - a < fuel -> StronglySorted lt (map fst (sl a)) ->
    (mm <- seek_slot fuel ind e j a ;; if mm <? e then m <- aget ind mm ;; if m =? j then hit mm s else Ok s else Ok s)
    = Ok (s + u * ent (sl a) j)%Qc.
  Proof using All.
    intros Hit. induction fuel as [|fuel IH]; intros a Hf Hs; [lia|]. cbn [seek_slot].
    destruct (Nat.ltb_spec a e) as [Ha|Ha]; cbn [bind].
    2: { destruct (Nat.ltb_spec a e); [lia|]. rewrite slice_nil by lia. rewrite ent_nil. f_equal. ring. }
    rewrite (aget_nth _ _ 0) by lia. cbn [bind].
    assert (K : sl a = (nth a ind 0, nth a dat 0%Qc) :: sl (S a)).
    { rewrite (slice_cons _ a e (0, 0%Qc)) by (rewrite ?combine_length; lia). rewrite combine_nth by lia. reflexivity. }
    assert (T : StronglySorted lt (map fst (sl (S a)))) by (rewrite K in Hs; cbn [map] in Hs; apply StronglySorted_inv in Hs; apply Hs).
    destruct (Nat.ltb_spec (nth a ind 0) j) as [Hlt|Hge].
    - rewrite Nat.add_1_r, IH by (auto; lia). rewrite K, ent_cons. cbn [fst snd]. destruct (Nat.eqb_spec (nth a ind 0) j); [lia|]. do 2 f_equal. ring.
    - cbn [bind]. destruct (Nat.ltb_spec a e); [|lia]. rewrite (aget_nth _ _ 0) by lia. cbn [bind]. rewrite K in Hs |- *. rewrite ent_cons. cbn [fst snd].
      cbn [map fst] in Hs. destruct (Nat.eqb_spec (nth a ind 0) j) as [Ej|Hne].
      + rewrite Hit by auto. rewrite sorted_absent; [f_equal; ring|]. rewrite Ej in Hs. exact Hs.
      + rewrite sorted_absent; [f_equal; ring|]. apply (sorted_below j (nth a ind 0)); [lia|exact Hs].
  Qed.
End Seek.

(** Rows of well formed structures *)
Section Rows.
  Variables (n1 m : nat) (ip1 ind1 : list nat) (dat1 : list Qc) (n2 : nat) (ip2 ind2 : list nat) (dat2 : list Qc).
  Hypothesis W1 : wf_rows n1 m ip1 ind1 dat1.
  Hypothesis W2 : wf_rows n2 m ip2 ind2 dat2.
  Lemma row_end n mm ip ind dat r : wf_rows n mm ip ind dat -> r < n -> nth (S r) ip 0 <= length ind.
  Proof. intros W Hr. pose proof (wf_hi n mm _ _ _ W r Hr) as H. rewrite (combine_len n mm _ _ _ W) in H. exact H. Qed.
  Lemma merge_rows_ok w hit r1 r2 s : r1 < n1 -> r2 < n2 ->
    StronglySorted lt (map fst (rowlist ip1 ind1 dat1 r1)) -> StronglySorted lt (map fst (rowlist ip2 ind2 dat2 r2)) ->
    (forall a b s, a < nth (S r1) ip1 0 -> b < nth (S r2) ip2 0 -> nth a ind1 0 = nth b ind2 0 ->
       hit a b s = Ok (s + nth a dat1 0 * w (nth a ind1 0%nat) * nth b dat2 0)%Qc) ->
    merge_rows ip1 ind1 r1 ip2 ind2 r2 hit s
    = Ok (s + sumf m (fun c => ent (rowlist ip1 ind1 dat1 r1) c * w c * ent (rowlist ip2 ind2 dat2 r2) c))%Qc.
  Proof using All.
    intros H1 H2 S1 S2 Hit. unfold merge_rows.
    rewrite (wf_ip n1 m _ _ _ W1), (wf_ip n2 m _ _ _ W2), Nat.add_1_r, (wf_ip n1 m _ _ _ W1), Nat.add_1_r, (wf_ip n2 m _ _ _ W2) by lia. cbn [bind].
    destruct W1 as (_ & _ & _ & D1 & C1). destruct W2 as (_ & _ & _ & D2 & C2).
    rewrite (merge_ok m w ind1 ind2 dat1 dat2 (nth (S r1) ip1 0) (nth (S r2) ip2 0) hit); auto.
    - exact (row_end n1 m ip1 ind1 dat1 r1 W1 H1).
    - exact (row_end n2 m ip2 ind2 dat2 r2 W2 H2).
  Qed.
  Lemma seek_row_ok hit u r j s : r < n1 -> StronglySorted lt (map fst (rowlist ip1 ind1 dat1 r)) ->
    (forall a, a < nth (S r) ip1 0 -> nth a ind1 0 = j -> hit a s = Ok (s + u * nth a dat1 0)%Qc) ->
    seek_row ip1 ind1 r j hit s = Ok (s + u * ent (rowlist ip1 ind1 dat1 r) j)%Qc.
  Proof using W1.
    intros Hr Hs Hit. unfold seek_row. rewrite (wf_ip n1 m _ _ _ W1), Nat.add_1_r, (wf_ip n1 m _ _ _ W1) by lia. cbn [bind].
    pose proof (row_end n1 m ip1 ind1 dat1 r W1 Hr) as He. destruct W1 as (_ & _ & _ & D1 & C1).
    apply seek_ok; auto.
  Qed.
End Rows.

(** A loop over a row that adds up values. *)
Lemma row_sum n m ip ind dat i f g s0 : wf_rows n m ip ind dat -> i < n ->
  (forall kk s, nth i ip 0 <= kk < nth (S i) ip 0 -> f kk s = Ok (s + nth kk dat 0 * g (nth kk ind 0%nat))%Qc) ->
  for_row ip i f s0 = Ok (s0 + sumf m (fun k => ent (rowlist ip ind dat i) k * g k))%Qc.
Proof.
  intros W Hi Hf. rewrite (for_row_list n m ip ind dat W i f (fun p s => Ok (s + snd p * g (fst p))%Qc) s0 Hi).
  - rewrite <- (ent_dot (rowlist ip ind dat i) m g) by (apply (row_cols n m ip ind dat W)).
    generalize (rowlist ip ind dat i) as l. intros l. revert s0. induction l as [|p l IH]; intros s0; cbn [for_list map suml].
    + f_equal. ring.
    + cbn [bind]. rewrite IH. f_equal. ring.
  - intros jj j d s Hjj Ej Ed. rewrite Hf by exact Hjj. rewrite (nth_error_nth _ _ 0 Ej), (nth_error_nth _ _ 0%Qc Ed). reflexivity.
Qed.
