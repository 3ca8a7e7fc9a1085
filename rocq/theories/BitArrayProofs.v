From Coq Require Import Sorted Permutation NArith.
From Verif Require Import Util IndexSetModel.

(** The set a bit array stands for. *)
Definition bmem (b : bits) (i : N) : bool := N.testbit (nth (word_of i) (ba b) 0%N) (bit_of i).
Record bwf (b : bits) : Prop := {
  bw_len : length (ba b) = blength b;
  bw_pos : 0 < blength b;
  bw_small : forall w, In w (ba b) -> (w < 2 ^ 64)%N }.

Lemma bit_of_mod i : bit_of i = (i mod 64)%N.
Proof. unfold bit_of, bitsPerWord. rewrite N.mul_comm, N.mod_eq by lia. reflexivity. Qed.
Lemma bit_of_lt i : (bit_of i < 64)%N.
Proof. rewrite bit_of_mod. apply N.mod_lt. lia. Qed.
Lemma index_eq i : i = (N.of_nat (word_of i) * 64 + bit_of i)%N.
Proof. unfold word_of, bitsPerWord. rewrite N2Nat.id, bit_of_mod, N.mul_comm. apply N.div_mod. lia. Qed.
Lemma word_bit k n : (n < 64)%N -> word_of (N.of_nat k * 64 + n) = k /\ bit_of (N.of_nat k * 64 + n) = n.
Proof.
  intros H. split.
  - unfold word_of, bitsPerWord. rewrite N.div_add_l, N.div_small by lia. rewrite N.add_0_r, Nat2N.id. reflexivity.
  - rewrite bit_of_mod, N.add_comm, N.mod_add, N.mod_small by lia. reflexivity.
Qed.
Lemma same_index i j : word_of i = word_of j -> bit_of i = bit_of j -> i = j.
Proof. intros H1 H2. rewrite (index_eq i), (index_eq j), H1, H2. reflexivity. Qed.

Lemma land1_odd v : N.eqb (N.land v 1) 1 = N.testbit v 0.
Proof.
  rewrite N.bit0_odd. change 1%N with (N.ones 1) at 1. rewrite N.land_ones. change (2 ^ 1)%N with 2%N.
  rewrite <- N.bit0_mod, N.bit0_odd. destruct (N.odd v); reflexivity.
Qed.

Lemma small_bits w n : (w < 2 ^ 64)%N -> (64 <= n)%N -> N.testbit w n = false.
Proof.
  intros Hw Hn. destruct (N.eq_dec w 0) as [->|H0]; [apply N.bits_0|].
  apply N.bits_above_log2. apply N.log2_lt_pow2; [lia|].
  apply N.lt_le_trans with (2 ^ 64)%N; auto. apply N.pow_le_mono_r; lia.
Qed.
Lemma bits_small w : (forall n, (64 <= n)%N -> N.testbit w n = false) -> (w < 2 ^ 64)%N.
Proof.
  intros H. destruct (N.eq_dec w 0) as [->|H0]; [lia|].
  apply N.log2_lt_pow2; [lia|]. destruct (N.lt_ge_cases (N.log2 w) 64) as [|Hge]; auto.
  specialize (H _ Hge). rewrite N.bit_log2 in H by auto. discriminate.
Qed.

Lemma nth_repeat0 n k : nth k (repeat 0%N n) 0%N = 0%N.
Proof. revert k; induction n; intros [|k]; simpl; auto. Qed.

Lemma bits_init_ok hint m : bwf (bits_init hint m) /\ forall i, bmem (bits_init hint m) i = false.
Proof.
  split; [constructor|].
  - simpl. apply repeat_length.
  - simpl. lia.
  - simpl. intros w Hw. apply repeat_spec in Hw. subst. lia.
  - intros i. unfold bmem. simpl. rewrite nth_repeat0. apply N.bits_0.
Qed.

Lemma bset_ok b i : bwf b -> exists b', bset b i = Ok b' /\ bwf b' /\
  forall j, bmem b' j = (N.eqb j i || bmem b j).
Proof.
  intros [Hl Hp Hs]. unfold bset.
  set (b1 := if blength b <=? word_of i then _ else b).
  assert (H1 : bwf b1 /\ word_of i < blength b1 /\ forall j, bmem b1 j = bmem b j).
  { subst b1. destruct (Nat.leb_spec (blength b) (word_of i)).
    - split; [constructor|split].
      + simpl. rewrite app_length, repeat_length, Hl. lia.
      + simpl. lia.
      + simpl. intros w Hw. apply in_app_or in Hw as [Hw|Hw]; auto. apply repeat_spec in Hw. subst. lia.
      + simpl. lia.
      + intros j. unfold bmem. simpl. destruct (Nat.lt_ge_cases (word_of j) (length (ba b))).
        * rewrite app_nth1 by lia. reflexivity.
        * rewrite app_nth2, nth_repeat0, nth_overflow by lia. reflexivity.
    - split; [constructor; auto|]. split; auto. }
  clearbody b1. destruct H1 as ([Hl1 Hp1 Hs1] & Hk & Hm).
  rewrite (aget_nth _ _ 0%N) by lia. cbn [bind]. rewrite aset_ok by lia. cbn [bind].
  eexists. split; [reflexivity|]. split; [constructor|].
  - simpl. rewrite upd_length. auto.
  - auto.
  - cbn [ba]. intros w Hw. apply In_nth_error in Hw as (n & En). rewrite nth_error_upd in En.
    destruct ((word_of i =? n) && _).
    + assert (Hw : N.lor (nth (word_of i) (ba b1) 0%N) (N.shiftl 1 (bit_of i)) = w) by congruence. rewrite <- Hw. clear En Hw. apply bits_small. intros m Hm'. rewrite N.lor_spec.
      rewrite small_bits; auto. 2:{ apply Hs1. apply nth_In. lia. }
      rewrite orb_false_l, N.shiftl_1_l. apply N.pow2_bits_false. pose proof (bit_of_lt i). lia.
    + apply Hs1. eapply nth_error_In; eauto.
  - intros j. rewrite <- Hm. unfold bmem. cbn [ba].
    destruct (Nat.eq_dec (word_of i) (word_of j)) as [Hw|Hw].
    + rewrite <- Hw, nth_upd_eq by lia. rewrite N.lor_spec.
      destruct (N.eqb_spec j i) as [->|Hji]; cbn [orb].
      * rewrite N.shiftl_1_l, N.pow2_bits_true. apply orb_true_r.
      * assert (Hb : bit_of i <> bit_of j) by (intros Hb; apply Hji; symmetry; apply same_index; auto).
        rewrite N.shiftl_1_l, N.pow2_bits_false by auto. apply orb_false_r.
    + rewrite nth_upd_neq by auto. destruct (N.eqb_spec j i) as [->|]; [congruence|]. reflexivity.
Qed.

Lemma binSet_ok b i : bwf b -> binSet b i = Ok (bmem b i).
Proof.
  intros [Hl Hp Hs]. unfold binSet. destruct (Nat.ltb_spec (word_of i) (blength b)).
  - rewrite (aget_nth _ _ 0%N) by lia. cbn [bind]. rewrite land1_odd, N.shiftr_spec', N.add_0_l. reflexivity.
  - unfold bmem. rewrite nth_overflow by lia. rewrite N.bits_0. reflexivity.
Qed.

Lemma bempty_ok b : bwf b -> exists b', bempty b = Ok b' /\ bwf b' /\ forall i, bmem b' i = false.
Proof.
  intros [Hl Hp Hs]. unfold bempty.
  loop_inv (fun k (a : list N) => length a = blength b /\ forall j, (j < k -> nth j a 0%N = 0%N)) a E HI.
  - lia.
  - split; auto. intros; lia.
  - intros k a Hk [Ha Hz]. rewrite aset_ok by lia. eexists. split; [reflexivity|].
    split; [rewrite upd_length; auto|]. intros j Hj. destruct (Nat.eq_dec k j) as [->|].
    + apply nth_upd_eq. lia.
    + rewrite nth_upd_neq by auto. apply Hz. lia.
  - rewrite E. cbn [bind]. destruct HI as [Ha Hz].
    assert (Hall : forall j, nth j a 0%N = 0%N).
    { intros j. destruct (Nat.lt_ge_cases j (blength b)); auto. apply nth_overflow. lia. }
    eexists. split; [reflexivity|]. split; [constructor; simpl; auto|].
    + intros w Hw. apply (In_nth _ _ 0%N) in Hw as (n & _ & <-). rewrite Hall. lia.
    + intros i. unfold bmem. simpl. rewrite Hall. apply N.bits_0.
Qed.

Lemma bsets_ok s : forall b, bwf b -> exists b', for_list s (fun i b => bset b i) b = Ok b' /\ bwf b' /\
  forall j, bmem b' j = true <-> In j s \/ bmem b j = true.
Proof.
  induction s as [|i s IH]; intros b Hb; cbn [for_list].
  - exists b. split; auto. split; auto. intros j. simpl. tauto.
  - destruct (bset_ok b i Hb) as (b1 & E & Hb1 & Hm). rewrite E. cbn [bind].
    destruct (IH b1 Hb1) as (b2 & E2 & Hb2 & Hm2). exists b2. split; auto. split; auto.
    intros j. rewrite Hm2, Hm, orb_true_iff, N.eqb_eq. simpl. split.
    + intros [?|[->|?]]; tauto.
    + intros [[<-|?]|?]; tauto.
Qed.

Lemma bfromSet_ok b s : bwf b -> exists b', bfromSet b s = Ok b' /\ bwf b' /\
  forall j, bmem b' j = true <-> In j s.
Proof.
  intros Hb. unfold bfromSet. destruct (bempty_ok b Hb) as (b0 & E & Hb0 & Hm). rewrite E. cbn [bind].
  destruct (bsets_ok s b0 Hb0) as (b1 & E1 & Hb1 & Hm1). exists b1. split; auto. split; auto.
  intros j. rewrite Hm1, Hm. split; [intros [?|?]; [auto|discriminate]|auto].
Qed.

Lemma bunion_ok b1 b2 : bwf b1 -> bwf b2 -> exists b, bunion b1 b2 = Ok b /\ bwf b /\
  forall i, bmem b i = bmem b1 i || bmem b2 i.
Proof.
  intros [L1 P1 S1] [L2 P2 S2]. unfold bunion.
  set (m := Nat.min _ _). set (M := Nat.max (blength b1) (blength b2)).
  assert (HM : ba (bits_init M 0) = repeat 0%N M /\ blength (bits_init M 0) = M).
  { unfold bits_init, word_of. simpl. rewrite Nat.max_l by lia. auto. }
  destruct HM as [-> HM].
  set (goal := fun k => N.lor (nth k (ba b1) 0%N) (nth k (ba b2) 0%N)).
  loop_inv (fun k (a : list N) => length a = M /\ forall j, j < k -> nth j a 0%N = goal j) a E HI.
  - lia.
  - split; [apply repeat_length|intros; lia].
  - intros k a Hk [Ha Hz]. rewrite !(aget_nth _ _ 0%N) by lia. cbn [bind]. rewrite aset_ok by lia.
    eexists. split; [reflexivity|]. split; [rewrite upd_length; auto|]. intros j Hj.
    destruct (Nat.eq_dec k j) as [->|]; [apply nth_upd_eq; lia|]. rewrite nth_upd_neq by auto. apply Hz; lia.
  - rewrite E. cbn [bind].
    assert (H2 : exists a', (if blength b2 <? blength b1 then
          for_range (blength b2) (blength b1) (fun k a => x <- aget (ba b1) k ;; aset a k x) a
        else
          for_range (blength b1) (blength b2) (fun k a => x <- aget (ba b2) k ;; aset a k x) a) = Ok a' /\
          length a' = M /\ forall j, j < M -> nth j a' 0%N = goal j).
    { destruct HI as [Ha Hz]. destruct (Nat.ltb_spec (blength b2) (blength b1)).
      - loop_inv (fun k (a : list N) => length a = M /\ forall j, j < k -> nth j a 0%N = goal j) a' E' HI.
        + lia.
        + split; auto. intros j Hj. apply Hz. lia.
        + intros k a1 Hk [Ha1 Hz1]. rewrite !(aget_nth _ _ 0%N) by lia. cbn [bind]. rewrite aset_ok by lia.
          eexists. split; [reflexivity|]. split; [rewrite upd_length; auto|]. intros j Hj.
          destruct (Nat.eq_dec k j) as [->|].
          * rewrite nth_upd_eq by lia. unfold goal. rewrite (nth_overflow (ba b2)) by lia. rewrite N.lor_0_r. reflexivity.
          * rewrite nth_upd_neq by auto. apply Hz1; lia.
        + exists a'. split; auto. destruct HI as [Q1 Q2]. split; auto. intros j Hj. apply Q2. lia.
      - loop_inv (fun k (a : list N) => length a = M /\ forall j, j < k -> nth j a 0%N = goal j) a' E' HI.
        + lia.
        + split; auto. intros j Hj. apply Hz. lia.
        + intros k a1 Hk [Ha1 Hz1]. rewrite !(aget_nth _ _ 0%N) by lia. cbn [bind]. rewrite aset_ok by lia.
          eexists. split; [reflexivity|]. split; [rewrite upd_length; auto|]. intros j Hj.
          destruct (Nat.eq_dec k j) as [->|].
          * rewrite nth_upd_eq by lia. unfold goal. rewrite (nth_overflow (ba b1)) by lia. rewrite N.lor_0_l. reflexivity.
          * rewrite nth_upd_neq by auto. apply Hz1; lia.
        + exists a'. split; auto. destruct HI as [Q1 Q2]. split; auto. intros j Hj. apply Q2. lia. }
    destruct H2 as (a' & E' & Ha' & Hz'). rewrite E'. cbn [bind]. rewrite HM.
    assert (Hg : forall j, nth j a' 0%N = goal j).
    { intros j. destruct (Nat.lt_ge_cases j M); auto. unfold goal. rewrite !nth_overflow by lia. reflexivity. }
    eexists. split; [reflexivity|]. split; [constructor; simpl; auto; try lia|].
    + intros w Hw. apply (In_nth _ _ 0%N) in Hw as (n & Hn & <-). rewrite Hg. unfold goal. apply bits_small.
      intros q Hq. rewrite N.lor_spec. apply orb_false_iff. split.
      * destruct (Nat.lt_ge_cases n (length (ba b1))); [|rewrite nth_overflow by lia; apply N.bits_0].
        apply small_bits; auto. apply S1. apply nth_In. auto.
      * destruct (Nat.lt_ge_cases n (length (ba b2))); [|rewrite nth_overflow by lia; apply N.bits_0].
        apply small_bits; auto. apply S2. apply nth_In. auto.
    + intros i. unfold bmem. simpl. rewrite Hg. unfold goal. apply N.lor_spec.
Qed.

Lemma binter_ok b1 b2 : bwf b1 -> bwf b2 -> exists b, binter b1 b2 = Ok b /\ bwf b /\
  forall i, bmem b i = bmem b1 i && bmem b2 i.
Proof.
  intros [L1 P1 S1] [L2 P2 S2]. unfold binter.
  set (m := Nat.min _ _).
  assert (HM : ba (bits_init m 0) = repeat 0%N m /\ blength (bits_init m 0) = m).
  { unfold bits_init, word_of. simpl. rewrite Nat.max_l by lia. auto. }
  destruct HM as [-> HM].
  set (goal := fun k => N.land (nth k (ba b1) 0%N) (nth k (ba b2) 0%N)).
  loop_inv (fun k (a : list N) => length a = m /\ forall j, j < k -> nth j a 0%N = goal j) a E HI.
  - lia.
  - split; [apply repeat_length|intros; lia].
  - intros k a Hk [Ha Hz]. rewrite !(aget_nth _ _ 0%N) by lia. cbn [bind]. rewrite aset_ok by lia.
    eexists. split; [reflexivity|]. split; [rewrite upd_length; auto|]. intros j Hj.
    destruct (Nat.eq_dec k j) as [->|]; [apply nth_upd_eq; lia|]. rewrite nth_upd_neq by auto. apply Hz; lia.
  - rewrite E. cbn [bind]. destruct HI as [Ha Hz]. rewrite HM.
    assert (Hg : forall j, nth j a 0%N = goal j).
    { intros j. destruct (Nat.lt_ge_cases j m); auto. unfold goal. rewrite nth_overflow by lia.
      destruct (Nat.lt_ge_cases j (blength b1)).
      - rewrite (nth_overflow (ba b2)) by lia. rewrite N.land_0_r. reflexivity.
      - rewrite (nth_overflow (ba b1)) by lia. rewrite N.land_0_l. reflexivity. }
    eexists. split; [reflexivity|]. split; [constructor; simpl; auto; try lia|].
    + intros w Hw. apply (In_nth _ _ 0%N) in Hw as (n & Hn & <-). rewrite Hg. unfold goal. apply bits_small.
      intros q Hq. rewrite N.land_spec. apply andb_false_iff. left.
      destruct (Nat.lt_ge_cases n (length (ba b1))); [|rewrite nth_overflow by lia; apply N.bits_0].
      apply small_bits; auto. apply S1. apply nth_In. auto.
    + intros i. unfold bmem. simpl. rewrite Hg. unfold goal. apply N.land_spec.
Qed.

(** * Members in increasing order *)
Definition nrange (n : nat) : list N := map N.of_nat (seq 0 n).
Definition members (b : bits) : list N := filter (bmem b) (nrange (64 * blength b)).

Lemma members_in b i : bwf b -> In i (members b) <-> bmem b i = true.
Proof.
  intros [Hl Hp Hs]. unfold members. rewrite filter_In. split; [tauto|]. intros H. split; auto.
  unfold nrange. apply in_map_iff. exists (N.to_nat i). split; [apply N2Nat.id|]. apply in_seq. split; [lia|].
  destruct (Nat.lt_ge_cases (N.to_nat i) (64 * blength b)) as [|Hge]; auto. exfalso.
  unfold bmem in H. rewrite nth_overflow in H; [rewrite N.bits_0 in H; discriminate|].
  rewrite Hl. pose proof (index_eq i). pose proof (bit_of_lt i). lia.
Qed.

Lemma seq_sorted n : forall s, StronglySorted N.lt (map N.of_nat (seq s n)).
Proof.
  induction n as [|n IH]; intros s; simpl; [constructor|]. constructor; auto.
  rewrite Forall_forall. intros x Hx. apply in_map_iff in Hx as (y & <- & Hy). apply in_seq in Hy. lia.
Qed.
Lemma filter_sorted f l : StronglySorted N.lt l -> StronglySorted N.lt (filter f l).
Proof.
  induction 1 as [|x l Hs IH Hf]; simpl; [constructor|]. destruct (f x); auto. constructor; auto.
  rewrite Forall_forall in *. intros y Hy. apply filter_In in Hy. apply Hf, Hy.
Qed.
Lemma members_sorted b : StronglySorted N.lt (members b).
Proof. apply filter_sorted, seq_sorted. Qed.
Lemma sorted_nodup l : StronglySorted N.lt l -> NoDup l.
Proof.
  induction 1 as [|x l Hs IH Hf]; constructor; auto. rewrite Forall_forall in Hf.
  intros Hx. specialize (Hf x Hx). lia.
Qed.

Lemma popcount_ok n : forall v c, popcount n v c = c + length (filter (N.testbit v) (nrange n)).
Proof.
  induction n as [|n IH]; intros v c; cbn [popcount]; [simpl; lia|].
  rewrite IH, land1_odd. unfold nrange. cbn [seq map filter].
  assert (length (filter (N.testbit (N.shiftr v 1)) (map N.of_nat (seq 0 n))) = length (filter (N.testbit v) (map N.of_nat (seq 1 n)))) as ->.
  { rewrite <- seq_shift, map_map.
    assert (forall l, length (filter (N.testbit (N.shiftr v 1)) (map N.of_nat l)) = length (filter (N.testbit v) (map (fun x => N.of_nat (S x)) l))).
    { induction l as [|x l IHl]; cbn [map filter]; auto. rewrite N.shiftr_spec'.
      replace (N.of_nat x + 1)%N with (N.of_nat (S x)) by lia.
      destruct (N.testbit v (N.of_nat (S x))); cbn [length]; rewrite IHl; reflexivity. }
    auto. }
  change (N.of_nat 0) with 0%N. destruct (N.testbit v 0); simpl; lia.
Qed.

Lemma seq_shift_by a n : forall s, seq (a + s) n = map (fun x => a + x) (seq s n).
Proof. induction n as [|n IH]; intros s; cbn [seq map]; auto. f_equal. rewrite <- Nat.add_succ_r. apply IH. Qed.

Lemma count_upto b k :
  length (filter (bmem b) (nrange (64 * S k))) = length (filter (bmem b) (nrange (64 * k))) + length (filter (N.testbit (nth k (ba b) 0%N)) (nrange 64)).
Proof.
  unfold nrange. replace (64 * S k) with (64 * k + 64) by lia.
  assert (Hb : forall x, x < 64 -> bmem b (N.of_nat (64 * k + x)) = N.testbit (nth k (ba b) 0%N) (N.of_nat x)).
  { intros x Hx. unfold bmem. replace (N.of_nat (64 * k + x)) with (N.of_nat k * 64 + N.of_nat x)%N by lia.
    destruct (word_bit k (N.of_nat x)) as [-> ->]; auto. lia. }
  revert Hb. generalize (64 * k) as a. generalize 64 as m. intros m a Hb.
  rewrite seq_app, map_app, filter_app, app_length. f_equal. rewrite Nat.add_0_l. rewrite <- (Nat.add_0_r a) at 1. rewrite seq_shift_by.
  assert (Hx : forall x, In x (seq 0 m) -> x < m) by (intros x Hx; apply in_seq in Hx; lia).
  induction (seq 0 m) as [|x l IHl]; cbn [map filter]; auto.
  rewrite Hb by (apply Hx; left; auto). specialize (IHl (fun y Hy => Hx y (or_intror Hy))).
  destruct (N.testbit _ _); cbn [length]; auto.
Qed.

Lemma bnum_ok b : bwf b -> bgetNumEntries b = Ok (length (members b)).
Proof.
  intros Hb. unfold bgetNumEntries.
  loop_inv (fun k c => c = length (filter (bmem b) (nrange (64 * k)))) c E HI.
  - lia.
  - reflexivity.
  - intros k c Hk ->. rewrite (aget_nth _ _ 0%N) by (rewrite (bw_len b Hb); lia). cbn [bind].
    eexists. split; [reflexivity|]. rewrite popcount_ok, count_upto. reflexivity.
  - rewrite E, HI. reflexivity.
Qed.

(** * The iterator *)
Lemma first_bit_ok m : forall n v, match first_bit m n v with
  | Some r => exists j, r = (n + N.of_nat j)%N /\ j < m /\ N.testbit v (N.of_nat j) = true /\ forall i, i < j -> N.testbit v (N.of_nat i) = false
  | None => forall i, i < m -> N.testbit v (N.of_nat i) = false
  end.
Proof.
  induction m as [|m IH]; intros n v; cbn [first_bit]; [intros; lia|].
  rewrite land1_odd. destruct (N.testbit v 0) eqn:E0.
  - exists 0. repeat split; auto; try lia.
  - specialize (IH (n + 1)%N (N.shiftr v 1)). destruct (first_bit m (n + 1) (N.shiftr v 1)) as [r|].
    + destruct IH as (j & -> & Hj & Ht & Hf). exists (S j). repeat split; try lia.
      * rewrite N.shiftr_spec' in Ht. rewrite <- Ht. f_equal. lia.
      * intros [|i] Hi; auto. specialize (Hf i ltac:(lia)). rewrite N.shiftr_spec' in Hf. rewrite <- Hf. f_equal. lia.
    + intros [|i] Hi; auto. specialize (IH i ltac:(lia)). rewrite N.shiftr_spec' in IH. rewrite <- IH. f_equal. lia.
Qed.

Definition least_from (b : bits) (p : N) (o : option N) : Prop :=
  match o with
  | Some q => (p <= q)%N /\ bmem b q = true /\ forall i, (p <= i < q)%N -> bmem b i = false
  | None => forall i, (p <= i)%N -> bmem b i = false
  end.

Lemma scan_ok b : bwf b -> forall m k, k + m = blength b ->
  exists o, scan_words m k (ba b) = Ok o /\
    match o with
    | Some (k', n) => (n < 64)%N /\ k' < blength b /\ least_from b (N.of_nat k * 64) (Some (N.of_nat k' * 64 + n)%N)
    | None => least_from b (N.of_nat k * 64) None
    end.
Proof.
  intros Hb. induction m as [|m IH]; intros k Hk; cbn [scan_words].
  - exists None. split; auto. simpl. intros i Hi. unfold bmem. rewrite nth_overflow; [apply N.bits_0|].
    rewrite (bw_len b Hb). pose proof (index_eq i). pose proof (bit_of_lt i). lia.
  - rewrite (aget_nth _ _ 0%N) by (rewrite (bw_len b Hb); lia). cbn [bind].
    pose proof (first_bit_ok 64 0 (nth k (ba b) 0%N)) as Hf. destruct (first_bit 64 0 (nth k (ba b) 0%N)) as [r|].
    + destruct Hf as (j & -> & Hj & Ht & Hn). rewrite N.add_0_l. eexists. split; [reflexivity|].
      split; [lia|]. split; [lia|]. split; [lia|]. split.
      * unfold bmem. destruct (word_bit k (N.of_nat j)) as [-> ->]; auto; lia.
      * intros i Hi. unfold bmem. assert (word_of i = k) as -> by (pose proof (index_eq i); pose proof (bit_of_lt i); lia).
        assert (bit_of i < N.of_nat j)%N by (pose proof (index_eq i); pose proof (bit_of_lt i); assert (word_of i = k) by lia; lia).
        rewrite <- (N2Nat.id (bit_of i)). apply Hn. lia.
    + destruct (IH (S k) ltac:(lia)) as (o & E & H). exists o. split; auto.
      assert (Hk0 : forall i, (N.of_nat k * 64 <= i < N.of_nat (S k) * 64)%N -> bmem b i = false).
      { intros i Hi. assert (Hw : word_of i = k) by (pose proof (index_eq i); pose proof (bit_of_lt i); lia).
        unfold bmem. rewrite Hw. rewrite <- (N2Nat.id (bit_of i)). apply Hf. pose proof (bit_of_lt i). lia. }
      destruct o as [[k' n]|].
      * destruct H as (H1 & H2 & H3 & H4 & H5). split; auto. split; auto. split; [lia|]. split; auto.
        intros i Hi. destruct (N.lt_ge_cases i (N.of_nat (S k) * 64)); [apply Hk0; lia|apply H5; lia].
      * simpl in *. intros i Hi. destruct (N.lt_ge_cases i (N.of_nat (S k) * 64)); [apply Hk0; lia|apply H; lia].
Qed.

Definition ipos (s : bit_it) : N :=
  if N.eqb (it_n s) 63 then (N.of_nat (it_k1 s) * 64)%N else (N.of_nat (it_k1 s - 1) * 64 + (it_n s + 1))%N.

Lemma ipos_next k n : (n < 64)%N -> ipos (BI (S k) n) = (N.of_nat k * 64 + n + 1)%N.
Proof. intros Hn. unfold ipos. simpl it_n. simpl it_k1. destruct (N.eqb_spec n 63); [subst|]; rewrite ?Nat.sub_0_r; lia. Qed.

Lemma step_ok b s : bwf b -> (it_n s < 64)%N -> (ipos s < 64 * N.of_nat (blength b))%N ->
  exists s' o, bit_step b s = Ok (s', o) /\ least_from b (ipos s) o /\
    match o with Some q => (it_n s' < 64)%N /\ ipos s' = (q + 1)%N | None => True end.
Proof.
  intros Hb Hn Hp. unfold bit_step.
  assert (exists k0 n0, (if N.eqb (it_n s) 63 then (it_k1 s, 0%N) else (it_k1 s - 1, (it_n s + 1)%N)) = (k0, n0) /\
     ipos s = (N.of_nat k0 * 64 + n0)%N /\ (n0 < 64)%N) as (k0 & n0 & -> & Hi & Hn0).
  { unfold ipos. destruct (N.eqb_spec (it_n s) 63); do 2 eexists; (split; [reflexivity|]); split; lia. }
  rewrite Hi in *. assert (Hk0 : k0 < blength b) by lia.
  rewrite (aget_nth _ _ 0%N) by (rewrite (bw_len b Hb); lia). cbn [bind].
  set (w := nth k0 (ba b) 0%N).
  pose proof (first_bit_ok (64 - N.to_nat n0) n0 (N.shiftr w n0)) as Hf.
  assert (Hmem : forall j, (j < 64)%N -> bmem b (N.of_nat k0 * 64 + j) = N.testbit w j).
  { intros j Hj. unfold bmem. destruct (word_bit k0 j Hj) as [-> ->]. reflexivity. }
  destruct (first_bit _ _ _) as [r|].
  - destruct Hf as (j & -> & Hj & Ht & Hnn). rewrite N.shiftr_spec' in Ht.
    do 2 eexists. split; [reflexivity|]. split; [split; [lia|split]|].
    + rewrite Hmem by lia. rewrite <- Ht. f_equal. lia.
    + intros i Hi'. replace i with (N.of_nat k0 * 64 + (i - N.of_nat k0 * 64))%N by lia. rewrite Hmem by lia.
      specialize (Hnn (N.to_nat (i - N.of_nat k0 * 64 - n0)) ltac:(lia)). rewrite N.shiftr_spec' in Hnn.
      rewrite <- Hnn. f_equal. lia.
    + split; [simpl; lia|]. rewrite ipos_next by lia. lia.
  - destruct (scan_ok b Hb (blength b - (k0 + 1)) (k0 + 1) ltac:(lia)) as (o & E & H). rewrite E. cbn [bind].
    assert (Hk : forall i, (N.of_nat k0 * 64 + n0 <= i < N.of_nat (k0 + 1) * 64)%N -> bmem b i = false).
    { intros i Hi'. replace i with (N.of_nat k0 * 64 + (i - N.of_nat k0 * 64))%N by lia. rewrite Hmem by lia.
      specialize (Hf (N.to_nat (i - N.of_nat k0 * 64 - n0)) ltac:(lia)). rewrite N.shiftr_spec' in Hf.
      rewrite <- Hf. f_equal. lia. }
    destruct o as [[k' n]|].
    + destruct H as (H1 & H2 & H3 & H4 & H5). do 2 eexists. split; [reflexivity|]. split; [split; [lia|split; auto]|].
      * intros i Hi'. destruct (N.lt_ge_cases i (N.of_nat (k0 + 1) * 64)); [apply Hk; lia|apply H5; lia].
      * split; auto. apply ipos_next. auto.
    + do 2 eexists. split; [reflexivity|]. split; auto. simpl in *. intros i Hi'.
      destruct (N.lt_ge_cases i (N.of_nat (k0 + 1) * 64)); [apply Hk; lia|apply H; lia].
Qed.

Definition top_index (b : bits) : N := (64 * N.of_nat (blength b) - 1)%N.

Lemma above_top b i : bwf b -> bmem b i = true -> (i <= top_index b)%N.
Proof.
  intros Hb H. unfold bmem in H. destruct (Nat.lt_ge_cases (word_of i) (length (ba b))) as [Hw|Hw].
  - unfold top_index. rewrite (bw_len b Hb) in Hw. pose proof (index_eq i). pose proof (bit_of_lt i). lia.
  - rewrite nth_overflow in H by lia. rewrite N.bits_0 in H. discriminate.
Qed.

Lemma step_oob b s : bwf b -> (it_n s < 64)%N -> ipos s = (64 * N.of_nat (blength b))%N -> bit_step b s = Err EOob.
Proof.
  intros Hb Hn Hi. unfold bit_step. unfold ipos in Hi. destruct (N.eqb_spec (it_n s) 63).
  - assert (nth_error (ba b) (it_k1 s) = None) as E by (apply nth_error_None; rewrite (bw_len b Hb); lia).
    unfold aget. rewrite E. reflexivity.
  - assert (nth_error (ba b) (it_k1 s - 1) = None) as E by (apply nth_error_None; rewrite (bw_len b Hb); lia).
    unfold aget. rewrite E. reflexivity.
Qed.

Lemma biter_ok b : bwf b -> forall fuel s acc, (it_n s < 64)%N -> (ipos s <= 64 * N.of_nat (blength b))%N ->
  N.to_nat (64 * N.of_nat (blength b) - ipos s) < fuel ->
  (ipos s = (64 * N.of_nat (blength b))%N -> bmem b (top_index b) = true) ->
  (bmem b (top_index b) = true -> bit_iter fuel b s acc = Err EOob) /\
  (bmem b (top_index b) = false ->
     exists l, bit_iter fuel b s acc = Ok (acc ++ l) /\ StronglySorted N.lt l /\
       forall i, In i l <-> (ipos s <= i)%N /\ bmem b i = true).
Proof.
  intros Hb. induction fuel as [|f IH]; intros s acc Hn Hp Hf Htop; [lia|]. cbn [bit_iter].
  destruct (N.eq_dec (ipos s) (64 * N.of_nat (blength b))) as [He|He].
  - rewrite step_oob by auto. split; auto. rewrite Htop by auto. discriminate.
  - destruct (step_ok b s Hb Hn ltac:(lia)) as (s' & o & E & Hl & Hs'). rewrite E. cbn [bind].
    destruct o as [q|].
    + destruct Hs' as [Hn' Hi']. destruct Hl as (Hq1 & Hq2 & Hq3).
      pose proof (above_top b q Hb Hq2) as Hq4. unfold top_index in Hq4.
      destruct (IH s' (acc ++ [q]) Hn') as [H1 H2]; try lia.
      { intros Hi. unfold top_index. replace (64 * N.of_nat (blength b) - 1)%N with q by lia. auto. }
      split; [auto|]. intros Ht. destruct (H2 Ht) as (l & El & Sl & Il).
      exists (q :: l). split; [rewrite El, <- app_assoc; auto|]. split.
      * constructor; auto. rewrite Forall_forall. intros x Hx. apply Il in Hx. lia.
      * intros i. simpl. rewrite Il, Hi'. split.
        -- intros [<-|[? ?]]; split; auto; lia.
        -- intros [? Hm]. destruct (N.eq_dec q i); auto. right. split; auto.
           destruct (N.lt_ge_cases i q); [rewrite Hq3 in Hm by lia; discriminate|lia].
    + split.
      * intros Ht. simpl in Hl. rewrite Hl in Ht; [discriminate|]. unfold top_index. pose proof (bw_pos b Hb). lia.
      * intros _. exists []. rewrite app_nil_r. split; auto. split; [constructor|]. intros i. simpl in *.
        split; [intros []|]. intros [Hi Hm]. rewrite Hl in Hm by auto. discriminate.
Qed.

Lemma btoList_ok b : bwf b ->
  (bmem b (top_index b) = true -> btoList b = Err EOob) /\
  (bmem b (top_index b) = false -> exists l, btoList b = Ok l /\ StronglySorted N.lt l /\ forall i, In i l <-> bmem b i = true).
Proof.
  intros Hb. unfold btoList.
  destruct (biter_ok b Hb (S (64 * blength b)) bit_reset []) as [H1 H2].
  - simpl. lia.
  - unfold ipos, bit_reset. cbn [it_n it_k1]. rewrite N.eqb_refl. lia.
  - unfold ipos, bit_reset. cbn [it_n it_k1]. rewrite N.eqb_refl. lia.
  - unfold ipos, bit_reset. cbn [it_n it_k1]. rewrite N.eqb_refl. pose proof (bw_pos b Hb). lia.
  - split; auto. intros Ht. destruct (H2 Ht) as (l & El & Sl & Il). exists l. split; auto. split; auto.
    intros i. rewrite Il. unfold ipos, bit_reset. cbn [it_n it_k1]. rewrite N.eqb_refl.
    split; [tauto|]. intros; split; auto. lia.
Qed.
