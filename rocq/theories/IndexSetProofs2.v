From Coq Require Import Sorted Permutation NArith.
From Verif Require Import Util IndexSetModel IndexSetSpec IndexSetProofs BitArrayProofs.

Lemma aeval_ok x : agood x ->
  exists l, aeval x = Ok (map Some l) /\ StronglySorted Z.lt l /\ forall z, In z l <-> aden x z.
Proof.
  induction x as [a|s|x IHx y IHy|x IHx y IHy|x IHx y IHy]; cbn [agood aeval aden]; intros H.
  - destruct H as [Hn Hf]. destruct (init_ok a Hn Hf) as (l & E & Hs & Hi). rewrite E. eauto.
  - destruct H as [Hn Hf]. apply fromSet_ok; auto.
  - destruct H as [H1 H2]. destruct (IHx H1) as (a & Ea & Sa & Ia). destruct (IHy H2) as (b & Eb & Sb & Ib).
    rewrite Ea, Eb. cbn [bind]. destruct (union_ok a b Sa Sb) as (r & E & S & Hr). exists r. split; auto. split; auto.
    intros z. rewrite Hr, Ia, Ib. reflexivity.
  - destruct H as [H1 H2]. destruct (IHx H1) as (a & Ea & Sa & Ia). destruct (IHy H2) as (b & Eb & Sb & Ib).
    rewrite Ea, Eb. cbn [bind]. destruct (inter_ok a b Sa Sb) as (r & E & S & Hr). exists r. split; auto. split; auto.
    intros z. rewrite Hr, Ia, Ib. reflexivity.
  - destruct H as [H1 H2]. destruct (IHx H1) as (a & Ea & Sa & Ia). destruct (IHy H2) as (b & Eb & Sb & Ib).
    rewrite Ea, Eb. cbn [bind]. destruct (setminus_ok a b Sa Sb) as (r & E & S & Hr). exists r. split; auto. split; auto.
    intros z. rewrite Hr, Ia, Ib. reflexivity.
Qed.

Lemma array_sets x : agood x ->
  exists A l, aeval x = Ok A /\
    ais_list A = Ok l /\ A = map Some l /\
    StronglySorted Z.lt l /\ (forall z, In z l <-> aden x z) /\
    isSorted A = Ok true /\
    (forall i, exists b, inSet A i = Ok b /\ (b = true <-> aden x i)) /\
    (forall i, aden x i -> exists n, position A i = Ok (Z.of_nat n) /\ cardinal (fun z => aden x z /\ (z < i)%Z) n) /\
    (forall i, ~ aden x i -> position A i = Ok (-1)%Z).
Proof.
  intros H. destruct (aeval_ok x H) as (l & E & Hs & Hi). exists (map Some l), l.
  split; auto. split; [apply list_ok|]. split; auto. split; auto. split; auto. split.
  { destruct (isSorted_ok l) as (b & Eb & Hb). rewrite Eb. f_equal. apply Hb. auto. }
  split; [|split].
  - intros i. destruct (inSet_ok l i Hs) as (b & Eb & Hb). exists b. rewrite <- Hi. auto.
  - intros i Hd. apply Hi in Hd. exists (length (filter (fun x => x <? i)%Z l)).
    split; [apply (position_ok l i Hs); auto|]. exists (filter (fun x => x <? i)%Z l).
    split; [apply NoDup_filter, srt_nodup; auto|]. split; auto. intros z. rewrite filter_In, Z.ltb_lt, Hi. reflexivity.
  - intros i Hd. apply (position_ok l i Hs). rewrite Hi. auto.
Qed.

Lemma unsorted_sets (l : list Z) i :
  ufromSet l = Ok (map Some l) /\ ais_list (map Some l) = Ok l /\
  (exists b, uais_inSet (map Some l) i = Ok b /\ (b = true <-> In i l)) /\
  (In i l -> exists p, uais_position (map Some l) i = Ok (Z.of_nat p) /\ nth_error l p = Some i /\ forall q, q < p -> nth_error l q <> Some i) /\
  (~ In i l -> uais_position (map Some l) i = Ok (-1)%Z).
Proof.
  split. { unfold ufromSet. rewrite fill_ok. reflexivity. }
  split; [apply list_ok|]. split; [apply uinSet_ok|]. apply uposition_ok.
Qed.

(** qsort with the subtraction comparator misorders far apart values. *)
Lemma far_apart : exists a i, NoDup a /\ In i a /\
  (forall x, In x a -> (- 2^31 <= x < 2^31)%Z) /\
  isSorted (ais_init (Some a) false) = Ok false.
Proof.
  exists [2000000000; -2000000000]%Z, 2000000000%Z. split; [|split; [|split]].
  - repeat constructor; simpl; intuition discriminate.
  - left; auto.
  - intros x [<-|[<-|[]]]; lia.
  - vm_compute. reflexivity.
Qed.

(** * Ranges *)
Lemma ranges start stop increment :
  exists l n, (forall fuel, n <= fuel -> range_iter fuel start stop increment 0 [] = Ok l) /\
    NoDup l /\
    (forall i j x y, nth_error l i = Some x -> nth_error l j = Some y -> i < j -> (0 < (y - x) * increment)%Z) /\
    (forall x, In x l <-> exists k, (0 <= k)%Z /\ x = (start + increment * k)%Z /\
       ((0 < increment /\ x < stop) \/ (increment < 0 /\ stop < x))%Z).
Proof.
  assert (G : forall n, ((increment > 0)%Z /\ (forall j : nat, 0 <= j < 0 + n -> (start + increment * Z.of_nat j < stop)%Z) /\ (start + increment * Z.of_nat (0 + n) >= stop)%Z) \/
  ((increment < 0)%Z /\ (forall j : nat, 0 <= j < 0 + n -> (start + increment * Z.of_nat j > stop)%Z) /\ (start + increment * Z.of_nat (0 + n) <= stop)%Z) ->
     exists l n, (forall fuel, n <= fuel -> range_iter fuel start stop increment 0 [] = Ok l) /\
    NoDup l /\
    (forall i j x y, nth_error l i = Some x -> nth_error l j = Some y -> i < j -> (0 < (y - x) * increment)%Z) /\
    (forall x, In x l <-> exists k, (0 <= k)%Z /\ x = (start + increment * k)%Z /\
       ((0 < increment /\ x < stop) \/ (increment < 0 /\ stop < x))%Z)).
  { intros n Hn. exists (range_list start increment n), (S n). split; [|split; [|split]].
    - intros fuel Hf. change 0%Z with (Z.of_nat 0). rewrite (range_iter_app start stop increment fuel n 0 [] Hn) by lia. reflexivity.
    - apply FinFun.Injective_map_NoDup; [|apply seq_NoDup]. intros a b Hab. destruct Hn as [[Hn _]|[Hn _]]; nia.
    - intros i j x y Hx Hy Hij. unfold range_list in *. rewrite nth_error_map in *.
      destruct (nth_error (seq 0 n) i) as [a|] eqn:Ea; [|discriminate].
      destruct (nth_error (seq 0 n) j) as [b|] eqn:Eb; [|discriminate].
      assert (Hseq : forall n s k c, nth_error (seq s n) k = Some c -> c = s + k).
      { clear. induction n as [|n IH]; intros s [|k] c H; simpl in H; try discriminate.
        - inversion H; lia.
        - apply IH in H. lia. }
      apply Hseq in Ea, Eb. cbn in Hx, Hy. inversion Hx; inversion Hy; subst. simpl.
      destruct Hn as [[Hn _]|[Hn _]]; nia.
    - intros x. unfold range_list. rewrite in_map_iff. split.
      + intros (k & <- & Hk). apply in_seq in Hk. exists (Z.of_nat k). split; [lia|]. split; auto.
        destruct Hn as [(H1 & H2 & _)|(H1 & H2 & _)]; specialize (H2 k ltac:(lia)); lia.
      + intros (k & Hk & -> & Hc). exists (Z.to_nat k). rewrite Z2Nat.id by lia. split; auto. apply in_seq.
        split; [lia|]. destruct Hn as [(H1 & _ & H2)|(H1 & _ & H2)].
        * destruct (Nat.lt_ge_cases (Z.to_nat k) (0 + n)) as [|Hge]; auto.
          assert (increment * Z.of_nat (0 + n) <= increment * k)%Z by (apply Z.mul_le_mono_nonneg_l; lia). lia.
        * destruct (Nat.lt_ge_cases (Z.to_nat k) (0 + n)) as [|Hge]; auto.
          assert (increment * Z.of_nat (0 + n) >= increment * k)%Z by nia. lia. }
  destruct (Z.lt_trichotomy increment 0) as [Hi|[Hi|Hi]].
  - destruct (Z.le_gt_cases start stop).
    + apply (G 0). right. split; [lia|]. split; [intros; lia|]. simpl. lia.
    + apply (G (Z.to_nat ((start - stop - 1) / (- increment) + 1))). right. split; [lia|].
      assert (Hd := Z.div_mod (start - stop - 1) (- increment) ltac:(lia)).
      assert (Hm := Z.mod_pos_bound (start - stop - 1) (- increment) ltac:(lia)).
      assert (0 <= (start - stop - 1) / (- increment))%Z by (apply Z.div_pos; lia).
      split.
      * intros j Hj. assert (Z.of_nat j <= (start - stop - 1) / (- increment))%Z by lia.
        assert (- increment * Z.of_nat j <= - increment * ((start - stop - 1) / (- increment)))%Z by (apply Z.mul_le_mono_nonneg_l; lia). lia.
      * rewrite Nat.add_0_l, Z2Nat.id by lia. lia.
  - subst increment. exists [], 1. split; [|split; [|split]].
    + intros [|fuel] Hf; [lia|]. reflexivity.
    + constructor.
    + intros [|i] j x y H; discriminate.
    + intros x. split; [intros []|]. intros (k & _ & _ & [[? _]|[? _]]); lia.
  - destruct (Z.le_gt_cases stop start).
    + apply (G 0). left. split; [lia|]. split; [intros; lia|]. simpl. lia.
    + apply (G (Z.to_nat ((stop - start - 1) / increment + 1))). left. split; [lia|].
      assert (Hd := Z.div_mod (stop - start - 1) increment ltac:(lia)).
      assert (Hm := Z.mod_pos_bound (stop - start - 1) increment ltac:(lia)).
      assert (0 <= (stop - start - 1) / increment)%Z by (apply Z.div_pos; lia).
      split.
      * intros j Hj. assert (Z.of_nat j <= (stop - start - 1) / increment)%Z by lia.
        assert (increment * Z.of_nat j <= increment * ((stop - start - 1) / increment))%Z by (apply Z.mul_le_mono_nonneg_l; lia). lia.
      * rewrite Nat.add_0_l, Z2Nat.id by lia. lia.
Qed.

(** * Bit arrays *)
Lemma beval_ok x : exists b, beval x = Ok b /\ bwf b /\ forall j, bmem b j = true <-> bden x j.
Proof.
  induction x as [h m|x IHx i|x IHx|x IHx s|x IHx y IHy|x IHx y IHy]; cbn [beval bden].
  - exists (bits_init h m). destruct (bits_init_ok h m) as [H1 H2]. split; auto. split; auto.
    intros j. rewrite H2. split; [discriminate|intros []].
  - destruct IHx as (b & E & Hb & Hm). rewrite E. cbn [bind]. destruct (bset_ok b i Hb) as (b' & E' & Hb' & Hm').
    exists b'. split; auto. split; auto. intros j. rewrite Hm', orb_true_iff, N.eqb_eq, Hm. reflexivity.
  - destruct IHx as (b & E & Hb & Hm). rewrite E. cbn [bind]. destruct (bempty_ok b Hb) as (b' & E' & Hb' & Hm').
    exists b'. split; auto. split; auto. intros j. rewrite Hm'. split; [discriminate|intros []].
  - destruct IHx as (b & E & Hb & Hm). rewrite E. cbn [bind]. apply bfromSet_ok; auto.
  - destruct IHx as (b & E & Hb & Hm). destruct IHy as (b2 & E2 & Hb2 & Hm2). rewrite E, E2. cbn [bind].
    destruct (bunion_ok b b2 Hb Hb2) as (b' & E' & Hb' & Hm'). exists b'. split; auto. split; auto.
    intros j. rewrite Hm', orb_true_iff, Hm, Hm2. reflexivity.
  - destruct IHx as (b & E & Hb & Hm). destruct IHy as (b2 & E2 & Hb2 & Hm2). rewrite E, E2. cbn [bind].
    destruct (binter_ok b b2 Hb Hb2) as (b' & E' & Hb' & Hm'). exists b'. split; auto. split; auto.
    intros j. rewrite Hm', andb_true_iff, Hm, Hm2. reflexivity.
Qed.

Lemma bit_sets x : exists b n,
  beval x = Ok b /\
  (forall i, exists r, binSet b i = Ok r /\ (r = true <-> bden x i)) /\
  bgetNumEntries b = Ok n /\ cardinal (bden x) n /\
  (bden x (64 * N.of_nat (blength b) - 1)%N -> btoList b = Err EOob) /\
  (~ bden x (64 * N.of_nat (blength b) - 1)%N ->
     exists l, btoList b = Ok l /\ StronglySorted N.lt l /\ forall i, In i l <-> bden x i).
Proof.
  destruct (beval_ok x) as (b & E & Hb & Hm). exists b, (length (members b)). split; auto. split; [|split; [|split; [|split]]].
  - intros i. exists (bmem b i). split; [apply binSet_ok; auto|apply Hm].
  - apply bnum_ok; auto.
  - exists (members b). split; [apply sorted_nodup, members_sorted|]. split; auto.
    intros i. rewrite members_in, Hm by auto. reflexivity.
  - intros H. apply (btoList_ok b Hb). apply Hm. exact H.
  - intros H. destruct (btoList_ok b Hb) as [_ H2]. destruct H2 as (l & El & Sl & Il).
    + destruct (bmem b (top_index b)) eqn:Et; auto. destruct H. apply Hm. exact Et.
    + exists l. split; auto. split; auto. intros i. rewrite Il. apply Hm.
Qed.

Lemma bit_iter_refuted : exists x b, beval x = Ok b /\ btoList b = Err EOob.
Proof. exists (BSet (BNew 1 0) 63), (BA 1 [9223372036854775808%N]). split; vm_compute; reflexivity. Qed.
