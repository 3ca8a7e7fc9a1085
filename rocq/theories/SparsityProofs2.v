From Coq Require Import Sorted.
From Verif Require Import Util TupleDictModel TupleDictProofs TupleDictProofs2 SparsityModel SparsitySpec SparsityProofs.
Set Default Proof Using "Type".

Lemma nodup_len_le {A} (dec : forall a b : A, {a = b} + {a <> b}) l l' :
  NoDup l -> incl l l' -> length l <= length (nodup dec l').
Proof.
  intros Hn Hi. apply NoDup_incl_length; auto. intros x Hx. apply nodup_In. auto.
Qed.

Lemma nodup_len_eq {A} (dec : forall a b : A, {a = b} + {a <> b}) l l' :
  NoDup l -> (forall x, In x l <-> In x l') -> length l = length (nodup dec l').
Proof.
  intros Hn Hi. apply Nat.le_antisymm.
  - apply nodup_len_le; auto. intros x. apply Hi.
  - apply NoDup_incl_length; [apply NoDup_nodup|]. intros x Hx. apply nodup_In in Hx. apply Hi; auto.
Qed.

Lemma Zsorted_nodup r : StronglySorted Z.lt r -> NoDup r.
Proof.
  induction r as [|a r IH]; intros Hs; constructor; inversion Hs as [|? ? H1 H2]; subst; auto.
  rewrite Forall_forall in H2. intros Hin. specialize (H2 _ Hin). lia.
Qed.

Section B.
  Variable W inc nd : nat.

  (** rows contain exactly the pairs added so far *)
  Definition Holds (rows : list (list Z)) (adds : list (nat * Z)) : Prop :=
    forall I r, nth_error rows I = Some r ->
      StronglySorted Z.lt r /\ forall j, In j r <-> In (I, j) adds.

  Lemma row_size_bound rows adds I r :
    Holds rows adds -> nth_error rows I = Some r -> length r = row_size I adds.
  Proof.
    intros HH E. destruct (HH _ _ E) as [Hs Hin]. unfold row_size. apply nodup_len_eq.
    - apply Zsorted_nodup; auto.
    - intros j. rewrite Hin, in_map_iff. split.
      + intros H. exists (I, j). split; auto. apply filter_In. split; auto. apply Nat.eqb_refl.
      + intros ([i j'] & Ej & Hf). apply filter_In in Hf as [Hf Hb]. cbn [fst snd] in *.
        apply Nat.eqb_eq in Hb. subst. auto.
  Qed.

  Lemma row_size_app I a b : row_size I a <= row_size I (a ++ b).
  Proof.
    unfold row_size. apply nodup_len_le; [apply NoDup_nodup|]. intros x Hx. apply nodup_In in Hx.
    rewrite filter_app, map_app. apply in_or_app; auto.
  Qed.

  Lemma sp_run_ok adds :
    0 < inc < W ->
    (forall p, In p adds -> fst p < nd) ->
    (forall p q a, adds = p ++ a :: q -> row_size (fst a) p < W) ->
    exists s rows, for_list adds (fun p s => sp_add W s (fst p) (snd p)) (sp_init nd inc) = Ok s /\
      RSp W inc s rows /\ sp_num_dofs s = nd /\ Holds rows adds.
  Proof.
    intros Hinc Hr HW.
    destruct (for_list_inv (fun done s => exists rows, RSp W inc s rows /\ sp_num_dofs s = nd /\ Holds rows done)
      (fun p s => sp_add W s (fst p) (snd p)) adds [] (sp_init nd inc)) as (s & E & rows & H1 & H2 & H3).
    - exists (repeat [] nd). split; [apply RSp_init; lia|]. split; [reflexivity|].
      intros I r E. apply nth_error_repeat in E as [-> _]. split; [constructor|]. intros j; cbn; tauto.
    - intros p x q s0 Hl (rows & HR & Hn & HH). cbn [app] in *.
      assert (Hx : fst x < nd) by (apply Hr; rewrite Hl; apply in_or_app; right; left; auto).
      destruct (nth_error_lt rows (fst x)) as (r & Er).
      { rewrite (q_nr _ _ _ _ HR). lia. }
      destruct (sp_add_ok W inc s0 rows (fst x) (snd x) r) as (s' & r' & E1 & HR' & Hn' & Hs' & Hi'); auto.
      + apply (HH _ _ Er).
      + rewrite (row_size_bound _ _ _ _ HH Er). eapply HW; eauto.
      + exists s'. split; auto. exists (upd rows (fst x) r'). split; auto. split; [congruence|].
        intros I rr E. rewrite nth_error_upd in E.
        destruct (Nat.eqb_spec (fst x) I) as [<-|Hne]; cbn [andb] in E.
        * destruct (Nat.ltb_spec (fst x) (length rows)); [|rewrite (q_nr _ _ _ _ HR) in *; lia].
          inversion E; subst rr. split; auto. intros j. rewrite Hi', in_app_iff.
          destruct (HH _ _ Er) as [_ Hin]. rewrite Hin. destruct x as [i0 j0]; cbn [fst snd In].
          split.
          -- intros [->|?]; auto.
          -- intros [?|[E0|[]]]; auto. inversion E0; auto.
        * destruct (HH _ _ E) as [Hs Hin]. split; auto. intros j. rewrite Hin, in_app_iff.
          destruct x as [i0 j0]; cbn [fst snd In] in *. split; auto.
          intros [?|[E0|[]]]; auto. inversion E0; congruence.
    - exists s, rows. auto.
  Qed.

  Lemma concat_pairs rows adds : Holds rows adds -> (forall p, In p adds -> fst p < length rows) ->
    length (concat rows) = length (nodup pair_eq_dec adds).
  Proof.
    intros HH Hr. rewrite <- (nodup_len_eq pair_eq_dec (keys_from unit 0 (map tag rows)) adds).
    - rewrite keys_from_length. clear. induction rows as [|a t IH]; simpl; auto.
      rewrite !app_length, IH, tag_length. reflexivity.
    - apply keys_from_nodup. intros r Hin. apply in_map_iff in Hin as (r0 & <- & Hin).
      apply In_nth_error in Hin as (I & E). apply (proj1 (tag_sorted r0)). apply (HH _ _ E).
    - intros [I j]. rewrite keys_from_in, Nat.sub_0_r. split.
      + intros (_ & r & E & Hj). rewrite nth_error_map in E. destruct (nth_error rows I) as [r0|] eqn:E0; [|discriminate].
        cbn in E. inversion E; subst r. unfold tag in Hj. rewrite map_map in Hj. cbn [fst] in Hj. rewrite map_id in Hj.
        apply (HH _ _ E0); auto.
      + intros Hin. split; [lia|]. destruct (nth_error_lt rows I) as (r0 & E0).
        { apply (Hr _ Hin). }
        exists (tag r0). rewrite nth_error_map, E0. split; auto. unfold tag. rewrite map_map. cbn [fst]. rewrite map_id.
        apply (HH _ _ E0); auto.
  Qed.

  Lemma sp_build_ok adds :
    0 < inc < W ->
    (forall p, In p adds -> fst p < nd) ->
    (forall I, row_size I adds < W) ->
    exists indptr indices,
      sp_build W nd inc adds = Ok (map Some indptr, map Some indices) /\ is_csr_of nd adds indptr indices.
  Proof.
    intros Hinc Hr HW. destruct (sp_run_ok adds) as (s & rows & E & HR & Hn & HH); auto.
    { intros p q a ->. eapply Nat.le_lt_trans; [apply row_size_app|apply HW]. }
    unfold sp_build. rewrite E. cbn [bind]. rewrite (sp_freeze_ok _ _ _ _ HR).
    exists (offs 0 rows), (concat rows). split; [reflexivity|].
    assert (HL : length rows = nd) by (rewrite (q_nr _ _ _ _ HR); auto).
    assert (HC := concat_pairs rows adds HH). rewrite HL in HC. specialize (HC Hr).
    split; [rewrite offs_length; lia|]. split; [destruct rows; reflexivity|].
    split. { intros i Hi. rewrite !offs_nth by lia. cbn [Nat.add].
      destruct (nth_error_lt rows i) as (r & Er); [lia|]. destruct (cut_at _ _ _ Er) as (-> & _).
      rewrite concat_app, app_length. lia. }
    split; [rewrite offs_nth by lia; rewrite firstn_all2 by lia; cbn [Nat.add]; auto|].
    split; [auto|].
    intros i Hi. destruct (nth_error_lt rows i) as (r & Er); [lia|].
    rewrite (slice_row rows i r Er). apply (HH _ _ Er).
  Qed.
End B.

(** * Beyond the 16-bit range *)
Definition fill (n : nat) : list (nat * Z) := map (fun k => (0, Z.of_nat k)) (seq 0 n).

Lemma row_size_fill p n q : fill n = p ++ q -> row_size 0 p = length p.
Proof.
  intros E. assert (Hp : p = fill (length p)).
  { pose proof (f_equal (firstn (length p)) E) as H. rewrite firstn_at in H.
    assert (length p <= n). { pose proof (f_equal (@length _) E) as HL. unfold fill in HL.
      rewrite map_length, seq_length, app_length in HL. lia. }
    rewrite <- H at 1. unfold fill. rewrite firstn_map. f_equal.
    replace n with (length p + (n - length p)) by lia. rewrite seq_app.
    rewrite <- (seq_length (length p) 0) at 1. apply firstn_at. }
  rewrite Hp at 1. unfold row_size. rewrite <- nodup_len_eq with (l := map Z.of_nat (seq 0 (length p))).
  - rewrite map_length, seq_length. reflexivity.
  - apply FinFun.Injective_map_NoDup; [intros x y; lia|apply seq_NoDup].
  - intros x. unfold fill. rewrite !in_map_iff. split.
    + intros (k & <- & Hk). exists (0, Z.of_nat k). split; auto. apply filter_In. split; auto.
      apply in_map_iff. exists k; auto.
    + intros (e & <- & Hf). apply filter_In in Hf as [Hf _]. apply in_map_iff in Hf as (k & <- & Hk).
      exists k; auto.
Qed.

Lemma fill_length n : length (fill n) = n.
Proof. unfold fill. rewrite map_length, seq_length. reflexivity. Qed.

Lemma for_down_first {S} n hi (f : nat -> S -> res S) s e : f hi s = Err e -> 0 < n -> for_down n hi f s = Err e.
Proof. intros E Hn. destruct n; [lia|]. cbn [for_down]. rewrite E. reflexivity. Qed.

Lemma beyond W inc : 20 <= W -> 0 < inc < W ->
  ~ exists indptr indices, sp_build W 1 inc (fill W ++ [(0, Z.of_nat (W - 1))]) = Ok (map Some indptr, map Some indices) /\
      is_csr_of 1 (fill W ++ [(0, Z.of_nat (W - 1))]) indptr indices.
Proof.
  intros H20 Hinc (indptr & indices & EB & HB).
  destruct (sp_run_ok W inc 1 (fill W)) as (s & rows & E & HR & Hn & HH); auto.
  { intros p Hp. unfold fill in Hp. apply in_map_iff in Hp as (k & <- & _). cbn; lia. }
  { intros p q a Hpq. assert (fst a = 0) as ->.
    { assert (Ha : In a (fill W)) by (rewrite Hpq; apply in_or_app; right; left; auto).
      unfold fill in Ha. apply in_map_iff in Ha as (k & <- & _). reflexivity. }
    rewrite (row_size_fill _ _ _ Hpq). pose proof (f_equal (@length _) Hpq) as HL.
    rewrite fill_length, app_length in HL. cbn [length] in HL. lia. }
  unfold sp_build in EB. rewrite for_list_app, E in EB. cbn [bind for_list fst snd] in EB.
  assert (HL : length rows = 1) by (rewrite (q_nr _ _ _ _ HR); auto).
  destruct rows as [|r [|? ?]]; cbn [length] in HL; try lia.
  destruct (HH 0 r eq_refl) as [Hs Hin].
  assert (HLr : length r = W).
  { rewrite (row_size_bound _ _ 0 r HH eq_refl). erewrite row_size_fill; [apply fill_length|].
    rewrite app_nil_r; reflexivity. }
  assert (HC : W = length (nodup pair_eq_dec (fill W ++ [(0, Z.of_nat (W - 1))]))).
  { rewrite <- nodup_len_eq with (l := fill W).
    - rewrite fill_length. reflexivity.
    - unfold fill. apply FinFun.Injective_map_NoDup; [|apply seq_NoDup].
      intros x y Exy. inversion Exy. lia.
    - intros x. rewrite in_app_iff. split; auto. intros [?|[<-|[]]]; auto.
      unfold fill. apply in_map_iff. exists (W - 1). split; auto. apply in_seq. lia. }
  destruct (q_row _ _ _ _ HR 0 r eq_refl) as (c & l & ib & Ec & El & Ei & [Hc (ji & Hib) HQ]).
  rewrite HLr in Hc. subst c.
  destruct r as [|h r]; [cbn [length] in HLr; lia|].
  assert (Hh : h = 0%Z).
  { assert (H0 : In 0%Z (h :: r)) by (apply Hin; unfold fill; apply in_map_iff; exists 0; split; auto; apply in_seq; lia).
    assert (Hh : In (0, h) (fill W)) by (apply Hin; left; auto).
    unfold fill in Hh. apply in_map_iff in Hh as (k & Ek & _). inversion Ek; subst h.
    destruct H0 as [H0|H0]; auto. inversion Hs as [|? ? _ Hf]; subst. rewrite Forall_forall in Hf.
    specialize (Hf _ H0). lia. }
  subst h.
  assert (Hf : sp_findIndex W s 0 (Z.of_nat (W - 1)) = Ok (false, length [0%Z])).
  { unfold sp_findIndex. rewrite (aget_ok _ _ _ Ec). cbn [bind]. rewrite (aget_ok _ _ _ Ei). cbn [bind].
    destruct (Nat.ltb_spec W 20); [lia|]. cbn [sp_bisect]. rewrite Hib. cbn [map app].
    unfold rd at 1. cbn [nth_error bind].
    destruct (Z.eqb_spec 0 (Z.of_nat (W - 1))); [lia|].
    unfold u16 at 1. rewrite Nat.mod_same by lia. cbn [Nat.sub Nat.leb].
    destruct (Z.ltb_spec (Z.of_nat (W - 1)) 0); [lia|]. unfold u16. rewrite Nat.mod_small by lia. reflexivity. }
  destruct (Nat.lt_ge_cases W (length ib)) as [Hlen|Hlen].
  - destruct (sp_insert W inc s [0%Z :: r] 0 [0%Z] r (Z.of_nat (W - 1)) W) as (s' & E' & HR' & Hn'); auto.
    + intros _. exists ib; auto.
    + rewrite E' in EB. cbn [bind] in EB. rewrite (sp_freeze_ok _ _ _ _ HR') in EB.
      inversion EB as [[E1 E2]]. destruct HB as (_ & _ & _ & _ & HB & _). rewrite <- HC in HB.
      apply (f_equal (@length _)) in E2. rewrite !map_length in E2. cbn [upd concat app length] in E2.
      rewrite app_nil_r in E2. cbn [length] in *. rewrite map_length in E2. lia.
  - assert (ji = []) as ->.
    { rewrite Hib, app_length, map_length in Hlen. destruct ji; auto. cbn [length] in *. lia. }
    rewrite app_nil_r in Hib.
    assert (HWl : W <> l). { destruct HQ as [[? ?]|[? ?]]; [|lia]. subst ib. rewrite map_length in *. lia. }
    unfold sp_add in EB. rewrite Hf in EB. cbn [bind] in EB. rewrite (aget_ok _ _ _ Ec) in EB. cbn [bind] in EB.
    rewrite (aget_ok _ _ _ El) in EB. cbn [bind] in EB. rewrite (aget_ok _ _ _ Ei) in EB. cbn [bind] in EB.
    apply Nat.eqb_neq in HWl. rewrite HWl in EB. cbn [bind] in EB.
    unfold sp_shift, for_range_down in EB. cbn [length] in EB.
    erewrite for_down_first in EB; [discriminate| |lia].
    instantiate (1 := EOob). cbn beta.
    destruct (nth_error_lt (0%Z :: r) (W - 1)) as (y & Ey); [lia|].
    rewrite (rd_ok _ _ y) by (rewrite Hib; erewrite map_nth_error by eauto; reflexivity). cbn [bind].
    unfold wr, aset. destruct (Nat.ltb_spec W (length ib)); [lia|reflexivity].
Qed.

Lemma beyond_16_bits :
  exists adds : list (nat * Z), (forall p, In p adds -> fst p < 1 /\ (0 <= snd p < 65536)%Z) /\
  ~ exists indptr indices, sp_build (2 ^ 16) 1 9 adds = Ok (map Some indptr, map Some indices) /\
      is_csr_of 1 adds indptr indices.
Proof.
  remember (2 ^ 16) as W eqn:EW.
  assert (HZ : Z.of_nat W = 65536%Z) by (subst W; rewrite Nat2Z.inj_pow; reflexivity). clear EW.
  exists (fill W ++ [(0, Z.of_nat (W - 1))]). split.
  - intros p Hp. apply in_app_or in Hp as [Hp|[<-|[]]].
    + unfold fill in Hp. apply in_map_iff in Hp as (k & <- & Hk). apply in_seq in Hk. cbn [fst snd]. lia.
    + cbn [fst snd]. lia.
  - apply beyond; lia.
Qed.

Lemma zero_initial_length W I J nd : sp_build W nd 0 [(I, J)] = Err EOob.
Proof.
  unfold sp_build. cbn [for_list fst snd]. unfold sp_add, sp_findIndex, sp_init.
  cbn [sp_counts sp_indexL sp_lengths sp_initial_length].
  destruct (Nat.lt_ge_cases I nd).
  - rewrite !(aget_ok _ _ _ (nth_error_repeat_some _ _ _ H)). cbn [bind Nat.ltb Nat.leb sp_linear].
    rewrite Nat.eqb_refl. cbn [bind].
    rewrite aset_ok by (rewrite repeat_length; auto). cbn [bind]. unfold sp_shift.
    assert (u16 W 0 = 0) as ->. { unfold u16. destruct W; [reflexivity|apply Nat.mod_0_l; discriminate]. }
    reflexivity.
  - unfold aget. assert (nth_error (repeat 0 nd) I = None) as -> by (apply nth_error_None; rewrite repeat_length; auto).
    reflexivity.
Qed.
