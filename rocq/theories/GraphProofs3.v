(** Slices of sparse graphs. *)
From Coq Require Import Sorted.
From Verif Require Import Util Lin SparsitySpec CSRModel GraphModel GraphSpec GraphProofs GraphProofs2 PartitionProofs.
Local Open Scope nat_scope.
Set Default Proof Using "Type".

Lemma inc_nth l : increasing_list l -> forall s t, s < t -> t < length l -> nth s l 0 < nth t l 0.
Proof.
  unfold increasing_list. induction 1 as [|a l SS IH F]; intros s t H L; [cbn in L; lia|].
  destruct t as [|t]; [lia|]. cbn in L. destruct s as [|s]; cbn [nth].
  - rewrite Forall_forall in F. apply F, nth_In. lia.
  - apply IH; lia.
Qed.
Section Slice.
  Variables (n m : nat) (g : graph) (idx : list nat).
  Hypothesis W : wf_graph n m g.
  Hypothesis HS : increasing_list idx.
  Hypothesis HB : forall i, In i idx -> i < n.
  Let N := length idx.
  Let p k := nth k (g_ptr g) 0.
  Let id t := nth t idx 0.
  Definition len t := p (S (id t)) - p (id t).
  Fixpoint off t := match t with O => 0 | Datatypes.S t => off t + len t end.
  Lemma id_lt t : t < N -> id t < n.
  Proof using HB. intros H. apply HB, nth_In. exact H. Qed.
  Lemma id_mono s t : s < t -> t < N -> id s < id t.
  Proof using HS. intros H L. apply (inc_nth idx HS s t H L). Qed.
  Lemma id_ge t : t < N -> t <= id t.
  Proof using HS. induction t as [|t IH]; intros H; [lia|]. specialize (IH ltac:(lia)). pose proof (id_mono t (S t) ltac:(lia) H). lia. Qed.
  Lemma pm a b : a <= b -> b <= n -> p a <= p b.
  Proof using W. apply (ptr_mono n m g W). Qed.
  Lemma pS t : t < N -> p (id t) <= p (S (id t)).
  Proof using W HB. intros H. apply pm; [lia|]. pose proof (id_lt t H). lia. Qed.
  Lemma off_le t : t < N -> off t <= p (id t).
  Proof using W HS HB.
    induction t as [|t IH]; intros H; cbn [off]; [lia|]. specialize (IH ltac:(lia)). unfold len.
    pose proof (pS t ltac:(lia)). pose proof (id_mono t (S t) ltac:(lia) H). pose proof (pm (S (id t)) (id (S t)) ltac:(lia) ltac:(pose proof (id_lt (S t) H); lia)). lia.
  Qed.
  Lemma off_end t : t < N -> off (S t) <= p (S (id t)).
  Proof using W HS HB. intros H. cbn [off]. pose proof (off_le t H). unfold len. pose proof (pS t H). lia. Qed.
  (** If row t is kept at its place, all rows before are. *)
  Lemma id_same t : t < N -> id t = t -> forall s, s <= t -> id s = s.
  Proof using HS. intros H E s Hs. pose proof (id_ge s ltac:(lia)). assert (K : forall d, s + d <= t -> id s + d <= id (s + d)).
    { induction d as [|d IH]; intros Hd; [rewrite !Nat.add_0_r; lia|]. specialize (IH ltac:(lia)). pose proof (id_mono (s + d) (s + S d) ltac:(lia) ltac:(lia)). lia. }
    specialize (K (t - s) ltac:(lia)). replace (s + (t - s)) with t in K by lia. lia.
  Qed.
  Lemma off_same t : t < N -> id t = t -> off t = p t.
  Proof using W HS HB.
    intros H E. pose proof (id_same t H E) as K. assert (G : forall s, s <= t -> off s = p s); [|apply G; lia].
    induction s as [|s IH]; intros Hs; [cbn [off]; destruct W as (_ & _ & _ & Z0 & _); auto|]. cbn [off]. rewrite IH by lia. unfold len. rewrite K by lia.
    pose proof (id_lt t H). pose proof (pm s (S s) ltac:(lia) ltac:(lia)). lia.
  Qed.
  Lemma off_mono s t : s <= t -> off s <= off t.
  Proof using. induction 1; cbn [off]; lia. Qed.
  (** Which entry of the old array stands at a place of the new one *)
  Definition moved (t : nat) (ind : list nat) : Prop :=
    length ind = length (g_ind g) /\ (forall s r, s < t -> r < len s -> nth (off s + r) ind 0 = nth (p (id s) + r) (g_ind g) 0) /\
    (forall j, off t <= j -> nth j ind 0 = nth j (g_ind g) 0).
  Lemma sliceRow_ok : exists g', sliceRow g idx = Ok g' /\ wf_graph N m g' /\ forall k, k < N -> grow g' k = grow g (id k).
  Proof using W HS HB.
    pose proof W as (Wn & Wm & L & Z0 & M & Bd & HI). unfold sliceRow. fold N.
    destruct (for_range_inv (fun t (st : list nat * list nat * nat) => let '(ptr, ind, last) := st in
        length ptr = n + 1 /\ (forall k, k <= t -> nth k ptr 0 = off k) /\ (forall k, t < k -> nth k ptr 0 = p k) /\ moved t ind /\ last = off t)
      (fun newRowIdx '(ptr, ind, last) =>
        i <- aget idx newRowIdx ;;
        lo <- aget ptr i ;; hi <- aget ptr (i + 1) ;;
        let len := hi - lo in
        ptr <- aset ptr (newRowIdx + 1) (last + len) ;;
        b <- aget ptr newRowIdx ;; e <- aget ptr (newRowIdx + 1) ;;
        ind <- for_range b e (fun j ind =>
          _ <- guard (j - b <? len) EOob ;; v <- aget ind (lo + (j - b)) ;; aset ind j v) ind ;;
        Ok (ptr, ind, last + len)) 0 N (g_ptr g, g_ind g, 0)) as ([[ptr ind] last] & E & HX); [lia| | |].
    - split; [exact L|]. split; [intros k Hk; replace k with 0 by lia; exact Z0|]. split; [reflexivity|]. split; [|reflexivity].
      split; [reflexivity|]. split; [intros; lia|]. reflexivity.
    - intros t [[ptr ind] last] Ht (Lp & P1 & P2 & (Li & M1 & M2) & ->).
      pose proof (id_lt t ltac:(lia)) as It. pose proof (id_ge t ltac:(lia)) as Ig.
      rewrite (aget_nth idx t 0) by (unfold N in Ht; lia). cbn [bind]. fold (id t).
      rewrite (aget_nth ptr (id t) 0), (aget_nth ptr (id t + 1) 0) by lia. cbn [bind].
      assert (E1 : nth (id t) ptr 0 = p (id t)).
      { destruct (Nat.eq_dec (id t) t) as [E1|]; [|apply P2; lia]. rewrite E1 at 1. rewrite P1 by lia. rewrite (off_same t ltac:(lia) E1). rewrite E1. reflexivity. }
      assert (E2 : nth (id t + 1) ptr 0 = p (S (id t))) by (rewrite P2 by lia; f_equal; lia).
      rewrite E1, E2. cbv zeta. fold (len t).
      destruct (aset_nth ptr (t + 1) (off t + len t) 0 ltac:(lia)) as (ptr' & Ea & La & Va). rewrite Ea. cbn [bind].
      rewrite (aget_nth ptr' t 0), (aget_nth ptr' (t + 1) 0) by lia. cbn [bind].
      assert (B1 : nth t ptr' 0 = off t). { rewrite Va. destruct (Nat.eqb_spec t (t + 1)); [lia|]. apply P1. lia. }
      assert (B2 : nth (t + 1) ptr' 0 = off t + len t) by (rewrite Va, Nat.eqb_refl; reflexivity).
      rewrite B1, B2. pose proof (off_le t ltac:(lia)) as OL. pose proof (pS t ltac:(lia)) as PS. pose proof (pm (S (id t)) n ltac:(lia) ltac:(lia)) as PN. fold (p n) in Bd.
      destruct (for_range_inv (fun j ind' => length ind' = length (g_ind g) /\ (forall q, q < off t -> nth q ind' 0 = nth q ind 0) /\
          (forall r, off t + r < j -> nth (off t + r) ind' 0 = nth (p (id t) + r) (g_ind g) 0) /\ (forall q, j <= q -> nth q ind' 0 = nth q (g_ind g) 0))
        (fun j ind => _ <- guard (j - off t <? len t) EOob ;; v <- aget ind (p (id t) + (j - off t)) ;; aset ind j v) (off t) (off t + len t) ind) as (ind' & Ei & Li' & I1 & I2 & I3).
      + lia.
      + split; [exact Li|]. split; [reflexivity|]. split; [intros; lia|exact M2].
      + intros j b Hj (Lb & J1 & J2 & J3). rewrite (proj2 (Nat.ltb_lt (j - off t) (len t))) by lia. cbn [guard bind].
        assert (PB : p (id t) + (j - off t) < length (g_ind g)) by (unfold len in *; lia).
        rewrite (aget_nth b _ 0) by lia. cbn [bind]. rewrite J3 by lia.
        destruct (aset_nth b j (nth (p (id t) + (j - off t)) (g_ind g) 0) 0 ltac:(lia)) as (b' & Eb & Lb' & Vb). exists b'. split; [exact Eb|]. split; [lia|].
        split; [|split].
        * intros q Hq. rewrite Vb. destruct (Nat.eqb_spec q j); [lia|auto].
        * intros r Hr. rewrite Vb. destruct (Nat.eqb_spec (off t + r) j) as [Er|]; [do 2 f_equal; lia|]. apply J2. lia.
        * intros q Hq. rewrite Vb. destruct (Nat.eqb_spec q j); [lia|]. apply J3. lia.
      + rewrite Ei. cbn [bind]. eexists. split; [reflexivity|]. cbv beta iota. split; [lia|]. split; [|split; [|split; [|reflexivity]]].
        * intros k Hk. rewrite Va. destruct (Nat.eqb_spec k (t + 1)) as [->|]; [replace (t + 1) with (S t) by lia; reflexivity|]. apply P1. lia.
        * intros k Hk. rewrite Va. destruct (Nat.eqb_spec k (t + 1)); [lia|]. apply P2. lia.
        * split; [exact Li'|]. split.
          -- intros s r Hs Hr. destruct (Nat.eq_dec s t) as [->|]; [apply I2; lia|].
             pose proof (off_mono (S s) t ltac:(lia)) as OM. cbn [off] in OM. rewrite I1 by lia. apply M1; lia.
          -- intros j Hj. cbn [off] in Hj. apply I3. lia.
    - cbv zeta in E. rewrite E. cbn [bind]. destruct HX as (Lp & P1 & _ & (Li & M1 & _) & ->). eexists. split; [reflexivity|].
      assert (ON : off N <= length (g_ind g)).
      { destruct N as [|t] eqn:EN; [cbn; lia|]. pose proof (off_end t ltac:(lia)). pose proof (id_lt t ltac:(lia)). pose proof (pm (S (id t)) n ltac:(lia) ltac:(lia)). fold (p n) in Bd. lia. }
      assert (NN : N <= n). { destruct N as [|t] eqn:EN; [lia|]. pose proof (id_lt t ltac:(lia)). pose proof (id_ge t ltac:(lia)). lia. }
      assert (Q : forall k, k <= N -> nth k (firstn (N + 1) ptr) 0 = off k) by (intros k Hk; rewrite nth_firstn_lt by lia; apply P1; lia).
      assert (V : forall s r, s < N -> r < len s -> nth (off s + r) (firstn (off N) ind) 0 = nth (p (id s) + r) (g_ind g) 0).
      { intros s r Hs Hr. pose proof (off_mono (S s) N ltac:(lia)) as OM. cbn [off] in OM. rewrite nth_firstn_lt by lia. apply M1; auto. }
      split.
      + split; [reflexivity|]. split; [exact Wm|]. cbn [g_ptr g_ind]. split; [rewrite firstn_length; lia|]. split; [apply Q; lia|].
        split; [intros i Hi; rewrite !Q by lia; cbn [off]; lia|]. split; [rewrite Q, firstn_length by lia; lia|].
        intros c Hc. apply (In_nth _ _ 0) in Hc as (q & Hq & <-). rewrite firstn_length in Hq.
        assert (K : forall t, t <= N -> q < off t -> exists s r, s < t /\ r < len s /\ q = off s + r).
        { induction t as [|t IH]; intros Ht Hqt; cbn [off] in Hqt; [lia|]. destruct (Nat.lt_ge_cases q (off t)) as [G|G].
          - destruct (IH ltac:(lia) G) as (s & r & ? & ? & ?). exists s, r. repeat split; auto.
          - exists t, (q - off t). repeat split; lia. }
        destruct (K N ltac:(lia) ltac:(lia)) as (s & r & Hs & Hr & ->). rewrite V by auto. apply HI, nth_In.
        pose proof (id_lt s Hs). pose proof (pm (S (id s)) n ltac:(lia) ltac:(lia)). fold (p n) in Bd. unfold len in Hr. lia.
      + intros k Hk. unfold grow. cbn [g_ptr g_ind]. rewrite !Q by lia. cbn [off].
        pose proof (id_lt k Hk). pose proof (pm (S (id k)) n ltac:(lia) ltac:(lia)). pose proof (pS k Hk). fold (p n) in Bd. fold (p (id k)) (p (S (id k))).
        pose proof (off_mono (S k) N ltac:(lia)) as OM. cbn [off] in OM.
        unfold slice. replace (off k + len k - off k) with (len k) by lia. fold (len k).
        apply (nth_ext _ _ 0 0); [rewrite !firstn_length, !skipn_length, firstn_length; unfold len in *; lia|].
        intros r Hr. rewrite firstn_length, skipn_length, firstn_length in Hr. rewrite !nth_firstn_lt by lia. rewrite !nth_skipn. apply V; lia.
  Qed.
End Slice.
Lemma sliceColumn_ok n m g idx : wf_graph n m g -> increasing_list idx -> (forall c, In c idx -> c < m) ->
  exists g', sliceColumn g idx = Ok g' /\ wf_graph n (length idx) g' /\ forall i k, i < n -> k < length idx -> edges g' i k = edges g i (nth k idx 0).
Proof.
  intros W HS HB. unfold sliceColumn. destruct (graph_transpose_ok n m g W) as (g1 & -> & W1 & E1 & _). cbn [bind].
  destruct (sliceRow_ok m n g1 idx W1 HS HB) as (g2 & -> & W2 & E2). cbn [bind].
  destruct (graph_transpose_ok (length idx) n g2 W2) as (g3 & -> & W3 & E3 & _). exists g3. split; [reflexivity|]. split; [exact W3|].
  intros i k Hi Hk. rewrite E3 by auto. unfold edges at 1. rewrite E2 by auto. apply E1; auto. apply HB, nth_In. auto.
Qed.
