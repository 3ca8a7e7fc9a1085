(** Proofs about constructBasis. *)
From Verif Require Import Util Lin SparsitySpec CSRModel CSRSpec CSRProofs TriModel TriSpec TriProofs TriProofs2 OpsProofs DenseModel DenseSpec DenseProofs OpsProofs3.
From Verif Require Import IJModel IJSpec IJProofs H2Model H2Spec H2Proofs H2Proofs2 H2Proofs3 H2Proofs4.
Set Default Proof Using "Type".
Local Open Scope nat_scope.

(** The leaves are the nodes without children. *)
Definition is_leaf (s : hnode) : bool := match kids s with [] => true | _ => false end.
Lemma leaves_filter t : leaves t = map inf (filter is_leaf (nodes t)).
Proof.
  induction t as [n cs IH] using hnode_ind'. rewrite nodes_eq. cbn [filter]. destruct cs as [|c0 cs0]; [reflexivity|].
  change (is_leaf (HNode n (c0 :: cs0))) with false. set (l := c0 :: cs0) in *.
  change (leaves (HNode n l)) with (flat_map leaves l). clearbody l. clear c0 cs0.
  induction l as [|c l IHl]; [reflexivity|]. cbn [flat_map]. rewrite filter_app, map_app, IH by (left; auto). f_equal.
  apply IHl. intros c' Hc. apply IH. right; auto.
Qed.
Lemma leaves_in t s : In s (nodes t) -> kids s = [] -> In (inf s) (leaves t).
Proof.
  intros H Hk. rewrite leaves_filter. apply in_map, filter_In. split; auto. unfold is_leaf. rewrite Hk. auto.
Qed.
Lemma leaves_out t n : In n (leaves t) -> exists s, In s (nodes t) /\ kids s = [] /\ inf s = n.
Proof.
  rewrite leaves_filter. intros H. apply in_map_iff in H as (s & E & H). apply filter_In in H as (H & Hl).
  exists s. split; [auto|]. split; [|auto]. unfold is_leaf in Hl. destruct (kids s); [auto|discriminate].
Qed.
Lemma filter_NoDup_map {A} (f : A -> nat) p l : NoDup (map f l) -> NoDup (map f (filter p l)).
Proof.
  induction l as [|a l IH]; cbn [map filter]; intros H; [constructor|]. apply NoDup_cons_iff in H as (Hn & H).
  destruct (p a); [|auto]. cbn [map]. constructor; [|auto]. intros Hi. apply Hn. apply in_map_iff in Hi as (b & E & Hb).
  apply filter_In in Hb. apply in_map_iff. exists b. tauto.
Qed.
Lemma leaves_ids t : NoDup (map (fun s => nid (inf s)) (nodes t)) -> NoDup (map nid (leaves t)).
Proof. intros H. rewrite leaves_filter, map_map. apply filter_NoDup_map. auto. Qed.

(** The collected entries of an operator. *)
Definition collects (rows cols : nat) (B : ij) (F : mat) : Prop := exists cs,
  B = run (ij_new rows cols) cs /\ within rows cols cs /\ forall r c, collected cs r c = F r c.

Lemma collects_set rows cols B F i j v : collects rows cols B F -> i < rows -> j < cols ->
  collects rows cols (ij_setEntry B i j v) (fun r c => if (r =? i) && (c =? j) then v else F r c).
Proof.
  intros (cs & -> & Hw & Hc) Hi Hj. exists (cs ++ [SetEntry i j v]). split; [|split].
  - rewrite run_snoc. auto.
  - intros c H. apply in_app_or in H as [H|[<-|[]]]; [auto|]. cbn. auto.
  - intros r c. rewrite collected_snoc. unfold after. cbn [place fst snd]. destruct (_ && _); auto.
Qed.
Lemma collects_ext rows cols B F G : collects rows cols B F -> (forall r c, F r c = G r c) -> collects rows cols B G.
Proof. intros (cs & E & Hw & Hc) H. exists cs. split; [auto|]. split; [auto|]. intros. rewrite Hc. auto. Qed.

(** The values of a leaf as a matrix of degrees of freedom and coefficients. *)
Definition leaf_bas (n : ninfo) (c i : nat) : Qc :=
  sumf (length (ldofs n)) (fun k => if nth k (ldofs n) 0 =? c then leafval n 0 k i else 0%Qc).
Lemma bas_leaf s c i : kids s = [] -> bas 0 s c i = leaf_bas (inf s) c i.
Proof. destruct s as [n cs]. cbn [kids]. intros ->. reflexivity. Qed.

Section Basis.
  Variables (N K rows : nat).

  (** What is known of one leaf. *)
  Definition leaf_ok (n : ninfo) : Prop :=
    (forall d, In d (ldofs n) -> d < N) /\ NoDup (ldofs n) /\ length (value n) = 1 /\ ksize n = K /\
    forall V, In V (value n) -> wf_dense (length (ldofs n)) (ksize n) V.

  Lemma leaf_basis_ok n off B F : leaf_ok n -> off + K <= rows -> collects rows N B F -> (forall r c, off <= r -> F r c = 0%Qc) ->
    exists B', leaf_basis n off B = Ok B' /\
      collects rows N B' (fun r c => if (off <=? r) && (r <? off + K) then leaf_bas n c (r - off) else F r c).
  Proof.
    intros (Hd & Nd & Hv & Hk & HV) Hoff HB HF. unfold leaf_basis.
    destruct (for_list_inv (fun done (st : ij * nat) => snd st = length done /\
        collects rows N (fst st) (fun r c => if (off <=? r) && (r <? off + K)
          then sumf (length done) (fun k => if nth k (ldofs n) 0 =? c then leafval n 0 k (r - off) else 0%Qc) else F r c))
      (fun dof '(B, k) =>
        B' <- for_range 0 (ksize n) (fun i B => v <- getV n 0 k i ;; Ok (ij_setEntry B (off + i) dof v)) B ;;
        Ok (B', S k)) (ldofs n) [] (B, 0)) as ((B1 & k1) & E & E1 & H1).
    - cbn [fst snd length]. split; [auto|]. apply (collects_ext _ _ _ _ _ HB). intros r c.
      destruct (Nat.leb_spec off r); cbn [andb]; auto. destruct (r <? off + K); cbn [sumf]; auto.
    - intros p d q (B0 & k) El (Ek & H0). cbn [fst snd app] in *. subst k.
      assert (Hp : length p < length (ldofs n)) by (rewrite El, app_length; cbn [length]; lia).
      assert (Hn : nth (length p) (ldofs n) 0 = d) by (rewrite El, app_nth2, Nat.sub_diag by lia; auto).
      assert (Hdn : d < N) by (apply Hd; rewrite El; apply in_or_app; right; left; auto).
      destruct (for_range_inv (fun i (B : ij) => collects rows N B (fun r c => if (off <=? r) && (r <? off + i) && (c =? d)
            then leafval n 0 (length p) (r - off)
            else if (off <=? r) && (r <? off + K)
            then sumf (length p) (fun k => if nth k (ldofs n) 0 =? c then leafval n 0 k (r - off) else 0%Qc) else F r c))
        (fun i B => v <- getV n 0 (length p) i ;; Ok (ij_setEntry B (off + i) d v)) 0 (ksize n) B0) as (B2 & E2 & H2).
      + lia.
      + apply (collects_ext _ _ _ _ _ H0). intros r c. rewrite Nat.add_0_r.
        assert ((off <=? r) && (r <? off) = false) as -> by (destruct (Nat.leb_spec off r), (Nat.ltb_spec r off); cbn; auto; lia).
        cbn [andb]. auto.
      + intros i B3 Hi H3. rewrite (getV_ok (length (repeat 0%Qc N)) 1 0 (repeat 0%Qc N) eq_refl ltac:(lia) n (length p) i Hv HV Hp ltac:(lia)).
        cbn [bind]. eexists; split; [reflexivity|].
        apply (collects_ext _ _ _ _ _ (collects_set _ _ _ _ (off + i) d (leafval n 0 (length p) i) H3 ltac:(lia) Hdn)).
        intros r c. destruct (Nat.eqb_spec c d) as [->|]; [|rewrite !Bool.andb_false_r; auto]. rewrite !Bool.andb_true_r.
        destruct (Nat.eqb_spec r (off + i)) as [->|].
        * assert (off <=? off + i = true) as -> by (apply Nat.leb_le; lia).
          assert (off + i <? off + S i = true) as -> by (apply Nat.ltb_lt; lia). cbn [andb]. f_equal. lia.
        * assert (r <? off + S i = (r <? off + i)) as ->; [|auto].
          destruct (Nat.ltb_spec r (off + S i)), (Nat.ltb_spec r (off + i)); auto; lia.
      + rewrite E2. cbn [bind]. eexists; split; [reflexivity|]. cbn [fst snd]. rewrite app_length. cbn [length].
        split; [lia|]. apply (collects_ext _ _ _ _ _ H2). intros r c. rewrite Hk.
        destruct ((off <=? r) && (r <? off + K)); cbn [andb]; auto.
        rewrite Nat.add_1_r. cbn [sumf]. rewrite Hn. rewrite (Nat.eqb_sym d c). destruct (Nat.eqb_spec c d) as [->|]; [|ring].
        rewrite sumf_zero; [ring|]. intros k Hk2. destruct (Nat.eqb_spec (nth k (ldofs n) 0) d) as [Ed|]; auto.
        exfalso. rewrite <- Hn in Ed. apply (NoDup_nth (ldofs n) 0) in Ed; auto; lia.
    - cbn [app fst snd] in *. rewrite E. cbn [bind]. exists B1. split; auto.
  Qed.

  (** All leaves: leaf number [j] has the rows from j K. *)
  Definition upto (ls : list ninfo) (F : mat) : Prop :=
    (forall j i c, j < length ls -> i < K -> F (j * K + i) c = leaf_bas (nth j ls (NI 0 0 None [] [])) c i) /\
    (forall r c, length ls * K <= r -> F r c = 0%Qc).
  Definition views_of (ls : list ninfo) : list (nat * nat * nat) :=
    tab (length ls) (fun j => (nid (nth j ls (NI 0 0 None [] [])), j * K, K)).

  Lemma views_snoc ls n : ksize n = K -> views_of (ls ++ [n]) = views_of ls ++ [(nid n, length ls * K, ksize n)].
  Proof.
    intros Hk. unfold views_of, tab. rewrite app_length. cbn [length]. rewrite Nat.add_1_r, seq_S, map_app. cbn [map].
    f_equal.
    - apply map_ext_in. intros j Hj. apply in_seq in Hj. rewrite app_nth1 by lia. auto.
    - cbn [Nat.add]. rewrite app_nth2, Nat.sub_diag by lia. cbn [nth]. rewrite Hk. auto.
  Qed.

  Lemma basis_ok t : (forall n, In n (leaves t) -> leaf_ok n) -> forall done B F,
    (length done + length (leaves t)) * K <= rows -> collects rows N B F -> upto done F ->
    exists B' F', constructBasisMatrix t (B, views_of done, length done * K)
        = Ok (B', views_of (done ++ leaves t), length (done ++ leaves t) * K) /\
      collects rows N B' F' /\ upto (done ++ leaves t) F'.
  Proof.
    induction t as [n cs IH] using hnode_ind'. intros Hl done B F Hr HB (HF1 & HF2). destruct cs as [|c0 cs0].
    - cbn [leaves constructBasisMatrix] in *. assert (Ln : leaf_ok n) by (apply Hl; left; auto). cbn [length] in Hr.
      destruct (leaf_basis_ok n (length done * K) B F Ln) as (B' & E & H); [lia|auto|auto|]. rewrite E. cbn [bind].
      assert (Hk : ksize n = K) by apply Ln.
      exists B'. eexists. split; [|split; [exact H|]].
      + rewrite views_snoc by auto. replace (length (done ++ [n]) * K) with (length done * K + ksize n); [reflexivity|]. rewrite app_length, Hk. cbn [length]. lia.
      + split.
        * intros j i c Hj Hi. rewrite app_length in Hj. cbn [length] in Hj.
          destruct (Nat.eq_dec j (length done)) as [->|].
          -- assert (length done * K <=? length done * K + i = true) as -> by (apply Nat.leb_le; lia).
             assert (length done * K + i <? length done * K + K = true) as -> by (apply Nat.ltb_lt; lia). cbn [andb].
             rewrite app_nth2, Nat.sub_diag by lia. cbn [nth]. f_equal. lia.
          -- assert (length done * K <=? j * K + i = false) as ->.
             { apply Nat.leb_gt. assert (S j * K <= length done * K) by (apply Nat.mul_le_mono_r; lia). cbn in H0. lia. }
             cbn [andb]. rewrite app_nth1 by lia. apply HF1; auto; lia.
        * intros r c Hrr. rewrite app_length in Hrr. cbn [length] in Hrr.
          assert (r <? length done * K + K = false) as -> by (apply Nat.ltb_ge; lia). rewrite Bool.andb_false_r. apply HF2. lia.
    - change (constructBasisMatrix (HNode n (c0 :: cs0))) with (for_each constructBasisMatrix (c0 :: cs0)).
      change (leaves (HNode n (c0 :: cs0))) with (flat_map leaves (c0 :: cs0)) in *. set (l := c0 :: cs0) in *. clearbody l. clear c0 cs0.
      revert done B F Hr HB HF1 HF2. induction l as [|c l IHl]; intros done B F Hr HB HF1 HF2; cbn [flat_map for_each].
      + rewrite app_nil_r. exists B, F. split; [auto|]. split; [auto|]. split; auto.
      + cbn [flat_map] in Hl, Hr. rewrite app_length in Hr.
        destruct (IH c (or_introl eq_refl) ltac:(intros; apply Hl; apply in_or_app; auto) done B F) as (B1 & F1 & E1 & H1 & U1 & U2); auto.
        { assert ((length done + length (leaves c)) * K <= (length done + (length (leaves c) + length (flat_map leaves l))) * K) by (apply Nat.mul_le_mono_r; lia). lia. }
        { split; auto. }
        rewrite E1. cbn [bind]. destruct (IHl (fun c' Hc => IH c' (or_intror Hc)) ltac:(intros; apply Hl; apply in_or_app; auto) (done ++ leaves c) B1 F1) as (B2 & F2 & E2 & H2 & U3); auto.
        { rewrite app_length. lia. }
        exists B2, F2. rewrite app_assoc. auto.
  Qed.
End Basis.

(** Views of the shared array. *)
Lemma share_out views leaf up k : ~ In k (map (fun v => fst (fst v)) views) -> share views leaf up k = up k.
Proof.
  unfold share. revert up. induction views as [|((a & b) & c) l IH]; intros up H; cbn [fold_left]; [auto|].
  rewrite IH by (intros Hi; apply H; right; auto). apply hset_other. intros ->. apply H. left. auto.
Qed.
Lemma share_in views leaf up k off sz : NoDup (map (fun v => fst (fst v)) views) -> In (k, off, sz) views ->
  share views leaf up k = firstn sz (skipn off leaf).
Proof.
  unfold share. revert up. induction views as [|((a & b) & c) l IH]; intros up Nd H; cbn [fold_left map fst] in *; [destruct H|].
  apply NoDup_cons_iff in Nd as (Nn & Nd). destruct H as [E|H].
  - injection E as -> -> ->. change (share l leaf (hset up k (firstn sz (skipn off leaf))) k = firstn sz (skipn off leaf)).
    rewrite share_out by auto. apply hset_same.
  - apply IH; auto.
Qed.

Lemma tab_slice {A} n (f : nat -> A) off sz : off + sz <= n -> firstn sz (skipn off (tab n f)) = tab sz (fun i => f (off + i)).
Proof.
  intros H. unfold tab. rewrite skipn_map, firstn_map.
  replace n with (off + (sz + (n - off - sz))) by lia. rewrite !seq_app.
  rewrite skipn_app, seq_length, Nat.sub_diag. rewrite skipn_all2 by (rewrite seq_length; lia). cbn [app skipn].
  rewrite firstn_app, seq_length, Nat.sub_diag. cbn [firstn]. rewrite app_nil_r, firstn_all2 by (rewrite seq_length; lia).
  cbn [Nat.add]. rewrite <- (map_map (fun i => off + i) f). f_equal. 
  clear. revert off. induction sz as [|sz IH]; intros off; cbn [seq map]; [auto|]. f_equal; [lia|].
  rewrite IH. rewrite <- seq_shift, map_map. apply map_ext. intros; lia.
Qed.

(** * Products after constructBasis *)
Lemma first_leaf_in t : In (first_leaf t) (leaves t).
Proof.
  induction t as [n cs IH] using hnode_ind'. destruct cs as [|c l]; cbn [first_leaf leaves]; [left; auto|].
  apply in_flat_map. exists c. split; [left; auto|]. apply IH. left; auto.
Qed.

Section After.
  Variables (N K : nat) (M : h2).
  Hypothesis (W : wf_h2 N M) (Hone : components M = 1) (HK : forall s, In s (nodes (tree M)) -> ksize (inf s) = K)
    (Nd : forall s, In s (nodes (tree M)) -> kids s = [] -> NoDup (ldofs (inf s)))
    (Hkids : kids (tree M) <> []) (Hrows : int32 (length (leaves (tree M)) * K)) (Hcols : int32 N).
  Let rows := length (leaves (tree M)) * K.

  Lemma basis_made w : exists B, constructBasis M w
      = Ok (H2 (tree M) (Pfar M) (Anear M) (Some (B, views_of K (leaves (tree M)))), Work (w_up w) (w_down w) (alloc rows)) /\
    wf_csr rows N B /\
    forall j i c, j < length (leaves (tree M)) -> i < K -> c < N -> matrix B (j * K + i) c = leaf_bas (nth j (leaves (tree M)) (NI 0 0 None [] [])) c i.
  Proof using W Hone HK Nd Hkids Hrows Hcols.
    unfold constructBasis. destruct (kids (tree M)) as [|c l] eqn:Ek; [congruence|].
    destruct (sh_transfer _ _ _ (wf_shape N M W) (tree M) c (node_self _) ltac:(rewrite Ek; left; auto)) as (T & ET & WT).
    unfold getT. rewrite ET. cbn [bind].
    assert (d_n T = K) as -> by (destruct WT as (-> & _); apply HK, node_self).
    assert (c_ncols (Anear M) = N) as -> by apply (wf_near N M W).
    fold rows.
    destruct (basis_ok N K rows (tree M)) with (done := @nil ninfo) (B := ij_new rows N) (F := (fun _ _ => 0%Qc) : mat) as (B & F & E & (cs & -> & Hw & Hc) & U1 & U2).
    - intros n Hn. destruct (leaves_out _ _ Hn) as (s & Hs & Hks & <-).
      destruct (sh_leaf _ _ _ (wf_shape N M W) s Hs Hks) as (A1 & A2 & A3). rewrite Hone in A2. repeat split; auto; apply A3; auto.
    - cbn [length]. unfold rows. lia.
    - exists []. split; [auto|]. split; [intros ? []|]. auto.
    - split; [intros j i c0 Hj; cbn in Hj; lia|auto].
    - cbn [app length] in *. change (views_of K []) with (@nil (nat * nat * nat)) in E. cbn [Nat.mul] in E. rewrite E. cbn [bind].
      destruct (to_csr_thm rows N Hrows Hcols cs Hw) as (A & EA & WA & _ & HA & _). rewrite EA. cbn [bind].
      exists A. split; [auto|]. split; [auto|]. intros j i c0 Hj Hi Hc0. rewrite HA, Hc by (auto; unfold rows; nia). apply U1; auto.
  Qed.

  Lemma after_basis B x w : wf_csr rows N B ->
    (forall j i c, j < length (leaves (tree M)) -> i < K -> c < N -> matrix B (j * K + i) c = leaf_bas (nth j (leaves (tree M)) (NI 0 0 None [] [])) c i) ->
    let M' := H2 (tree M) (Pfar M) (Anear M) (Some (B, views_of K (leaves (tree M)))) in
    length x = N -> ready M' w ->
    (forall y, length y = N -> exists w', h2_matvec M' x y w = Ok (map Some (tab N (mv N (h2mat M) (vat x))), w') /\ ready M' w') /\
    (forall y, length y = N -> exists w', h2_matvec_no_overwrite M' x (map Some y) w
      = Ok (map Some (tab N (fun i => vat y i + mv N (h2mat M) (vat x) i)%Qc), w') /\ ready M' w').
  Proof using W Hone HK.
    intros WB HB M' Hx (Su & Sd & Sl). cbn [basis M'] in Sl.
    assert (Hr : c_nrows B = rows) by (destruct WB as (_ & Hl & _); unfold c_nrows; lia).
    assert (W' : wf_h2 N M') by (destruct W as [W1 W2 W3]; split; auto).
    set (lf := map Some (tab rows (mv N (matrix B) (vat x)))).
    set (w0 := Work (share (views_of K (leaves (tree M))) lf (w_up w)) (w_down w) lf).
    assert (E0 : leaf_step M' false x w = Ok w0).
    { unfold leaf_step. cbn [basis M']. rewrite (proj1 (csr_kernels_ok rows N B false x WB Hx)) by lia. auto. }
    assert (Nv : NoDup (map (fun v => fst (fst v)) (views_of K (leaves (tree M))))).
    { unfold views_of, tab. rewrite map_map. cbn [fst].
      rewrite <- (map_map (fun j => nth j (leaves (tree M)) (NI 0 0 None [] [])) nid).
      change (map (fun j => nth j (leaves (tree M)) (NI 0 0 None [] [])) (seq 0 (length (leaves (tree M)))))
        with (tab (length (leaves (tree M))) (fun j => nth j (leaves (tree M)) (NI 0 0 None [] []))).
      rewrite <- list_eq_tab. apply leaves_ids, (sh_ids _ _ _ (wf_shape N M W)). }
    assert (HL : forall s, In s (nodes (tree M)) -> kids s = [] -> up_right N 0 x (w_up w0) s).
    { intros s Hs Hks. unfold up_right. cbn [w_up w0]. pose proof (leaves_in _ _ Hs Hks) as Hin.
      apply (In_nth _ _ (NI 0 0 None [] [])) in Hin as (j & Hj & Ej).
      rewrite (share_in _ lf (w_up w) (nid (inf s)) (j * K) K Nv).
      - unfold lf. rewrite skipn_map, firstn_map, tab_slice; [|unfold rows; nia]. rewrite (HK s Hs). f_equal. apply tab_ext. intros i Hi.
        unfold mv, upval. apply sumf_ext. intros c Hc. rewrite HB, Ej, bas_leaf by auto. auto.
      - unfold views_of, tab. apply in_map_iff. exists j. split; [rewrite Ej; auto|]. apply in_seq. lia. }
    assert (S0 : sizedw M' w0).
    { split; [|auto]. intros s Hs. destruct (in_dec Nat.eq_dec (nid (inf s)) (map (fun v => fst (fst v)) (views_of K (leaves (tree M))))) as [Hi|Hn].
      - apply in_map_iff in Hi as (((a & b) & c) & Ea & Hi). cbn [fst] in Ea. subst a. cbn [w_up w0].
        rewrite (share_in _ lf (w_up w) (nid (inf s)) b c Nv Hi).
        unfold views_of, tab in Hi. apply in_map_iff in Hi as (j & Ej & Hj). injection Ej as _ <- <-. apply in_seq in Hj.
        unfold lf. rewrite firstn_length, skipn_length, map_length, tab_length. cbn [tree M'] in Hs. rewrite (HK s Hs). unfold rows. nia.
      - cbn [w_up w0]. rewrite share_out by auto. apply Su. auto. }
    destruct (matvec_core N M' x W' Hx w w0 (conj Su Sd) S0 false) as (H1 & H2).
    - split; [|intros; discriminate]. intros s c Hs Hc. cbn [tree M'] in Hs. rewrite (HK s Hs), (HK c); [auto|].
      apply (nodes_trans _ s); auto. apply (node_kid s c c Hc). apply node_self.
    - exact E0.
    - intros _. change (components M') with (components M). rewrite Hone. split; [auto|]. exact HL.
    - assert (Hl0 : length (w_leaf w0) = c_nrows B) by (cbn [w_leaf w0]; unfold lf; rewrite map_length, tab_length; auto).
      assert (R : forall w', sizedw M' w' -> w_leaf w' = w_leaf w \/ w_leaf w' = w_leaf w0 -> ready M' w').
      { intros w' (S1 & S2) [El|El]; (split; [auto|]; split; [auto|]; cbn [basis M']; rewrite El; auto). }
      split; intros y Hy; [destruct (H1 y Hy) as (w' & E & S' & L')|destruct (H2 y Hy) as (w' & E & S' & L')]; exists w'; split; auto.
  Qed.
End After.

Lemma constructBasis_thm : forall N K M w, wf_h2 N M -> components M = 1 -> (forall s, In s (nodes (tree M)) -> ksize (inf s) = K) ->
  (forall s, In s (nodes (tree M)) -> kids s = [] -> NoDup (ldofs (inf s))) -> kids (tree M) <> [] ->
  int32 (length (leaves (tree M)) * K) -> int32 N -> ready M w ->
  exists M' w', constructBasis M w = Ok (M', w') /\ ready M' w' /\ forall x w, length x = N -> ready M' w ->
    (forall y, length y = N -> exists w', h2_matvec M' x y w = Ok (map Some (tab N (mv N (h2mat M) (vat x))), w') /\ ready M' w') /\
    (forall y, length y = N -> exists w', h2_matvec_no_overwrite M' x (map Some y) w
      = Ok (map Some (tab N (fun i => vat y i + mv N (h2mat M) (vat x) i)%Qc), w') /\ ready M' w').
Proof.
  intros N K M w W Hone HK Nd Hkids Hrows Hcols (Su & Sd & _).
  destruct (basis_made N K M W Hone HK Nd Hkids Hrows Hcols w) as (B & E & WB & HB).
  exists (H2 (tree M) (Pfar M) (Anear M) (Some (B, views_of K (leaves (tree M))))), (Work (w_up w) (w_down w) (alloc (length (leaves (tree M)) * K))).
  split; [exact E|]. split.
  - split; [auto|]. split; [auto|]. cbn [basis w_leaf]. unfold alloc. rewrite repeat_length. destruct WB as (_ & Hl & _). unfold c_nrows. lia.
  - intros x w1 Hx Hr. apply (after_basis N K M W Hone HK B x w1 WB HB Hx Hr).
Qed.
