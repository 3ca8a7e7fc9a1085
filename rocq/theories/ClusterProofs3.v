(** Proofs about failures of the refinement, trees with given blocks, and the
    queries on a tree. *)
From Coq Require Import Sorting.Permutation Sorting.Sorted Lqa.
From Verif Require Import Util Lin MeshGeom ClusterModel ClusterSpec ClusterProofs ClusterProofs2.
Local Open Scope nat_scope.
Set Default Proof Using "Type".

(** ** Failures *)
Lemma hmin_fold D r : forall h, let m := fold_left (fun h i => qmin h (hVector D i)) r h in
  (m <= h)%Qc /\ (forall i, In i r -> (m <= hVector D i)%Qc) /\ (m = h \/ exists i, In i r /\ m = hVector D i).
Proof.
  induction r as [|j r IH]; intros h; cbn [fold_left].
  - split; [apply Qcle_refl|]. split; [intros i []|auto].
  - destruct (IH (qmin h (hVector D j))) as (A & B & C). cbv zeta. split; [eapply Qcle_trans; [exact A|apply qmin_le_l]|]. split.
    + intros i [<-|Hi]; auto. eapply Qcle_trans; [exact A|apply qmin_le_r].
    + destruct C as [->|(i & Hi & ->)]; [|right; exists i; cbn; auto].
      destruct (qmin_cases h (hVector D j)) as [->| ->]; auto. right. exists j. cbn; auto.
Qed.
Lemma hmin_sub D s dofs : s <> [] -> incl s dofs -> (init_hmin D dofs <= init_hmin D s)%Qc.
Proof.
  intros Hs Hi. destruct s as [|i s]; [congruence|]. destruct dofs as [|j r]; [destruct (Hi i); cbn; auto|].
  cbn [init_hmin]. destruct (hmin_fold D r (hVector D j)) as (A & B & _). destruct (hmin_fold D s (hVector D i)) as (_ & _ & C).
  assert (G : forall k, In k (j :: r) -> (fold_left (fun h i => qmin h (hVector D i)) r (hVector D j) <= hVector D k)%Qc).
  { intros k [<-|Hk]; auto. }
  destruct C as [->|(k & Hk & ->)]; apply G, Hi; cbn; auto.
Qed.

Section Failures.
  Variables (D : data) (P : refinementParams) (R : Z) (x : info) (dofs : list nat).
  Hypothesis Hord : order_decreases D.
  Hypothesis Hm : 1 <= minSize P.
  Hypothesis Hx : order x = orderOf D (init_hmin D dofs).

  Lemma new_node_total s mx can : s <> [] -> incl s dofs -> exists c, new_node D x s mx can = Ok c.
  Proof using Hord Hx.
    intros Hs Hi. unfold new_node. pose proof (Hord _ _ (hmin_sub D s dofs Hs Hi)) as H. rewrite <- Hx in H.
    apply Nat.leb_le in H. rewrite H, orb_true_r. cbn [guard bind]. eauto.
  Qed.
  Lemma append_child_err b ch k s e : enough P (length dofs) s = true -> incl s dofs -> append_child D b R x ch k s = Err e ->
    e = EIndex /\ length ch < k.
  Proof using Hord Hm Hx.
    intros He Hi. unfold append_child. apply enough_true in He.
    destruct (new_node_total s (mixed x) true) as (c & ->); [intros ->; cbn in He; lia|auto|]. cbn [bind]. unfold set_child_id.
    destruct (nth_error (ch ++ [(c, s)]) k) as [[c0 s0]|] eqn:En; [discriminate|]. intros E. inversion E. split; auto.
    apply nth_error_None in En. rewrite app_length in En. cbn in En. lia.
  Qed.
  Lemma two_children_total s0 s1 : incl s0 dofs -> incl s1 dofs -> exists r, two_children D P R x (length dofs) s0 s1 = Ok r.
  Proof using Hord Hm Hx.
    intros I0 I1. unfold two_children. destruct (enough _ _ s0) eqn:E0; eauto.
    destruct (append_child D 2 R x [] 0 s0) as [c0|e] eqn:A0; cbn [bind]; [|apply append_child_err in A0 as [_ A0]; auto; cbn in A0; lia].
    destruct (enough _ _ s1) eqn:E1; eauto.
    destruct (append_child D 2 R x c0 1 s1) as [c1|e] eqn:A1; cbn [bind]; eauto.
    apply append_child_err in A1 as [_ A1]; auto. exfalso. revert A0. unfold append_child.
    destruct (new_node _ _ _ _ _) as [c|]; cbn [bind]; [|discriminate]. cbn. intros E. inversion E; subst. cbn in A1. lia.
  Qed.
  Lemma quad_step_err k s st e : incl s dofs -> quad_step D P R x (length dofs) (k, s) st = Err e -> e = EIndex.
  Proof using Hord Hm Hx.
    intros Hi. unfold quad_step. destruct st as [ch|]; [|discriminate]. cbn [fst snd]. destruct (enough _ _ s) eqn:E0.
    - destruct (append_child _ _ _ _ _ _ _) eqn:A0; cbn [bind]; [discriminate|]. intros E. inversion E; subst. apply append_child_err in A0 as [-> _]; auto.
    - destruct (length s =? 0); discriminate.
  Qed.
  Lemma quad_loop_err l : forall st e, (forall ks, In ks l -> incl (snd ks) dofs) ->
    for_list l (quad_step D P R x (length dofs)) st = Err e -> e = EIndex.
  Proof using Hord Hm Hx.
    induction l as [|[k s] l IH]; intros st e Hl; cbn [for_list]; [discriminate|].
    destruct (quad_step _ _ _ _ _ _ _) as [st'|e'] eqn:E1; cbn [bind].
    - apply IH. intros ks H. apply Hl. cbn; auto.
    - intros E. inversion E; subst. eapply quad_step_err; [|exact E1]. apply (Hl (k, s)). cbn; auto.
  Qed.
  Lemma incl_filter' (f : nat -> bool) s : incl s dofs -> incl (filter f s) dofs.
  Proof. intros H i Hi. apply filter_In in Hi as [Hi _]. auto. Qed.
  Lemma median_half_err p blob st e : incl blob dofs -> median_half D P R x (length dofs) p blob st = Err e -> e = EIndex.
  Proof using Hord Hm Hx.
    intros Hi. unfold median_half. set (m1 := median _ _). destruct (quad_step _ _ _ _ _ _ _) as [[ch|]|e'] eqn:E0; cbn [bind]; [|discriminate|].
    - set (s1 := filter _ blob). destruct (enough _ _ s1) eqn:E1; [|discriminate].
      destruct (append_child _ _ _ _ _ _ _) eqn:A1; cbn [bind]; [discriminate|]. intros E. inversion E; subst.
      apply append_child_err in A1 as [-> _]; auto. apply incl_filter'; auto.
    - intros E. inversion E; subst. eapply quad_step_err; [|exact E0]. apply incl_filter'; auto.
  Qed.

  Lemma quadrants_err e : quadrants D P R x dofs = Err e -> e = EIndex.
  Proof using Hord Hm Hx.
    unfold quadrants. destruct (match refType P with GEOMETRIC => _ | _ => _ end) as [a b]. apply quad_loop_err.
    intros ks H. apply in_map_iff in H as (k & <- & _). apply incl_filter', incl_refl.
  Qed.

  Lemma refine_err e : refine D P R x dofs = Err e -> increasing dofs ->
    e = EIndex /\ length (nbox x) = 2 /\ mixed x = false /\ splitEveryDim P = true.
  Proof using Hord Hm Hx.
    unfold refine. cbv zeta. destruct (if mixed x then _ else _); [discriminate|]. intros E Hi. revert E.
    pose proof (incl_refl dofs) as Hr.
    assert (Fin : forall ch : list part, Permutation dofs (flat_map snd ch) ->
      (if length ch <=? 1 then Ok [] else
         let nD := fold_left Nat.add (map (fun c => length (snd c)) ch) 0 in
         _ <- guard ((nD =? 0) || (nD =? length dofs)) EAssert ;; _ <- guard (nD =? length dofs) EAssert ;; Ok ch) <> Err e).
    { intros ch Hp. destruct (length ch <=? 1); [discriminate|]. cbv zeta.
      replace (fold_left _ _ 0) with (length dofs).
      - rewrite Nat.eqb_refl, orb_true_r. cbn. discriminate.
      - rewrite (Permutation_length Hp), fold_add. cbn [plus]. clear. induction ch as [|c ch IH]; auto.
        cbn [flat_map map]. rewrite app_length, IH. reflexivity. }
    destruct (Nat.eqb_spec (length (nbox x)) 1) as [Hd|Hd].
    - destruct (split1 D P x dofs) as [s0 s1] eqn:Ep. unfold split1 in Ep. inversion Ep; subst s0 s1.
      match goal with |- context [two_children D P R x (length dofs) (filter ?f dofs) (filter ?g dofs)] =>
        destruct (two_children_total _ _ (incl_filter' f dofs Hr) (incl_filter' g dofs Hr)) as (r & Er) end.
      rewrite Er. cbn [bind]. destruct r as [ch|]; [|discriminate]. intros E. exfalso. apply (Fin ch); auto.
      apply two_children_ok in Er as (_ & _ & ->); try (apply filter_inc; auto). apply filter_split. auto.
    - destruct ((length (nbox x) =? 2) && _) eqn:Eq.
      + apply andb_true_iff in Eq as [Q1 Q2]. apply andb_true_iff in Q2 as [Q2 Q3]. apply Nat.eqb_eq in Q1. apply negb_true_iff in Q2.
        intros E. split; auto. revert E. set (act := match refType P with MEDIAN => _ | _ => _ end).
        assert (Ha : (forall e, act = Err e -> e = EIndex) /\ (forall ch, act = Ok (Some ch) -> Permutation dofs (flat_map snd ch))).
        { pose proof quadrants_err as H1.
          assert (H2 : forall ch, quadrants D P R x dofs = Ok (Some ch) -> Permutation dofs (flat_map snd ch)) by (intros ch E; apply quadrants_ok in E; tauto).
          unfold act. destruct (refType P); auto. split; [|intros ch E; apply medians_ok in E; tauto].
          intros e'. unfold medians. set (m0 := median _ _). destruct (median_half D P R x (length dofs) 0 _ _) as [st|e2] eqn:E0; cbn [bind].
          - apply median_half_err. apply incl_filter'; auto.
          - intros E. inversion E; subst. eapply median_half_err; [|exact E0]. apply incl_filter'; auto. }
        destruct act as [[ch|]|e'] eqn:Ea; cbn [bind]; [|discriminate|].
        * intros E. exfalso. apply (Fin ch); auto. apply Ha; auto.
        * intros E. inversion E; subst. apply Ha; auto.
      + destruct (split_longest D P x dofs) as [s0 s1] eqn:Ep. unfold split_longest in Ep. inversion Ep; subst s0 s1.
        match goal with |- context [two_children D P R x (length dofs) (filter ?f dofs) (filter ?g dofs)] =>
        destruct (two_children_total _ _ (incl_filter' f dofs Hr) (incl_filter' g dofs Hr)) as (r & Er) end.
        rewrite Er. cbn [bind]. destruct r as [ch|]; [|discriminate]. intros E. exfalso. apply (Fin ch); auto.
        apply two_children_ok in Er as (_ & _ & ->); try (apply filter_inc; auto). apply filter_split. auto.
  Qed.
End Failures.

Lemma refine_tree_err D P d : order_decreases D -> 1 <= minSize P -> proper_boxes D d -> forall fuel R x dofs e, increasing dofs ->
  length (nbox x) = d -> order x = orderOf D (init_hmin D dofs) -> length dofs < fuel -> refine_tree fuel D P R x dofs = Err e ->
  e = EIndex /\ d = 2 /\ mixed x = false /\ splitEveryDim P = true.
Proof.
  intros Ho Hm HD. induction fuel as [|fuel IH]; intros R x dofs e Hi Hd Hx Hf; [lia|]. cbn [refine_tree].
  destruct (refine D P R x dofs) as [ch|e'] eqn:Er; cbn [bind].
  - destruct ch as [|c0 ch0]; [discriminate|]. set (R' := if levelNo x =? 0 then Z.of_nat (length (c0 :: ch0)) else R).
    destruct (mapM (fun c => refine_tree fuel D P R' (fst c) (snd c)) (c0 :: ch0)) as [ts|e'] eqn:Em; cbn [bind]; [discriminate|]. intros E. inversion E; subst e'.
    apply mapM_err in Em as (c & Hc & Ec). destruct (refine_ok _ _ _ _ _ _ Hi Er) as (_ & _ & M & _); [discriminate|].
    destruct (made_of_in _ _ _ _ _ _ _ _ M Hc) as (k & Mk). destruct (made_fan _ _ _ _ _ _ _ _ d HD Hm Hd Mk) as (_ & Ed).
    destruct Mk as (M1 & M2 & M3 & M4 & M5 & M6 & M7 & M8 & M9). rewrite <- M3. apply (IH R' (fst c) (snd c) e); auto. lia.
  - intros E. inversion E; subst e'. destruct (refine_err D P R x dofs Ho Hm Hx e Er Hi) as (E1 & E2 & E3 & E4). rewrite <- Hd. auto.
Qed.

(** ** Trees with given blocks *)
Lemma block_children_ok D root can : forall bl k ch, block_children D root can k bl = Ok ch ->
  map snd ch = map fst bl /\ forall j c, nth_error ch j = Some c -> exists s mx, nth_error bl j = Some (s, mx) /\ snd c = s /\
    id (fst c) = (Z.of_nat (k + j) + 1)%Z /\ levelNo (fst c) = S (levelNo root) /\ mixed (fst c) = mx /\ canBeAssembled (fst c) = can /\
    nbox (fst c) = init_box D s /\ order (fst c) = orderOf D (init_hmin D s).
Proof.
  induction bl as [|[s mx] bl IH]; intros k ch; cbn [block_children].
  - intros E. inversion E; subst. split; auto. intros [|j] c; discriminate.
  - destruct (new_node D root s mx can) as [c|e] eqn:Ec; cbn [bind]; [|discriminate].
    destruct (block_children D root can (S k) bl) as [cs|e] eqn:Eb; cbn [bind]; [|discriminate]. intros E. inversion E; subst ch.
    destruct (IH _ _ Eb) as (E1 & E2). split; [cbn [map fst snd]; f_equal; auto|]. intros [|j] c1 Hj; cbn in Hj.
    + inversion Hj; subst c1. exists s, mx. apply new_node_ok in Ec as (N1 & N2 & N3 & N4 & N5 & N6).
      cbn [fst snd with_id id levelNo mixed canBeAssembled nbox order nth_error]. rewrite Nat.add_0_r. repeat (split; [auto|]). auto.
    + destruct (E2 j c1 Hj) as (s' & mx' & B1 & B2 & B3 & B4). exists s', mx'. cbn [nth_error]. split; auto. split; auto. split; auto.
      rewrite B3. do 2 f_equal. lia.
Qed.

Lemma block_tree_S D P fuel dofs mx can bl t : block_tree fuel D P dofs mx can bl = Ok t ->
  exists ch, block_children D (root_info D mx dofs) can 0 bl = Ok ch /\ length (flat_map fst bl) = length dofs /\
   ((ch = [] /\ t = Tree (root_info D mx dofs) dofs []) \/
    (ch <> [] /\ exists ts, t = Tree (root_info D mx dofs) [] ts /\
        Forall2 (fun c t => refine_tree fuel D P (Z.of_nat (length bl)) (fst c) (snd c) = Ok t) ch ts)).
Proof.
  unfold block_tree. destruct (block_children _ _ _ _ _) as [ch|e] eqn:Eb; cbn [bind]; [|discriminate].
  destruct (_ =? length dofs) eqn:En; cbn [guard bind]; [|discriminate]. apply Nat.eqb_eq in En. intros E. exists ch. split; auto. split.
  - rewrite <- En, fold_add. cbn [plus]. destruct (block_children_ok _ _ _ _ _ _ Eb) as (E1 & _).
    rewrite <- map_map, E1, flat_map_concat_map. clear. induction bl as [|b bl IH]; auto. cbn [map concat list_sum fold_right].
    rewrite app_length, IH. reflexivity.
  - destruct ch as [|c ch]; [inversion E; auto|]. right. split; [congruence|].
    destruct (mapM (fun c => refine_tree fuel D P (Z.of_nat (length bl)) (fst c) (snd c)) (c :: ch)) as [ts|e] eqn:Em; cbn [bind] in E; [|discriminate]. inversion E; subst. exists ts. split; auto.
    apply (mapM_ok (fun c => refine_tree fuel D P (Z.of_nat (length bl)) (fst c) (snd c))). exact Em.
Qed.

(** The blocks are increasing, nonempty, and partition the degrees of freedom. *)
Lemma block_tree_ok D P d fuel dofs mx can bl t : proper_boxes D d -> 1 <= minSize P -> increasing dofs -> good_blocks dofs bl ->
  block_tree fuel D P dofs mx can bl = Ok t -> get_dofs t = dofs /\ partitioned t /\ boxed D d t /\
    map get_dofs (children t) = map fst bl.
Proof.
  intros HD Hm Hi (Hn & Hp & Hb) E. apply block_tree_S in E as (ch & Eb & _ & E). destruct (block_children_ok _ _ _ _ _ _ Eb) as (E1 & E2).
  destruct E as [(-> & ->)|(Hch & ts & -> & F)].
  { destruct bl; [congruence|discriminate]. }
  assert (G : Forall2 (fun c t => get_dofs t = snd c /\ partitioned t /\ boxed D d t) ch ts).
  { eapply Forall2_imp2; [exact F|]. cbn beta. intros c t Hc E. apply In_nth_error in Hc as (k & Hk).
    destruct (E2 k c Hk) as (s & m & B1 & B2 & B3 & B4 & B5 & B6 & B7 & B8). apply nth_error_In in B1.
    destruct (Hb _ B1) as (I1 & I2). cbn [fst] in I1, I2. rewrite B2 in E.
    destruct (refine_tree_ok D P _ _ _ _ _ I1 E) as (_ & R2 & R3 & _). rewrite B2. split; auto. split; auto.
    eapply refine_tree_boxed; [exact HD|exact Hm|exact I1|exact I2| |exact E]. rewrite B7. apply init_box_hull; auto. }
  assert (Em : map get_dofs ts = map fst bl).
  { rewrite <- E1. clear - G. induction G as [|c t l r (H & _) _ IH]; cbn [map]; auto. rewrite H, IH. reflexivity. }
  assert (Ef : flat_map get_dofs ts = flat_map fst bl) by (rewrite !flat_map_concat_map, Em; auto).
  assert (Hts : ts <> []) by (intros ->; apply F2_nil in F; auto).
  assert (Hpt : Forall partitioned ts).
  { apply Forall_forall. intros t Ht. destruct (Forall2_in_r _ _ _ _ G Ht) as (c & _ & H). apply H. }
  assert (Ed : get_dofs (Tree (root_info D mx dofs) [] ts) = dofs).
  { apply get_dofs_split; auto; [|rewrite Ef; auto]. apply Forall_forall. intros t Ht. rewrite Forall_forall in Hpt. apply (Hpt t Ht t (sub_refl t)). }
  split; auto. split; [|split; auto].
  - apply partitioned_node; auto. rewrite Ef. eapply Permutation_NoDup; [exact Hp|]. apply inc_nodup; auto.
  - intros s Hs. apply subtree_inv in Hs as [->|(t & Ht & Hs)].
    + rewrite Ed. assert (dofs <> []).
      { intros ->. destruct bl as [|b bl]; [congruence|]. destruct (Hb b (or_introl eq_refl)) as (_ & I2).
        apply Permutation_nil in Hp. cbn [flat_map] in Hp. apply app_eq_nil in Hp as [Hp _]. auto. }
      split; auto. apply init_box_hull; auto.
    + cbn [children] in Ht. destruct (Forall2_in_r _ _ _ _ G Ht) as (c & _ & _ & _ & H). apply H; auto.
Qed.

Lemma block_tree_ids D P d fuel dofs mx can bl t : proper_boxes D d -> 1 <= minSize P -> increasing dofs -> good_blocks dofs bl ->
  (splitEveryDim P = false \/ d <> 2 \/ exists m, forall b, In b bl -> snd b = m) ->
  block_tree fuel D P dofs mx can bl = Ok t -> NoDup (ids t).
Proof.
  intros HD Hm Hi (Hn & Hp & Hb) Hu E. apply block_tree_S in E as (ch & Eb & _ & E). destruct (block_children_ok _ _ _ _ _ _ Eb) as (E1 & E2).
  destruct E as [(-> & ->)|(Hch & ts & -> & F)]; rewrite ids_tree; [repeat constructor; auto|].
  set (RR := Z.of_nat (length bl)) in *.
  assert (Hlen : forall k c, nth_error ch k = Some c -> length (nbox (fst c)) = d).
  { intros k c Hk. destruct (E2 k c Hk) as (s & m & B1 & B2 & B3 & B4 & B5 & B6 & B7 & B8). rewrite B7. apply nth_error_In in B1.
    destruct (Hb _ B1) as (I1 & I2). apply (init_box_hull D d); auto. }
  assert (Hfan : exists b, (2 <= b)%Z /\ forall k c, nth_error ch k = Some c -> fan P (fst c) = b).
  { destruct Hu as [Hu|[Hu|(m & Hu)]].
    - exists 2%Z. split; [lia|]. intros k c _. unfold fan. rewrite Hu, !andb_false_r. reflexivity.
    - exists 2%Z. split; [lia|]. intros k c Hk. unfold fan. rewrite (Hlen k c Hk). apply Nat.eqb_neq in Hu. rewrite Hu. reflexivity.
    - exists (if (d =? 2)%nat && (negb m && splitEveryDim P) then 4 else 2)%Z. split; [destruct (_ && _); lia|]. intros k c Hk. unfold fan. rewrite (Hlen k c Hk).
      destruct (E2 k c Hk) as (s & m' & B1 & _ & _ & _ & B5 & _). apply nth_error_In in B1. apply Hu in B1. cbn in B1. rewrite B5, B1. reflexivity. }
  destruct Hfan as (b & Hb2 & Hfan).
  assert (G : forall k t, nth_error ts k = Some t -> NoDup (ids t) /\ (0 <= Z.of_nat k < RR * b ^ Z.of_nat 0)%Z /\
       forall z, In z (ids t) -> idrange b RR 0 (Z.of_nat k) z).
  { intros k t Hk. destruct (Forall2_nth_r _ _ _ F k t Hk) as (c & Hc & Et).
    destruct (E2 k c Hc) as (s & m & B1 & B2 & B3 & B4 & B5 & B6 & B7 & B8).
    assert (Hkl : k < length bl) by (apply nth_error_Some; congruence). apply nth_error_In in B1. destruct (Hb _ B1) as (I1 & I2). cbn [fst] in I1, I2.
    assert (Bv : (0 <= Z.of_nat k < RR * b ^ Z.of_nat 0)%Z) by (cbn [Z.of_nat]; rewrite Z.pow_0_r; unfold RR; lia).
    pose proof (Hfan k c Hc) as Ef. rewrite B2 in Et. rewrite <- Ef in Bv |- *.
    destruct (refine_tree_ids D P d HD Hm fuel RR (fst c) s t 0 (Z.of_nat k)) as (N & J); auto.
    - apply (Hlen k c Hc).
    - unfold RR; lia.
    - rewrite B3, off_0 by (rewrite Ef; auto). cbn [plus]. lia. }
  constructor.
  - cbn [root_info id]. intros C. apply in_flat_map in C as (t & Ht & Hz). apply In_nth_error in Ht as (k & Hk). destruct (G k t Hk) as (_ & B & J).
    destruct (J _ Hz) as (m & w & E & Hw). apply (idrange_bound b RR 0) in Hw; auto.
    pose proof (off_mono b RR 0 (0 + m) Hb2 ltac:(unfold RR; lia) ltac:(lia)) as Ho. rewrite off_0 in Ho by auto. lia.
  - apply (children_ids_nodup ts b RR 0 Z.of_nat); auto; [unfold RR; lia|intros j k; lia].
Qed.

(** The blocks of a vector of ranks. *)
Lemma partition_blocks_ok prt num size mx bl : partition_blocks prt num size mx = Ok bl ->
  length prt = num /\ length bl = size /\ good_blocks (seq 0 num) bl /\
  forall p b, nth_error bl p = Some b -> snd b = mx /\ forall i, In i (fst b) <-> i < num /\ nth_error prt i = Some p.
Proof.
  unfold partition_blocks. destruct (Nat.eqb_spec (length prt) num) as [E1|]; cbn [guard bind]; [|discriminate].
  destruct (existsb (Nat.eqb 0) prt) eqn:E0; cbn [guard bind]; [|discriminate].
  destruct (Nat.eqb_spec (fold_left Nat.max prt 0) (size - 1)) as [E2|]; cbn [guard bind]; [|discriminate].
  destruct (Nat.eqb_spec (length (nodup Nat.eq_dec prt)) size) as [E3|]; cbn [guard bind]; [|discriminate].
  intros E. inversion E; subst bl. clear E.
  assert (Hmax : forall l a i, In i l -> i <= fold_left Nat.max l a).
  { assert (Hge : forall l a, a <= fold_left Nat.max l a).
    { induction l as [|x l IH]; intros a; cbn [fold_left]; auto. eapply Nat.le_trans; [|apply IH]. lia. }
    induction l as [|x l IH]; intros a i Hi; [destruct Hi|]. cbn [fold_left]. destruct Hi as [->|Hi]; auto.
    eapply Nat.le_trans; [|apply Hge]. lia. }
  assert (Hs : size <> 0).
  { intros ->. apply existsb_exists in E0 as (z & Hz & _). apply (nodup_In Nat.eq_dec) in Hz. destruct (nodup Nat.eq_dec prt); [destruct Hz|discriminate]. }
  assert (Hlt : forall i, In i prt -> i < size) by (intros i Hi; apply (Hmax prt 0) in Hi; lia).
  assert (Hall : forall p, p < size -> In p prt).
  { intros p Hp. apply (nodup_In Nat.eq_dec). 
    assert (Hincl : incl (seq 0 size) (nodup Nat.eq_dec prt)).
    { apply NoDup_length_incl; [apply NoDup_nodup|rewrite seq_length; lia|]. intros i Hi. apply nodup_In in Hi. apply in_seq. apply Hlt in Hi. lia. }
    apply Hincl, in_seq. lia. }
  split; auto. split; [rewrite map_length, seq_length; auto|].
  assert (Hnth : forall p b, nth_error (map (fun p => (filter (fun i => nth i prt 0 =? p) (seq 0 (length prt)), mx)) (seq 0 size)) p = Some b ->
     p < size /\ b = (filter (fun i => nth i prt 0 =? p) (seq 0 (length prt)), mx)).
  { intros p b H. rewrite nth_error_map in H. destruct (nth_error (seq 0 size) p) as [q|] eqn:Eq; cbn in H; [|discriminate].
    assert (p < size) by (rewrite <- (seq_length size 0); apply nth_error_Some; congruence).
    rewrite (nth_error_nth' _ 0) in Eq by (rewrite seq_length; auto). rewrite seq_nth in Eq by auto. inversion Eq; subst q.
    inversion H. auto. }
  assert (Hmem : forall p i, In i (filter (fun i => nth i prt 0 =? p) (seq 0 (length prt))) <-> i < num /\ nth_error prt i = Some p).
  { intros p i. rewrite filter_In, in_seq, Nat.eqb_eq, E1. split.
    - intros (Hi & <-). split; [lia|]. apply nth_error_nth'. lia.
    - intros (Hi & H). split; [lia|]. apply nth_error_nth. auto. }
  assert (Hinc : increasing (seq 0 (length prt))).
  { unfold increasing. clear. generalize 0. induction (length prt) as [|n IH]; intros a; cbn [seq]; constructor; auto.
    apply Forall_forall. intros i Hi. apply in_seq in Hi. lia. }
  split; [split; [|split]|].
  - destruct size; [congruence|]. cbn. congruence.
  - rewrite <- E1. rewrite flat_map_concat_map, map_map. cbn [fst].
    rewrite <- (flat_map_concat_map (fun p => filter (fun i => nth i prt 0 =? p) (seq 0 (length prt))) (seq 0 size)).
    rewrite <- (filter_key (fun i => nth i prt 0) (seq 0 (length prt)) size). rewrite filter_all; auto.
    intros i Hi. apply in_seq in Hi. apply Nat.ltb_lt, Hlt. apply nth_In. lia.
  - intros b Hb. apply In_nth_error in Hb as (p & Hp). apply Hnth in Hp as (Hp & ->). cbn [fst]. split; [apply filter_inc; auto|].
    apply Hall in Hp. apply In_nth_error in Hp as (i & Hi). intros C. assert (Hin : In i []); [|destruct Hin]. rewrite <- C. apply Hmem. split; auto.
    rewrite <- E1. apply nth_error_Some. congruence.
  - intros p b Hb. apply Hnth in Hb as (Hp & ->). cbn [fst snd]. split; auto.
Qed.
