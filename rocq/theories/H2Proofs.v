(** Proofs about the passes through the cluster tree. *)
From Verif Require Import Util Lin SparsitySpec CSRModel CSRSpec CSRProofs TriModel TriSpec TriProofs TriProofs2 OpsProofs DenseModel DenseSpec DenseProofs OpsProofs3.
From Verif Require Import H2Model H2Spec.
Set Default Proof Using "Type".
Local Open Scope nat_scope.

Lemma hnode_ind' (P : hnode -> Prop) : (forall n cs, (forall c, In c cs -> P c) -> P (HNode n cs)) -> forall t, P t.
Proof.
  intros H. fix IH 1. intros (n, cs). apply H. induction cs as [|c cs IHcs]; intros c' Hc; [destruct Hc|].
  destruct Hc as [<-|Hc]; [apply IH|apply IHcs; exact Hc].
Qed.

Lemma for_each_list {A St} (f : A -> St -> res St) l : forall s, for_each f l s = for_list l f s.
Proof. induction l as [|a l IH]; intros s; cbn [for_each for_list]; auto. destruct (f a s); cbn [bind]; auto. Qed.

Lemma hset_same h k b : hset h k b k = b.
Proof. unfold hset. rewrite Nat.eqb_refl. auto. Qed.
Lemma hset_other h k b j : j <> k -> hset h k b j = h j.
Proof. intros H. unfold hset. apply Nat.eqb_neq in H. rewrite H. auto. Qed.

Definition ids (t : hnode) : list nat := map (fun s => nid (inf s)) (nodes t).

Lemma nodes_eq n cs : nodes (HNode n cs) = HNode n cs :: flat_map nodes cs.
Proof. reflexivity. Qed.
Lemma ids_eq n cs : ids (HNode n cs) = nid n :: flat_map ids cs.
Proof.
  unfold ids. rewrite nodes_eq. cbn [map inf]. f_equal. induction cs as [|c cs IH]; cbn [flat_map]; auto.
  rewrite map_app, IH. auto.
Qed.
Lemma node_self t : In t (nodes t).
Proof. destruct t as (n, cs). left; auto. Qed.
Lemma id_in s t : In s (nodes t) -> In (nid (inf s)) (ids t).
Proof. intros H. unfold ids. apply in_map_iff. exists s; auto. Qed.
Lemma node_kid t c s : In c (kids t) -> In s (nodes c) -> In s (nodes t).
Proof. destruct t as (n, cs). cbn [kids]. intros Hc Hs. right. apply in_flat_map. exists c; auto. Qed.
Lemma nodes_trans s : forall t u, In t (nodes s) -> In u (nodes t) -> In u (nodes s).
Proof.
  induction s as [n cs IH] using hnode_ind'. intros t u [<-|Ht] Hu; auto.
  apply in_flat_map in Ht as (c & Hc & Ht). right. apply in_flat_map. exists c. split; auto. apply (IH c Hc t u); auto.
Qed.

(** Ids of a node, of a part of the children. *)
Lemma NoDup_app_split {A} (l r : list A) : NoDup (l ++ r) -> NoDup l /\ NoDup r /\ forall x, In x l -> In x r -> False.
Proof.
  induction l as [|a l IH]; cbn [app]; intros H; [repeat split; auto; constructor|]. inversion H as [|? ? Ha H']; subst.
  destruct (IH H') as (L & R & D). repeat split; auto.
  - constructor; auto. intros Hl. apply Ha, in_or_app; auto.
  - intros x [<-|Hx] Hr; [apply Ha, in_or_app; auto|eauto].
Qed.

Lemma flat_ids_in cs c s : In c cs -> In s (nodes c) -> In (nid (inf s)) (flat_map ids cs).
Proof. intros Hc Hs. apply in_flat_map. exists c. split; auto. apply id_in; auto. Qed.

Lemma shaped_kid N k n cs c : shaped N k (HNode n cs) -> In c cs -> shaped N k c.
Proof.
  intros [H1 H2 H3] Hc. constructor.
  - change (NoDup (ids c)). change (NoDup (ids (HNode n cs))) in H1. rewrite ids_eq in H1. inversion H1 as [|? ? _ H]; subst.
    apply in_split in Hc as (a & b & ->). rewrite flat_map_app in H. cbn [flat_map] in H.
    apply NoDup_app_split in H as (_ & H & _). apply NoDup_app_split in H. tauto.
  - intros s Hs. apply H2. apply (node_kid (HNode n cs) c); auto.
  - intros s d Hs. apply H3. apply (node_kid (HNode n cs) c); auto.
Qed.

Lemma same_id N k t s s' : shaped N k t -> In s (nodes t) -> In s' (nodes t) -> nid (inf s) = nid (inf s') -> s = s'.
Proof.
  intros [H _ _] Hs Hs' E. revert Hs Hs' E. induction (nodes t) as [|u l IH]; cbn [map In] in *; [tauto|].
  inversion H as [|? ? Hn H']; subst. intros [->|Hs] [->|Hs'] E; auto.
  - exfalso. apply Hn. rewrite E. apply in_map_iff. exists s'; auto.
  - exfalso. apply Hn. rewrite <- E. apply in_map_iff. exists s; auto.
Qed.

(** * Kernels with beta = 1 *)
Lemma gemv_add n m A x y : wf_dense n m A -> length x = m -> length y = n ->
  gemv A x (map Some y) 1%Qc = Ok (map Some (tab n (fun i => vat y i + mv m (dmat A) (vat x) i)%Qc)).
Proof.
  intros W Hx Hy. rewrite (gemv_beta n m A W) by (auto; apply qc_1_0). do 2 f_equal. apply tab_ext. intros i Hi. ring.
Qed.

Lemma scale_one k y : k <= length y -> scale_first k 1%Qc (map Some y) = Ok (map Some y).
Proof.
  intros H. unfold scale_first.
  loop_inv (fun (i : nat) (b : buf Qc) => b = map Some y) st E HI.
  3: { intros i b Hi ->. eexists; split; [|reflexivity]. rewrite (rd_some _ _ 0%Qc) by lia. cbn [bind].
       rewrite wr_some by lia. do 2 f_equal. apply upd_same. rewrite (nth_error_vat y i) by lia. f_equal. unfold vat. ring. }
  - lia.
  - reflexivity.
  - rewrite E, HI. reflexivity.
Qed.

Lemma gemvT_add n m A x y : wf_dense n m A -> n <= m -> length x = n -> length y = m ->
  gemvT A x (map Some y) 1%Qc = Ok (map Some (tab m (fun i => vat y i + mv n (mt (dmat A)) (vat x) i)%Qc)).
Proof.
  intros W Hnm Hx Hy. unfold gemvT. rewrite eqb0_false by apply qc_1_0.
  pose proof W as (-> & -> & _). rewrite scale_one by lia. cbn [bind]. apply (gemvT_loop n m A W); auto.
Qed.

Section Tree.
  Variables (N ncomp comp : nat) (x : list Qc).
  Hypothesis (Hx : length x = N) (Hcomp : comp < ncomp).

  (** What the coefficients of a node should be. *)
  Definition upval (t : hnode) (i : nat) : Qc := sumf N (fun c => bas comp t c i * vat x c)%Qc.

  Lemma getV_ok n k i : length (value n) = ncomp -> (forall V, In V (value n) -> wf_dense (length (ldofs n)) (ksize n) V) ->
    k < length (ldofs n) -> i < ksize n -> getV n comp k i = Ok (leafval n comp k i).
  Proof using Hx Hcomp.
    intros Hl HV Hk Hi. unfold getV, leafval. rewrite (aget_nth _ _ (Dense 0 0 [])) by lia. cbn [bind].
    apply (dget_ok (length (ldofs n)) (ksize n)); auto. apply HV, nth_In. lia.
  Qed.

  Lemma leaf_sum n i : (forall d, In d (ldofs n) -> d < N) ->
    upval (HNode n []) i = sumf (length (ldofs n)) (fun k => vat x (nth k (ldofs n) 0%nat) * leafval n comp k i)%Qc.
  Proof using Hx Hcomp.
    intros Hd. unfold upval. cbn [bas].
    rewrite (sumf_ext N _ (fun c => sumf (length (ldofs n)) (fun k => if (nth k (ldofs n) 0 =? c)%nat then leafval n comp k i * vat x c else 0)%Qc)).
    - rewrite sumf_swap. apply sumf_ext. intros k Hk.
      rewrite (sumf_ext N _ (fun c => if (c =? nth k (ldofs n) 0)%nat then leafval n comp k i * vat x c else 0)%Qc).
      + rewrite sumf_delta; [ring|]. apply Hd, nth_In; auto.
      + intros c Hc. rewrite Nat.eqb_sym. reflexivity.
    - intros c Hc. rewrite <- sumf_scal_r. apply sumf_ext. intros k Hk. destruct (_ =? c)%nat; ring.
  Qed.

  Lemma leaf_up_ok n c : (forall d, In d (ldofs n) -> d < N) -> length (value n) = ncomp ->
    (forall V, In V (value n) -> wf_dense (length (ldofs n)) (ksize n) V) -> length c = ksize n ->
    leaf_up n x comp c = Ok (map Some (tab (ksize n) (upval (HNode n [])))).
  Proof using Hx Hcomp.
    intros Hd Hv HV Hc. unfold leaf_up. rewrite set0_ok. cbn [bind]. rewrite Hc.
    destruct (for_list_inv (fun done (st : buf Qc * nat) => st = (map Some (tab (ksize n) (fun i => sumf (length done)
        (fun k => vat x (nth k (ldofs n) 0%nat) * leafval n comp k i)%Qc)), length done))
      (fun dof '(c, k) =>
        temp_x <- aget x dof ;;
        c' <- for_range 0 (length c) (fun i c => v <- getV n comp k i ;; addto c i (temp_x * v)%Qc) c ;;
        Ok (c', S k)) (ldofs n) [] (map Some (tab (ksize n) (fun _ => 0%Qc)), 0)) as (st & E & ->).
    - cbn [length sumf]. reflexivity.
    - intros p d q s0 Hl ->. cbn [app].
      assert (Hk : length p < length (ldofs n)) by (rewrite Hl, app_length; cbn [length]; lia).
      assert (Hn : nth (length p) (ldofs n) 0 = d) by (rewrite Hl, app_nth2, Nat.sub_diag by lia; reflexivity).
      rewrite (aget_nth x d 0%Qc) by (rewrite Hx; apply Hd; rewrite Hl; apply in_or_app; right; left; auto). cbn [bind].
      rewrite map_length, tab_length.
      rewrite (fill_loop (ksize n) _ _ (fun i => (sumf (length p) (fun k => vat x (nth k (ldofs n) 0%nat) * leafval n comp k i) + nth d x 0 * leafval n comp (length p) i)%Qc)).
      + cbn [bind]. eexists; split; [reflexivity|]. rewrite app_length. cbn [length]. rewrite Nat.add_1_r. f_equal. f_equal.
        apply tab_ext. intros i Hi. cbn [sumf]. rewrite Hn. reflexivity.
      + rewrite map_length, tab_length. auto.
      + intros i y Hi Hy He. rewrite getV_ok by auto. cbn [bind]. unfold addto, rd. rewrite He.
        erewrite map_nth_error by (rewrite nth_error_tab by auto; reflexivity). cbn [bind]. reflexivity.
    - rewrite E. cbn [bind app]. do 2 f_equal. apply tab_ext. intros i Hi. symmetry. apply leaf_sum; auto.
  Qed.

  Lemma up_sum n cs i : cs <> [] ->
    upval (HNode n cs) i = suml (map (fun c => sumf (ksize (inf c)) (fun j => tmat (inf c) i j * upval c j)%Qc) cs).
  Proof using Type.
    intros Hcs. unfold upval at 1.
    rewrite (sumf_ext N _ (fun d => suml (map (fun c => sumf (ksize (inf c)) (fun j => bas comp c d j * tmat (inf c) i j) * vat x d)%Qc cs))).
    - rewrite sumf_suml_swap. f_equal. apply map_ext. intros c.
      rewrite (sumf_ext N _ (fun d => sumf (ksize (inf c)) (fun j => bas comp c d j * tmat (inf c) i j * vat x d)%Qc)) by (intros; rewrite sumf_scal_r; auto).
      rewrite sumf_swap. apply sumf_ext. intros j Hj. unfold upval. rewrite <- sumf_scal. apply sumf_ext. intros; ring.
    - intros d Hd. destruct cs as [|c0 cs]; [congruence|]. cbn [bas].
      generalize (c0 :: cs). intros l. induction l as [|c l IH]; cbn [map suml]; [ring|]. rewrite <- IH. ring.
  Qed.

  (** The coefficients of a node are right. *)
  Definition up_right (up : heap) (s : hnode) : Prop := up (nid (inf s)) = map Some (tab (ksize (inf s)) (upval s)).

  Lemma upwardPass_ok skip t : shaped N ncomp t -> forall up, sized t up ->
    (skip = true -> forall s, In s (nodes t) -> kids s = [] -> up_right up s) ->
    exists up', upwardPass x comp skip t up = Ok up' /\
      (forall s, In s (nodes t) -> up_right up' s) /\ (forall k, ~ In k (ids t) -> up' k = up k).
  Proof using Hx Hcomp.
    induction t as [n cs IH] using hnode_ind'. intros Sh up Hs Hsk. destruct cs as [|c0 cs0].
    - cbn [upwardPass]. destruct (sh_leaf _ _ _ Sh (HNode n []) (node_self _) eq_refl) as (H1 & H2 & H3). cbn [inf] in *.
      destruct skip.
      + exists up. split; auto. split; auto. intros s [<-|[]]. apply (Hsk eq_refl); [left|]; auto.
      + rewrite leaf_up_ok; auto. 2: { apply (Hs (HNode n [])), node_self. }
        cbn [bind]. eexists; split; [reflexivity|]. split.
        * intros s [<-|[]]. unfold up_right. cbn [inf]. apply hset_same.
        * intros k Hk. apply hset_other. intros ->. apply Hk. left; auto.
    - set (cs := c0 :: cs0) in *. assert (Hcs : cs <> []) by discriminate.
      assert (Eup : upwardPass x comp skip (HNode n cs) up = (c0' <- set0 (up (nid n)) ;;
         for_list cs (fun c up =>
           up1 <- upwardPass x comp skip c up ;; T <- getT (inf c) ;; xs <- all_init (up1 (nid (inf c))) ;;
           y <- gemv T xs (up1 (nid n)) 1%Qc ;; Ok (hset up1 (nid n) y)) (hset up (nid n) c0'))).
      { unfold cs. cbn [upwardPass]. destruct (set0 (up (nid n))); cbn [bind]; auto. apply for_each_list. }
      rewrite Eup. clear Eup. rewrite set0_ok. cbn [bind]. pose proof (Hs (HNode n cs) (node_self _)) as Hsn. cbn [inf] in Hsn. rewrite Hsn.
      pose proof (sh_ids _ _ _ Sh) as Nd. change (NoDup (ids (HNode n cs))) in Nd. rewrite ids_eq in Nd.
      clearbody cs. inversion Nd as [|? ? Hn Ndk]; subst.
      destruct (for_list_inv (fun done (h : heap) =>
          h (nid n) = map Some (tab (ksize n) (fun i => suml (map (fun c => sumf (ksize (inf c)) (fun j => tmat (inf c) i j * upval c j)%Qc) done))) /\
          (forall c s, In c done -> In s (nodes c) -> up_right h s) /\
          (forall k, k <> nid n -> ~ In k (flat_map ids done) -> h k = up k))
        (fun c up =>
           up1 <- upwardPass x comp skip c up ;; T <- getT (inf c) ;; xs <- all_init (up1 (nid (inf c))) ;;
           y <- gemv T xs (up1 (nid n)) 1%Qc ;; Ok (hset up1 (nid n) y))
        cs [] (hset up (nid n) (map Some (tab (ksize n) (fun _ => 0%Qc))))) as (h & E & H1 & H2 & H3).
      + split; [apply hset_same|]. split; [intros c s []|]. intros k Hk _. apply hset_other; auto.
      + intros p c q h Hl (H1 & H2 & H3). cbn [app] in H1, H2, H3 |- *.
        assert (Hc : In c cs) by (rewrite Hl; apply in_or_app; right; left; auto).
        pose proof (shaped_kid _ _ _ _ _ Sh Hc) as Shc.
        destruct (sh_transfer _ _ _ Sh (HNode n cs) c (node_self _) Hc) as (T & ET & WT). cbn [inf] in WT.
        assert (Hdis : forall s, In s (nodes c) -> nid (inf s) <> nid n /\ ~ In (nid (inf s)) (flat_map ids p)).
        { intros s Hin. split.
          - intros E. apply Hn. rewrite <- E. apply (flat_ids_in cs c); auto.
          - intros E. rewrite Hl, flat_map_app in Ndk. cbn [flat_map] in Ndk.
            apply NoDup_app_split in Ndk as (_ & _ & D). apply (D _ E). apply in_or_app. left. apply id_in; auto. }
        assert (Hsame : forall s, In s (nodes c) -> h (nid (inf s)) = up (nid (inf s))) by (intros s Hin; apply H3; apply Hdis; auto).
        destruct (IH c Hc Shc h) as (h' & E & R & O).
        { intros s Hin. rewrite Hsame by auto. apply Hs. apply (node_kid (HNode n cs) c); auto. }
        { intros Hk s Hin Hleaf. unfold up_right. rewrite Hsame by auto. apply (Hsk Hk); auto. apply (node_kid (HNode n cs) c); auto. }
        rewrite E. cbn [bind]. unfold getT. rewrite ET. cbn [bind]. rewrite (R c (node_self _)), all_init_some. cbn [bind].
        assert (Hnid : ~ In (nid n) (ids c)) by (intros Hin; apply Hn, in_flat_map; exists c; auto).
        rewrite (O (nid n)) by auto. rewrite H1, (gemv_add (ksize n) (ksize (inf c))) by (auto; apply tab_length). cbn [bind].
        eexists; split; [reflexivity|]. split; [|split].
        * rewrite hset_same. f_equal. apply tab_ext. intros i Hi. rewrite vat_tab, map_app, suml_app by auto. cbn [map suml].
          unfold mv, tmat. rewrite ET.
          rewrite (sumf_ext (ksize (inf c)) (fun j => (dmat T i j * vat (tab (ksize (inf c)) (upval c)) j)%Qc) (fun j => dmat T i j * upval c j)%Qc) by (intros j Hj; rewrite vat_tab; auto).
          ring.
        * intros c' s Hin Hs'. apply in_app_or in Hin as [Hin|[<-|[]]].
          -- unfold up_right. rewrite hset_other, O.
             ++ apply (H2 c'); auto.
             ++ intros Hid. rewrite Hl, flat_map_app in Ndk. cbn [flat_map] in Ndk.
                apply NoDup_app_split in Ndk as (_ & _ & D). apply (D (nid (inf s))); [apply (flat_ids_in p c'); auto|apply in_or_app; auto].
             ++ intros E'. apply Hn. rewrite <- E'. apply (flat_ids_in cs c'); auto. rewrite Hl. apply in_or_app; auto.
          -- unfold up_right. rewrite hset_other by (apply Hdis; auto). apply R; auto.
        * intros k Hk Hno. rewrite flat_map_app in Hno. cbn [flat_map] in Hno. rewrite app_nil_r in Hno.
          rewrite hset_other, O, H3; auto; intros Hin; apply Hno, in_or_app; auto.
      + exists h. split; auto. cbn [app] in *. split.
        * intros s [<-|Hin].
          -- unfold up_right. cbn [inf]. rewrite H1. f_equal. apply tab_ext. intros i Hi. rewrite up_sum; auto.
          -- apply in_flat_map in Hin as (c & Hc & Hin). apply (H2 c); auto.
        * intros k Hk. rewrite ids_eq in Hk. apply H3; [intros ->; apply Hk; left; auto|intros Hin; apply Hk; right; auto].
  Qed.
End Tree.

(** * resetCoefficientsDown *)
Lemma resetDown_ok N k t : shaped N k t -> forall down, sized t down ->
  exists down', resetDown t down = Ok down' /\
    (forall s, In s (nodes t) -> down' (nid (inf s)) = map Some (tab (ksize (inf s)) (fun _ => 0%Qc))) /\
    (forall j, ~ In j (ids t) -> down' j = down j).
Proof.
  induction t as [n cs IH] using hnode_ind'. intros Sh down Hs. cbn [resetDown]. rewrite set0_ok. cbn [bind].
  pose proof (Hs (HNode n cs) (node_self _)) as Hsn. cbn [inf] in Hsn. rewrite Hsn, for_each_list.
  pose proof (sh_ids _ _ _ Sh) as Nd. change (NoDup (ids (HNode n cs))) in Nd. rewrite ids_eq in Nd.
  inversion Nd as [|? ? Hn Ndk]; subst.
  destruct (for_list_inv (fun done (h : heap) =>
      h (nid n) = map Some (tab (ksize n) (fun _ => 0%Qc)) /\
      (forall c s, In c done -> In s (nodes c) -> h (nid (inf s)) = map Some (tab (ksize (inf s)) (fun _ => 0%Qc))) /\
      (forall j, j <> nid n -> ~ In j (flat_map ids done) -> h j = down j))
    resetDown cs [] (hset down (nid n) (map Some (tab (ksize n) (fun _ => 0%Qc))))) as (h & E & H1 & H2 & H3).
  - split; [apply hset_same|]. split; [intros c s []|]. intros j Hj _. apply hset_other; auto.
  - intros p c q h Hl (H1 & H2 & H3). cbn [app] in *.
    assert (Hc : In c cs) by (rewrite Hl; apply in_or_app; right; left; auto).
    assert (Hdis : forall s, In s (nodes c) -> nid (inf s) <> nid n /\ ~ In (nid (inf s)) (flat_map ids p)).
    { intros s Hin. split.
      - intros E. apply Hn. rewrite <- E. apply (flat_ids_in cs c); auto.
      - intros E. rewrite Hl, flat_map_app in Ndk. cbn [flat_map] in Ndk.
        apply NoDup_app_split in Ndk as (_ & _ & D). apply (D _ E). apply in_or_app. left. apply id_in; auto. }
    destruct (IH c Hc (shaped_kid _ _ _ _ _ Sh Hc) h) as (h' & E & R & O).
    { intros s Hin. rewrite H3 by (apply Hdis; auto). apply Hs. apply (node_kid (HNode n cs) c); auto. }
    exists h'. split; auto. split; [|split].
    + rewrite O; auto. intros Hin; apply Hn, in_flat_map; exists c; auto.
    + intros c' s Hin Hs'. apply in_app_or in Hin as [Hin|[<-|[]]]; auto. rewrite O; [apply (H2 c'); auto|].
      intros Hid. rewrite Hl, flat_map_app in Ndk. cbn [flat_map] in Ndk.
      apply NoDup_app_split in Ndk as (_ & _ & D). apply (D (nid (inf s))); [apply (flat_ids_in p c'); auto|apply in_or_app; auto].
    + intros j Hj Hno. rewrite flat_map_app in Hno. cbn [flat_map] in Hno. rewrite app_nil_r in Hno.
      rewrite O, H3; auto; intros Hin; apply Hno, in_or_app; auto.
  - exists h. split; auto. cbn [app] in *. split.
    + intros s [<-|Hin]; auto. apply in_flat_map in Hin as (c & Hc & Hin). apply (H2 c); auto.
    + intros j Hj. rewrite ids_eq in Hj. apply H3; [intros ->; apply Hj; left; auto|intros Hin; apply Hj; right; auto].
Qed.
