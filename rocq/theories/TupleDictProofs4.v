From Coq Require Import Sorted FinFun.
From Verif Require Import Util TupleDictModel TupleDictSpec TupleDictProofs TupleDictProofs2 TupleDictProofs3.
Set Default Proof Using "Type".

Section Final.
  Variable V : Type.
  Variable bor : V -> V -> V.
  Variable invalid : V.
  Variable W : nat.
  Local Notation row := (list (Z * V)).
  Local Notation run := (run V bor invalid W).
  Local Notation sp md := (spec_run bor invalid md amap_empty).

  Lemma built_ok nd i0 inc del orh ops :
    within_limits bor invalid W nd i0 inc (mode_of del orh) ops ->
    exists d rows, run (td_init V nd i0 inc del orh) ops = Ok (d, snd (sp (mode_of del orh) ops)) /\
      same_cfg (td_init V nd i0 inc del orh) d /\ Rep W (fun _ => i0) d rows /\
      meq (abs rows) (fst (sp (mode_of del orh) ops)).
  Proof.
    intros (Hinc & Hi0 & Hrows & Hcap).
    apply (run_ok V bor invalid W (fun _ => i0) ops (td_init V nd i0 inc del orh) (repeat [] nd) amap_empty); auto.
    - apply init_rep; auto.
    - apply abs_init.
  Qed.

  Lemma card_eq_meq (m m' : amap V) n : meq m m' -> card_eq m n -> card_eq m' n.
  Proof.
    intros H (ks & Hnd & Hl & Hin). exists ks. split; auto. split; auto. intros i j. rewrite Hin, H. reflexivity.
  Qed.

  Lemma refines_map nd i0 inc del orh ops :
    within_limits bor invalid W nd i0 inc (mode_of del orh) ops ->
    exists d, run (td_init V nd i0 inc del orh) ops = Ok (d, snd (sp (mode_of del orh) ops)) /\
      (forall I J, I < nd -> getValue V invalid W d I J = Ok (spec_get invalid (fst (sp (mode_of del orh) ops)) I J)) /\
      (0 <= nnz d)%Z /\ card_eq (fst (sp (mode_of del orh) ops)) (Z.to_nat (nnz d)).
  Proof.
    intros H. destruct (built_ok _ _ _ _ _ _ H) as (d & rows & E & Hc & HR & Hm).
    exists d. split; auto. split; [|split].
    - intros I J HI. erewrite getValue_ok; eauto.
      + unfold spec_get. rewrite (Hm I J). reflexivity.
      + destruct Hc as (-> & _). exact HI.
    - apply (Rep_card _ _ _ _ _ HR).
    - eapply card_eq_meq; eauto. apply (Rep_card _ _ _ _ _ HR).
  Qed.

  Lemma enumerates nd i0 inc del orh ops :
    within_limits bor invalid W nd i0 inc (mode_of del orh) ops ->
    exists d outs l, run (td_init V nd i0 inc del orh) ops = Ok (d, outs) /\ toDict V d = Ok l /\
      StronglySorted key_lt (map fst l) /\
      (forall I J v, In (I, J, v) l <-> fst (sp (mode_of del orh) ops) I J = Some v) /\
      getData V d = Ok (map (fun e => Some (snd (fst e))) l, map (fun e => Some (snd e)) l).
  Proof.
    intros H. destruct (built_ok _ _ _ _ _ _ H) as (d & rows & E & Hc & HR & Hm).
    assert (Hs : forall r, In r rows -> rows_sorted r).
    { intros r Hr. apply In_nth_error in Hr as (i & Hi). eapply Rep_sorted; eauto. }
    exists d, (snd (sp (mode_of del orh) ops)), (entries_from V 0 rows). split; auto. split; [|split; [|split]].
    - eapply toDict_ok; eauto.
    - rewrite entries_keys. apply keys_sorted; auto.
    - intros I J v. rewrite (entries_in V rows Hs 0 I J v), Nat.sub_0_r, (Hm I J). split; [intros [_ ?]; auto|].
      intros ?; split; auto. lia.
    - eapply getData_ok; eauto.
  Qed.

  (** Pickling: the copy has the same options and answers every further
      history like the map of the original. *)
  Lemma pickles nd i0 inc del orh ops ops2 :
    within_limits bor invalid W nd i0 inc (mode_of del orh) ops ->
    (forall o, In o ops2 -> op_row o < nd) ->
    (forall p q, ops2 = p ++ q -> forall I n,
        row_card_eq (fst (sp (mode_of del orh) ops)) I n ->
        row_card_le (fst (spec_run bor invalid (mode_of del orh) (fst (sp (mode_of del orh) ops)) p)) I (max_row W n inc)) ->
    exists d outs st d2 d3,
      run (td_init V nd i0 inc del orh) ops = Ok (d, outs) /\ getstate V d = Ok st /\ setstate V st = Ok d2 /\ toDict V d2 = toDict V d /\ run d2 ops2 = Ok (d3, snd (spec_run bor invalid (mode_of del orh) (fst (sp (mode_of del orh) ops)) ops2)).
  Proof.
    intros H Hr2 Hcap2. destruct (built_ok _ _ _ _ _ _ H) as (d & rows & E & Hc & HR & Hm).
    destruct (pickle_ok _ _ _ _ _ HR) as (st & d2 & E1 & E2 & Hc2 & HR2).
    destruct Hc as (Hn & Hi & Hd & Ho). destruct Hc2 as (Hn2 & Hi2 & Hd2 & Ho2). cbn in Hn, Hi, Hd, Ho.
    assert (Hmd : mode_d d2 = mode_of del orh).
    { unfold mode_d. rewrite Hd2, Ho2, Hd, Ho. reflexivity. }
    destruct (run_ok V bor invalid W (fun i => nth i (map (@length _) rows) 0) ops2 d2 rows
                (fst (sp (mode_of del orh) ops))) as (d3 & rows3 & E3 & _ & _ & _); auto.
    - rewrite Hi2, Hi. apply H.
    - rewrite Hn2, Hn. auto.
    - intros p q Hpq I. rewrite Hmd, Hi2, Hi. destruct (Nat.lt_ge_cases I (length rows)) as [HI|HI].
      + eapply Hcap2; eauto. destruct (nth_error rows I) as [r|] eqn:Er; [|apply nth_error_None in Er; lia].
        exists (map fst r). split; [|split].
        * apply sorted_map_nodup. eapply Rep_sorted; eauto.
        * rewrite map_length. symmetry. apply nth_error_nth. apply map_nth_error; auto.
        * intros j. rewrite <- (Hm I j), abs_nonempty, Er. split.
          -- intros Hj; eauto.
          -- intros (r' & Er' & Hj). inversion Er'; subst; auto.
      + eapply Hcap2; eauto. rewrite nth_overflow by (rewrite map_length; lia).
        exists []. split; [constructor|]. split; auto. intros j. rewrite <- (Hm I j), abs_nonempty.
        split; [intros []|]. intros (r & Er & _). assert (I < length rows) by (apply nth_error_Some; congruence). lia.
    - exists d, (snd (sp (mode_of del orh) ops)), st, d2, d3. rewrite Hmd in E3.
      split; auto. split; auto. split; auto. split; auto.
      rewrite (toDict_ok _ _ _ _ _ HR2), (toDict_ok _ _ _ _ _ HR). reflexivity.
  Qed.

  Lemma merge_loop_run init orows rem : forall fuel d other, at_pos V W init other orows rem -> length rem < fuel ->
    merge_loop V bor W fuel d other = bind (run d (map enter_of rem)) (fun p => Ok (fst p)).
  Proof.
    induction rem as [|[[i j] v] rem IH]; intros fuel d other Hp Hf; (destruct fuel as [|fuel]; [simpl in Hf; lia|]);
      cbn [merge_loop].
    - pose proof (next_ok _ _ _ _ _ _ Hp) as E. cbn in E. rewrite E. reflexivity.
    - destruct (next_ok _ _ _ _ _ _ Hp) as (d' & E & Hp'). rewrite E. cbn [bind map TupleDictModel.run step enter_of fst snd].
      destruct (enterValue V bor W d i j v) as [[d1 v1]|e]; cbn [bind]; auto.
      rewrite (IH fuel d1 d' Hp') by (simpl in Hf; lia).
      destruct (run d1 (map enter_of rem)) as [[d2 v2]|e]; reflexivity.
  Qed.

  Lemma merge_run init d other orows : Rep W init other orows -> num_dofs d = num_dofs other ->
    merge V bor W d other = bind (run d (map enter_of (entries_from V 0 orows))) (fun p => Ok (fst p)).
  Proof.
    intros HR Hn. unfold merge, guard. rewrite Hn, Nat.eqb_refl. cbn [bind].
    destruct (startIter_ok _ _ _ _ _ HR) as (o0 & E & Hp). rewrite E. cbn [bind].
    eapply merge_loop_run; eauto. rewrite (rp_nnz _ _ _ _ _ HR), Nat2Z.id, entries_length. lia.
  Qed.

  Lemma run_app d o1 o2 : run d (o1 ++ o2) =
    bind (run d o1) (fun p => bind (run (fst p) o2) (fun q => Ok (fst q, snd p ++ snd q))).
  Proof.
    revert d; induction o1 as [|o o1 IH]; intros d; cbn [TupleDictModel.run app].
    - cbn [bind fst snd app]. destruct (run d o2) as [[? ?]|]; reflexivity.
    - destruct (step V bor invalid W d o) as [[d1 v1]|e]; cbn [bind]; auto.
      rewrite IH. destruct (run d1 o1) as [[d2 v2]|e]; cbn [bind fst snd]; auto.
      destruct (run d2 o2) as [[? ?]|]; reflexivity.
  Qed.

  Lemma mergeData_inner (iL : list (option Z)) (vs : list (option V)) i : forall (r : row) j k d,
    (forall n p, nth_error r n = Some p -> nth_error iL (k + n) = Some (Some (fst p)) /\ nth_error vs (k + n) = Some (Some (snd p))) ->
    for_n (length r) j (fun _ st => let '(k, d) := st in
          J <- rd iL k ;; val <- rd vs k ;; '(d', _) <- enterValue V bor W d i J val ;; Ok (S k, d')) (k, d)
    = bind (run d (map enter_of (tag V i r))) (fun p => Ok (k + length r, fst p)).
  Proof.
    induction r as [|[J v] r IH]; intros j k d H.
    - cbn. rewrite Nat.add_0_r. reflexivity.
    - cbn [length for_n]. destruct (H 0 (J, v) eq_refl) as [H1 H2]. rewrite Nat.add_0_r in H1, H2.
      rewrite (rd_ok _ _ _ H1), (rd_ok _ _ _ H2). cbn [bind].
      cbn [tag map TupleDictModel.run enter_of step fst snd].
      destruct (enterValue V bor W d i J v) as [[d1 v1]|e]; cbn [bind]; auto.
      rewrite IH.
      + fold (tag V i r). destruct (run d1 (map enter_of (tag V i r))) as [[d2 v2]|e]; cbn [bind]; auto.
        cbn [fst]. f_equal. f_equal. lia.
      + intros n p Hn. replace (S k + n) with (k + S n) by lia. apply H. exact Hn.
  Qed.

  Lemma mergeData_outer (iL : list (option Z)) (vs : list (option V)) cs : forall (rows : list row) i k d,
    (forall n p, nth_error (concat rows) n = Some p -> nth_error iL (k + n) = Some (Some (fst p)) /\ nth_error vs (k + n) = Some (Some (snd p))) ->
    (forall n r, nth_error rows n = Some r -> nth_error cs (i + n) = Some (length r)) ->
    for_n (length rows) i (fun i st =>
        c <- aget cs i ;;
        for_range 0 c (fun _ st => let '(k, d) := st in
          J <- rd iL k ;; val <- rd vs k ;; '(d', _) <- enterValue V bor W d i J val ;; Ok (S k, d')) st) (k, d)
    = bind (run d (map enter_of (entries_from V i rows))) (fun p => Ok (k + length (concat rows), fst p)).
  Proof.
    induction rows as [|r rows IH]; intros i k d H Hc.
    - cbn. rewrite Nat.add_0_r. reflexivity.
    - cbn [length for_n]. rewrite (aget_ok _ _ (length r)) by (rewrite <- (Nat.add_0_r i); apply (Hc 0 r eq_refl)).
      cbn [bind]. unfold for_range at 1. rewrite Nat.sub_0_r. rewrite mergeData_inner.
      + cbn [entries_from]. rewrite map_app, run_app.
        destruct (run d (map enter_of (tag V i r))) as [[d1 v1]|e]; cbn [bind fst snd]; auto.
        rewrite IH.
        * destruct (run d1 (map enter_of (entries_from V (S i) rows))) as [[d2 v2]|e]; cbn [bind]; auto.
          cbn [fst concat]. rewrite app_length. f_equal. f_equal. lia.
        * intros n p Hn. replace (k + length r + n) with (k + (length r + n)) by lia. apply H.
          cbn [concat]. rewrite nth_error_app2 by lia. replace (length r + n - length r) with n by lia. exact Hn.
        * intros n r' Hn. replace (S i + n) with (i + S n) by lia. apply Hc. exact Hn.
      + intros n p Hn. apply H. cbn [concat]. rewrite nth_error_app1; auto. apply nth_error_Some. congruence.
  Qed.

  Lemma entries_concat (rows : list row) : forall i, map (fun e => (snd (fst e), snd e)) (entries_from V i rows) = concat rows.
  Proof.
    induction rows as [|r t IH]; intros i; simpl; auto. rewrite map_app, IH. f_equal.
    unfold tag. rewrite map_map. cbn. rewrite <- (map_id r) at 2. apply map_ext. intros []; reflexivity.
  Qed.

  Lemma mergeData_run init d other orows iL vs : Rep W init other orows -> num_dofs d = num_dofs other ->
    getData V other = Ok (iL, vs) ->
    mergeData V bor W d (counts other) iL vs = merge V bor W d other.
  Proof using V bor invalid W.
    intros HR Hn Hg. rewrite (merge_run init d other orows HR Hn).
    rewrite (getData_ok _ _ _ _ _ HR) in Hg. inversion Hg; subst iL vs; clear Hg.
    unfold mergeData, guard. rewrite (rp_c _ _ _ _ _ HR), Hn, Nat.eqb_refl. cbn [bind].
    unfold for_range at 1. rewrite Nat.sub_0_r, <- (rp_rows _ _ _ _ _ HR).
    rewrite mergeData_outer.
    - destruct (run d (map enter_of (entries_from V 0 orows))) as [[d2 v2]|e]; reflexivity.
    - intros n p Hp. rewrite <- (entries_concat orows 0) in Hp. rewrite nth_error_map in Hp. cbn [Nat.add].
      rewrite !nth_error_map. destruct (nth_error (entries_from V 0 orows) n) as [e|]; [|discriminate].
      cbn in Hp. inversion Hp; subst p. auto.
    - intros n r Hr. cbn [Nat.add]. rewrite (Rep_counts _ _ _ _ _ HR). apply map_nth_error; auto.
  Qed.

  (** merge of two dictionaries built within limits. *)
  Lemma merges nd i0 inc del orh ops i0' inc' del' orh' ops' l' :
    within_limits bor invalid W nd i0' inc' (mode_of del' orh') ops' ->
    StronglySorted key_lt (map fst l') ->
    (forall I J v, In (I, J, v) l' <-> fst (sp (mode_of del' orh') ops') I J = Some v) ->
    within_limits bor invalid W nd i0 inc (mode_of del orh) (ops ++ map enter_of l') ->
    exists d other dm outs outs',
      run (td_init V nd i0 inc del orh) ops = Ok (d, outs) /\
      run (td_init V nd i0' inc' del' orh') ops' = Ok (other, outs') /\
      merge V bor W d other = Ok dm /\
      (forall iL vs, getData V other = Ok (iL, vs) -> mergeData V bor W d (counts other) iL vs = Ok dm) /\
      forall I J, I < nd -> getValue V invalid W dm I J
         = Ok (spec_get invalid (fst (sp (mode_of del orh) (ops ++ map enter_of l'))) I J).
  Proof.
    intros H' Hsrt Hin H.
    destruct (built_ok _ _ _ _ _ _ H') as (other & orows & E' & Hc' & HR' & Hm').
    destruct (built_ok _ _ _ _ _ _ H) as (dm & rows & E & Hc & HR & Hm).
    assert (l' = entries_from V 0 orows) as Hl'.
    { assert (Hs : forall r, In r orows -> rows_sorted r).
      { intros r Hr. apply In_nth_error in Hr as (i & Hi). exact (Rep_sorted _ _ _ _ _ _ _ HR' Hi). }
      assert (Hsame : forall e, In e l' <-> In e (entries_from V 0 orows)).
      { intros [[I J] v]. rewrite Hin, (entries_in V orows Hs 0 I J v), Nat.sub_0_r, (Hm' I J).
        split; [intros ?; split; auto; lia|intros [_ ?]; auto]. }
      assert (Hs2 : StronglySorted key_lt (map fst (entries_from V 0 orows))).
      { rewrite entries_keys. apply keys_sorted; auto. }
      clear -Hsrt Hs2 Hsame.
      assert (Hirr : forall a, ~ key_lt a a) by (intros [a b] [?|[? ?]]; simpl in *; lia).
      assert (Htr : forall a b, key_lt a b -> key_lt b a -> False).
      { intros [a b] [c e] [?|[? ?]] [?|[? ?]]; simpl in *; lia. }
      revert l' Hsrt Hsame. generalize dependent (entries_from V 0 orows). intros l2.
      induction l2 as [|e l2 IH]; intros Hs2 l' Hs1 Hsame.
      - destruct l' as [|x l']; auto. exfalso. apply (Hsame x). left; auto.
      - destruct l' as [|x l']; [exfalso; apply (Hsame e); left; auto|].
        simpl in Hs1, Hs2. inversion Hs1 as [|? ? H1 H2]; subst. inversion Hs2 as [|? ? H3 H4]; subst.
        rewrite Forall_forall in H2, H4.
        assert (x = e).
        { destruct (proj1 (Hsame x) (or_introl eq_refl)) as [Hx|Hx]; auto.
          destruct (proj2 (Hsame e) (or_introl eq_refl)) as [He|He]; auto.
          exfalso. apply (Htr (fst x) (fst e)).
          - apply H2. apply in_map; auto.
          - apply H4. apply in_map; auto. }
        subst x. f_equal. apply IH; auto. intros y. split; intros Hy.
        + destruct (proj1 (Hsame y) (or_intror Hy)) as [->|]; auto.
          exfalso. apply (Hirr (fst y)). apply H2. apply in_map; auto.
        + destruct (proj2 (Hsame y) (or_intror Hy)) as [->|]; auto.
          exfalso. apply (Hirr (fst y)). apply H4. apply in_map; auto. }
    rewrite run_app in E. apply bind_ok in E as ([d outs] & E1 & E2). cbn [fst snd] in E2.
    apply bind_ok in E2 as ([dm2 outs2] & E2 & E3). cbn [fst snd] in E3. inversion E3; subst dm2; clear E3.
    assert (Hn : num_dofs d = num_dofs other).
    { assert (Hw : within_limits bor invalid W nd i0 inc (mode_of del orh) ops).
      { destruct H as (A1 & A2 & A3 & A4). split; auto. split; auto. split.
        - intros o Ho. apply A3. apply in_or_app; auto.
        - intros p q -> I. apply (A4 p (q ++ map enter_of l')). rewrite app_assoc. reflexivity. }
      destruct (built_ok _ _ _ _ _ _ Hw) as (d0 & rows0 & E0 & Hc0 & HR0 & _).
      rewrite E1 in E0. inversion E0; subst d0. destruct Hc0 as (-> & _). destruct Hc' as (-> & _). reflexivity. }
    assert (Em : merge V bor W d other = Ok dm).
    { rewrite (merge_run _ d other orows HR' Hn), <- Hl', E2. reflexivity. }
    exists d, other, dm, outs, (snd (sp (mode_of del' orh') ops')).
    split; auto. split; auto. split; auto. split.
    - intros iL vs Hg. rewrite <- Em. eapply mergeData_run; eauto.
    - intros I J HI. erewrite getValue_ok; eauto.
      + unfold spec_get. rewrite (Hm I J). reflexivity.
      + destruct Hc as (-> & _). exact HI.
  Qed.

  (** * Sequences of enterValue calls *)
  Lemma spec_run_snoc md es e :
    fst (sp md (map enter_of (es ++ [e]))) = fst (spec_enter bor md (fst (sp md (map enter_of es))) (fst (fst e)) (snd (fst e)) (snd e)).
  Proof. rewrite map_app. cbn [map]. rewrite spec_run_app. reflexivity. Qed.

  Lemma values_of_snoc I J es e : values_of I J (es ++ [e]) =
    values_of I J es ++ (if (fst (fst e) =? I) && (snd (fst e) =? J)%Z then [@snd (nat * Z) V e] else []).
  Proof.
    unfold values_of. rewrite filter_app, map_app. f_equal. cbn [filter].
    destruct (_ && _); reflexivity.
  Qed.

  Lemma put_same (m : amap V) I J o : put m I J o I J = o.
  Proof. unfold put. rewrite Nat.eqb_refl, Z.eqb_refl. reflexivity. Qed.
  Lemma put_other (m : amap V) I J o i j : (I =? i) && (J =? j)%Z = false -> put m I J o i j = m i j.
  Proof. intros H. unfold put. rewrite (Nat.eqb_sym i I), (Z.eqb_sym j J), H. reflexivity. Qed.

  Lemma spec_enter_other md m I J v i j : (I =? i) && (J =? j)%Z = false ->
    fst (spec_enter bor md m I J v) i j = m i j.
  Proof.
    intros H. unfold spec_enter. destruct (m I J); [destruct md|]; cbn [fst]; rewrite ?put_other by auto; auto.
  Qed.

  Lemma toggle_value es : forall I J v,
    fst (sp Toggle (map enter_of es)) I J = Some v <->
    exists pre, values_of I J es = pre ++ [v] /\ Nat.even (length pre) = true.
  Proof.
    enough (G : forall I J, match fst (sp Toggle (map enter_of es)) I J with
                | Some v => exists pre, values_of I J es = pre ++ [v] /\ Nat.even (length pre) = true
                | None => Nat.even (length (values_of I J es)) = true end).
    { intros I J v. specialize (G I J). destruct (fst (sp Toggle (map enter_of es)) I J) as [w|].
      - destruct G as (pre & E & Hp). split.
        + intros Ev; inversion Ev; subst; eauto.
        + intros (pre' & E' & _). rewrite E in E'. apply app_inj_tail in E' as [_ ->]. reflexivity.
      - split; [discriminate|]. intros (pre & E & Hp). rewrite E, app_length in G. cbn [length] in G.
        rewrite Nat.add_1_r, Nat.even_succ, <- Nat.negb_even, Hp in G. discriminate. }
    induction es as [|e es IH] using rev_ind; intros I J; [reflexivity|].
    rewrite spec_run_snoc, values_of_snoc. specialize (IH I J).
    destruct ((fst (fst e) =? I) && (snd (fst e) =? J)%Z) eqn:Ek.
    - apply andb_true_iff in Ek as [E1 E2]. apply Nat.eqb_eq in E1. apply Z.eqb_eq in E2. subst I J.
      unfold spec_enter. destruct (fst (sp Toggle (map enter_of es)) (fst (fst e)) (snd (fst e))) as [w|]; cbn [fst];
        rewrite put_same.
      + destruct IH as (pre & E & Hp). rewrite E, !app_length. cbn [length].
        replace (length pre + 1 + 1) with (S (S (length pre))) by lia. cbn. exact Hp.
      + exists (values_of (fst (fst e)) (snd (fst e)) es). auto.
    - rewrite spec_enter_other by auto. rewrite app_nil_r. exact IH.
  Qed.

  Lemma or_value es : forall I J v,
    fst (sp OrHits (map enter_of es)) I J = Some v <->
    exists w t, values_of I J es = w :: t /\ v = fold_left bor t w.
  Proof.
    enough (G : forall I J, fst (sp OrHits (map enter_of es)) I J =
        match values_of I J es with [] => None | w :: t => Some (fold_left bor t w) end).
    { intros I J v. rewrite G. destruct (values_of I J es) as [|w t].
      - split; [discriminate|]. intros (w & t & E & _); discriminate.
      - split; [intros E; inversion E; eauto|]. intros (w' & t' & E & ->). inversion E; subst; reflexivity. }
    induction es as [|e es IH] using rev_ind; intros I J; [reflexivity|].
    rewrite spec_run_snoc, values_of_snoc. specialize (IH I J).
    destruct ((fst (fst e) =? I) && (snd (fst e) =? J)%Z) eqn:Ek.
    - apply andb_true_iff in Ek as [E1 E2]. apply Nat.eqb_eq in E1. apply Z.eqb_eq in E2. subst I J.
      unfold spec_enter. rewrite IH. destruct (values_of (fst (fst e)) (snd (fst e)) es) as [|w t]; cbn [fst app];
        rewrite put_same; auto. rewrite fold_left_app. reflexivity.
    - rewrite spec_enter_other by auto. rewrite app_nil_r. exact IH.
  Qed.

  Lemma first_value es : forall I J v,
    fst (sp KeepFirst (map enter_of es)) I J = Some v <-> exists t, values_of I J es = v :: t.
  Proof.
    enough (G : forall I J, fst (sp KeepFirst (map enter_of es)) I J = hd_error (values_of I J es)).
    { intros I J v. rewrite G. destruct (values_of I J es) as [|w t]; cbn.
      - split; [discriminate|]. intros (t & E); discriminate.
      - split; [intros E; inversion E; eauto|]. intros (t' & E). inversion E; subst; reflexivity. }
    induction es as [|e es IH] using rev_ind; intros I J; [reflexivity|].
    rewrite spec_run_snoc, values_of_snoc. specialize (IH I J).
    destruct ((fst (fst e) =? I) && (snd (fst e) =? J)%Z) eqn:Ek.
    - apply andb_true_iff in Ek as [E1 E2]. apply Nat.eqb_eq in E1. apply Z.eqb_eq in E2. subst I J.
      unfold spec_enter. rewrite IH. destruct (values_of (fst (fst e)) (snd (fst e)) es) as [|w t] eqn:Ev; cbn [fst app hd_error].
      + rewrite put_same. reflexivity.
      + rewrite IH. reflexivity.
    - rewrite spec_enter_other by auto. rewrite app_nil_r. exact IH.
  Qed.

  Lemma present_was_entered md es I J :
    fst (sp md (map enter_of es)) I J <> None -> In J (map (fun e => snd (fst e)) (filter (fun e => fst (fst e) =? I) es)).
  Proof.
    assert (Hv : values_of I J es <> [] -> In J (map (fun e => snd (fst e)) (filter (fun e => fst (fst e) =? I) es))).
    { unfold values_of. intros H.
      destruct (filter (fun e => (fst (fst e) =? I) && (snd (fst e) =? J)%Z) es) as [|e t] eqn:E; [cbn in H; congruence|].
      assert (Hin : In e (filter (fun e => (fst (fst e) =? I) && (snd (fst e) =? J)%Z) es)) by (rewrite E; left; auto).
      apply filter_In in Hin as [H1 H2]. apply andb_true_iff in H2 as [H2 H3]. apply Z.eqb_eq in H3. subst J.
      apply in_map_iff. exists e. split; auto. apply filter_In; auto. }
    intros H. apply Hv. intros Hnil.
    destruct (fst (sp md (map enter_of es)) I J) as [v|] eqn:E; [|congruence]. destruct md.
    - apply toggle_value in E as (pre & E & _). rewrite Hnil in E. destruct pre; discriminate.
    - apply or_value in E as (w & t & E & _). congruence.
    - apply first_value in E as (t & E). congruence.
  Qed.

  Lemma enters_within nd i0 inc md es :
    0 < inc -> i0 < W -> (forall e, In e es -> fst (fst e) < nd) ->
    (forall I, distinct_in_row I es <= max_row W i0 inc) ->
    within_limits bor invalid W nd i0 inc md (map enter_of es).
  Proof.
    intros Hinc Hi Hr Hd. split; auto. split; auto. split.
    - intros o Ho. apply in_map_iff in Ho as (e & <- & He). apply Hr; auto.
    - intros p q Hpq I js Hnd Hjs. apply Nat.le_trans with (distinct_in_row I es); auto.
      assert (exists ep eq, es = ep ++ eq /\ p = map enter_of ep) as (ep & eq & -> & ->).
      { clear -Hpq. revert p Hpq; induction es as [|e es IH]; intros p Hpq.
        - destruct p; [|discriminate]. exists [], []; auto.
        - destruct p as [|o p]; [exists [], (e :: es); auto|]. cbn in Hpq. inversion Hpq; subst.
          destruct (IH p) as (ep & eq & -> & ->); auto. exists (e :: ep), eq; auto. }
      unfold distinct_in_row. apply NoDup_incl_length; auto. intros j Hj. apply nodup_In.
      rewrite filter_app, map_app. apply in_or_app; left. eapply present_was_entered. apply Hjs; auto.
  Qed.

  Lemma enters_enumerate nd i0 inc del orh es :
    0 < inc -> i0 < W -> (forall e, In e es -> fst (fst e) < nd) ->
    (forall I, distinct_in_row I es <= max_row W i0 inc) ->
    exists d outs l, run (td_init V nd i0 inc del orh) (map enter_of es) = Ok (d, outs) /\ toDict V d = Ok l /\
      StronglySorted key_lt (map fst l) /\
      (forall I J v, In (I, J, v) l <->
         if del then exists pre, values_of I J es = pre ++ [v] /\ Nat.even (length pre) = true
         else if orh then exists w t, values_of I J es = w :: t /\ v = fold_left bor t w
         else exists t, values_of I J es = v :: t).
  Proof.
    intros Hinc Hi Hr Hd.
    destruct (enumerates nd i0 inc del orh (map enter_of es)) as (d & outs & l & E & Et & Hs & Hin & _).
    { apply enters_within; auto. }
    exists d, outs, l. split; auto. split; auto. split; auto. intros I J v. rewrite Hin.
    unfold mode_of. destruct del; [apply toggle_value|]. destruct orh; [apply or_value|apply first_value].
  Qed.
End Final.

Lemma row_capacity_witness :
  exists ops : list (op Z),
    (forall o, In o ops -> op_row o < 1) /\ length ops = 256 /\
    run Z Z.lor 2147483647%Z 256 (td_init Z 1 0 3 true false) ops = Err EOob.
Proof.
  exists (map (fun k => Enter 0 (Z.of_nat k) 0%Z) (seq 0 256)). split; [|split].
  - intros o Ho. apply in_map_iff in Ho as (k & <- & _). cbn. lia.
  - reflexivity.
  - vm_compute. reflexivity.
Qed.

Lemma row_capacity_255 :
  forall (invalid : Z) (nd : nat) (del orh : bool) (ops : list (op Z)),
    (forall o, In o ops -> op_row o < nd) ->
    (forall p q, ops = p ++ q -> forall I,
       row_card_le (fst (spec_run Z.lor invalid (mode_of del orh) amap_empty p)) I 255) ->
    exists d outs, run Z Z.lor invalid 256 (td_init Z nd 0 3 del orh) ops = Ok (d, outs).
Proof.
  intros inv nd del orh ops Hr Hc.
  destruct (refines_map Z Z.lor inv 256 nd 0 3 del orh ops) as (d & E & _).
  - split; [lia|]. split; [lia|]. split; [exact Hr|]. intros p q E I.
    change (max_row 256 0 3) with 255. eauto.
  - eauto.
Qed.

(** A decidable sufficient condition for [within_limits], for the examples. *)
Section Enough.
  Variable V : Type.
  Variable bor : V -> V -> V.
  Variable invalid : V.

  Lemma spec_step_present md m (o : op V) I J :
    fst (spec_step bor invalid md m o) I J <> None -> m I J <> None \/ exists v, o = Enter I J v.
  Proof.
    destruct o as [i j v|i j|i j]; cbn [spec_step fst].
    - unfold spec_enter. destruct (m i j) as [w|] eqn:E.
      + destruct md; cbn [fst]; auto; unfold put;
          destruct ((I =? i) && (J =? j)%Z) eqn:K; auto.
        apply andb_true_iff in K as [K1 K2]. apply Nat.eqb_eq in K1. apply Z.eqb_eq in K2. subst.
        left. congruence.
      + cbn [fst]. unfold put. destruct ((I =? i) && (J =? j)%Z) eqn:K; auto.
        apply andb_true_iff in K as [K1 K2]. apply Nat.eqb_eq in K1. apply Z.eqb_eq in K2. subst. eauto.
    - unfold put. destruct ((I =? i) && (J =? j)%Z); auto.
    - auto.
  Qed.

  Lemma spec_run_present md (ops : list (op V)) I J : forall m,
    fst (spec_run bor invalid md m ops) I J <> None -> m I J <> None \/ exists v, In (Enter I J v) ops.
  Proof.
    induction ops as [|o ops IH]; intros m H; [left; exact H|]. cbn [spec_run] in H.
    destruct (spec_step bor invalid md m o) as [m1 v1] eqn:E1.
    destruct (spec_run bor invalid md m1 ops) as [m2 v2] eqn:E2. cbn [fst] in H.
    destruct (IH m1) as [H1|(v & H1)].
    - rewrite E2. exact H.
    - destruct (spec_step_present md m o I J) as [H2|(v & ->)].
      + rewrite E1. exact H1.
      + auto.
      + right. exists v. left. reflexivity.
    - right. exists v. right. exact H1.
  Qed.

  Definition enters_in (I : nat) (ops : list (op V)) : list Z :=
    flat_map (fun o => match o with Enter i j _ => if i =? I then [j] else [] | _ => [] end) ops.

  Lemma enough_capacity W nd i0 inc md (ops : list (op V)) :
    (0 <? inc) && (i0 <? W) && forallb (fun o => op_row o <? nd) ops && (length ops <=? max_row W i0 inc) = true ->
    within_limits bor invalid W nd i0 inc md ops.
  Proof.
    intros H. apply andb_true_iff in H as [H H4]. apply andb_true_iff in H as [H H3].
    apply andb_true_iff in H as [H1 H2]. apply Nat.ltb_lt in H1, H2. apply Nat.leb_le in H4.
    rewrite forallb_forall in H3. split; auto. split; auto. split.
    - intros o Ho. apply Nat.ltb_lt. auto.
    - intros p q E I js Hnd Hjs. apply Nat.le_trans with (length ops); auto.
      apply Nat.le_trans with (length (enters_in I p)).
      + apply NoDup_incl_length; auto. intros j Hj. destruct (spec_run_present md p I j amap_empty) as [Hx|(v & Hx)]; auto.
        * destruct Hx. reflexivity.
        * apply in_flat_map. exists (Enter I j v). split; auto. rewrite Nat.eqb_refl. left; auto.
      + rewrite E, app_length. clear. induction p as [|o p IH]; cbn [enters_in flat_map length]; [lia|].
        rewrite app_length. fold (enters_in I p). destruct o as [i j v|i j|i j]; cbn [length]; try lia.
        destruct (i =? I); cbn [length]; lia.
  Qed.

  Lemma max_row_ge W n inc : 0 < inc -> n < W -> W - inc <= max_row W n inc.
  Proof.
    intros Hi Hn. unfold max_row. assert (H := Nat.div_mod (W - 1 - n) inc).
    assert (H2 := Nat.mod_upper_bound (W - 1 - n) inc). lia.
  Qed.

  Lemma enters_in_len I (ops : list (op V)) : length (enters_in I ops) <= length ops.
  Proof.
    induction ops as [|o p IH]; cbn [enters_in flat_map length]; [lia|].
    rewrite app_length. fold (enters_in I p). destruct o as [i j v|i j|i j]; cbn [length]; try lia.
    destruct (i =? I); cbn [length]; lia.
  Qed.

  Lemma enough_capacity2 W inc md (ops ops2 : list (op V)) :
    0 < inc -> length ops < W -> length ops + length ops2 <= W - inc ->
    forall p q, ops2 = p ++ q -> forall I n,
      row_card_eq (fst (spec_run bor invalid md amap_empty ops)) I n ->
      row_card_le (fst (spec_run bor invalid md (fst (spec_run bor invalid md amap_empty ops)) p)) I (max_row W n inc).
  Proof.
    intros Hi Hl Hl2 p q -> I n (ks & Hk & Hn & Hks) js Hnd Hjs. rewrite app_length in Hl2.
    assert (Hin : forall j, fst (spec_run bor invalid md amap_empty ops) I j <> None -> In j (enters_in I ops)).
    { intros j Hj. destruct (spec_run_present md ops I j amap_empty Hj) as [Hx|(v & Hx)].
      - destruct Hx. reflexivity.
      - apply in_flat_map. exists (Enter I j v). split; auto. rewrite Nat.eqb_refl. left; auto. }
    assert (n <= length ops).
    { rewrite <- Hn. apply Nat.le_trans with (length (enters_in I ops)); [|apply enters_in_len].
      apply NoDup_incl_length; auto. intros j Hj. apply Hin. apply Hks; auto. }
    apply Nat.le_trans with (W - inc); [|apply max_row_ge; lia].
    apply Nat.le_trans with (length (enters_in I ops ++ enters_in I p)).
    - apply NoDup_incl_length; auto. intros j Hj. apply in_or_app.
      destruct (spec_run_present md p I j _ (Hjs j Hj)) as [Hx|(v & Hx)]; auto.
      right. apply in_flat_map. exists (Enter I j v). split; auto. rewrite Nat.eqb_refl. left; auto.
    - rewrite app_length. pose proof (enters_in_len I ops). pose proof (enters_in_len I p). lia.
  Qed.
End Enough.

(** A history used in the examples. *)
Definition ex_ops : list (op Z) :=
  [Enter 1 5 10; Enter 1 2 20; Enter 0 9 30; Enter 1 7 40; Enter 1 5 50; Remove 1 7; Get 1 2; Enter 1 1 60]%Z.

Lemma ex_merge_contents :
  forall I J v, In (I, J, v) [(0, 9%Z, 30%Z); (1, 1%Z, 60%Z); (1, 2%Z, 20%Z)] <->
    fst (spec_run Z.lor 2147483647%Z (mode_of true false) amap_empty ex_ops) I J = Some v.
Proof.
  destruct (enumerates Z Z.lor 2147483647%Z 256 2 0 3 true false ex_ops) as (d & outs & l & E & Et & _ & Hin & _).
  - apply enough_capacity. vm_compute. reflexivity.
  - vm_compute in E. inversion E; subst d; clear E. vm_compute in Et. inversion Et; subst l. exact Hin.
Qed.
