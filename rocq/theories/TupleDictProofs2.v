From Coq Require Import Sorted FinFun.
From Verif Require Import Util TupleDictModel TupleDictSpec TupleDictProofs.

Set Default Proof Using "Type".

Ltac conj4 := split; [|split; [|split]].

Section Keys.
  Variable V : Type.
  Local Notation row := (list (Z * V)).
  (** * Number of entries *)
  Fixpoint keys_from (i : nat) (rows : list row) : list (nat * Z) :=
    match rows with
    | [] => []
    | r :: t => map (fun p => (i, fst p)) r ++ keys_from (S i) t
    end.

  Lemma keys_from_length rows : forall i, length (keys_from i rows) = length (concat rows).
  Proof. induction rows as [|r t IH]; intros i; simpl; auto. rewrite !app_length, map_length, IH. lia. Qed.

  Lemma keys_from_in rows : forall k i j, In (i, j) (keys_from k rows) <->
    k <= i /\ exists r, nth_error rows (i - k) = Some r /\ In j (map fst r).
  Proof.
    induction rows as [|r t IH]; intros k i j; simpl.
    - split; [intros []|]. intros (_ & r & H & _). destruct (i - k); discriminate.
    - rewrite in_app_iff, IH, in_map_iff. split.
      + intros [(p & E & Hp)|(Hk & r' & H1 & H2)].
        * inversion E; subst. split; auto. exists r. rewrite Nat.sub_diag. split; auto. apply in_map; auto.
        * split; [lia|]. exists r'. replace (i - k) with (S (i - S k)) by lia. auto.
      + intros (Hk & r' & H1 & H2). destruct (i - k) as [|n] eqn:E.
        * left. inversion H1; subst. apply in_map_iff in H2 as (p & <- & Hp). exists p. split; auto.
          replace i with k by lia. reflexivity.
        * right. split; [lia|]. exists r'. replace (i - S k) with n by lia. auto.
  Qed.

  Lemma sorted_map_nodup (r : row) : rows_sorted r -> NoDup (map fst r).
  Proof.
    unfold rows_sorted. induction (map fst r) as [|a l IH]; intros Hs; constructor.
    - inversion Hs as [|? ? ? Hf]; subst. rewrite Forall_forall in Hf. intros Hin. specialize (Hf _ Hin). lia.
    - apply IH. inversion Hs; auto.
  Qed.

  Lemma NoDup_app_intro {A} (a b : list A) : NoDup a -> NoDup b -> (forall x, In x a -> ~ In x b) -> NoDup (a ++ b).
  Proof.
    induction a as [|x a IH]; simpl; auto. intros Ha Hb H. inversion Ha; subst. constructor.
    - rewrite in_app_iff. intros [?|?]; [contradiction|]. eapply H; eauto.
    - apply IH; auto.
  Qed.

  Lemma keys_from_nodup rows : forall k,
    (forall r, In r rows -> rows_sorted r) -> NoDup (keys_from k rows).
  Proof.
    induction rows as [|r t IH]; intros k Hs; simpl; [constructor|].
    apply NoDup_app_intro.
    - rewrite <- (map_map fst (fun j => (k, j))). apply FinFun.Injective_map_NoDup.
      + intros x y E; inversion E; auto.
      + apply sorted_map_nodup; auto. apply Hs; left; auto.
    - apply IH. intros r' Hr'. apply Hs; right; auto.
    - intros [i j] Hi. apply in_map_iff in Hi as (p & E & _). inversion E; subst.
      rewrite keys_from_in. intros (? & _). lia.
  Qed.

  Lemma nth_error_repeat {A} (x : A) n i y : nth_error (repeat x n) i = Some y -> y = x /\ i < n.
  Proof.
    intros E. split.
    - apply nth_error_In in E. apply repeat_spec in E. auto.
    - rewrite <- (repeat_length x n). apply nth_error_Some. congruence.
  Qed.

  Lemma nth_error_repeat_some {A} (x : A) n i : i < n -> nth_error (repeat x n) i = Some x.
  Proof. revert i; induction n; intros [|i] H; simpl; try lia; auto. apply IHn; lia. Qed.
End Keys.

(** * Dictionary level *)
Section Dict.
  Variable V : Type.
  Variable bor : V -> V -> V.
  Variable invalid : V.
  Variable W : nat.
  Variable init : nat -> nat.     (* allocation a row started with *)

  Local Notation tdict := (tdict V).
  Local Notation row := (list (Z * V)).

  Record RowRep (init0 inc c l : nat) (ib : buf Z) (vb : buf V) (r : row) : Prop := {
    rr_c : c = length r;
    rr_s : rows_sorted r;
    rr_i : exists ji, ib = fI r ++ ji;
    rr_v : exists jv, vb = fV r ++ jv;
    rr_il : length ib = l;
    rr_vl : length vb = l;
    rr_l : exists k, l = init0 + k * inc;
    rr_W : l < W }.

  Record Rep (d : tdict) (rows : list row) : Prop := {
    rp_rows : length rows = num_dofs d;
    rp_c : length (counts d) = num_dofs d;
    rp_l : length (lengths d) = num_dofs d;
    rp_i : length (indexL d) = num_dofs d;
    rp_v : length (vals d) = num_dofs d;
    rp_row : forall I r, nth_error rows I = Some r ->
       exists c l ib vb,
         nth_error (counts d) I = Some c /\ nth_error (lengths d) I = Some l /\
         nth_error (indexL d) I = Some ib /\ nth_error (vals d) I = Some vb /\
         RowRep (init I) (length_inc d) c l ib vb r;
    rp_nnz : nnz d = Z.of_nat (length (concat rows)) }.

  Definition same_cfg (d d' : tdict) : Prop :=
    num_dofs d' = num_dofs d /\ length_inc d' = length_inc d /\
    deleteHits d' = deleteHits d /\ logicalAndHits d' = logicalAndHits d.

  Lemma same_cfg_refl d : same_cfg d d.
  Proof. unfold same_cfg; auto. Qed.
  Lemma same_cfg_trans d1 d2 d3 : same_cfg d1 d2 -> same_cfg d2 d3 -> same_cfg d1 d3.
  Proof. intros (A1 & A2 & A3 & A4) (B1 & B2 & B3 & B4). unfold same_cfg. rewrite B1, B2, B3, B4. auto. Qed.

  Lemma RowRep_le i0 inc c l ib vb r : RowRep i0 inc c l ib vb r -> length r <= l.
  Proof. intros []. destruct rr_i0 as [ji ->]. rewrite app_length, fI_length in *. lia. Qed.

  Lemma concat_upd_length (rows : list row) I r r' :
    nth_error rows I = Some r ->
    length (concat (upd rows I r')) + length r = length (concat rows) + length r'.
  Proof.
    revert I; induction rows as [|x rows IH]; intros [|I]; simpl; intros E; try discriminate.
    - inversion E; subst. rewrite !app_length. lia.
    - rewrite !app_length. specialize (IH _ E). lia.
  Qed.

  Lemma Rep_row d rows I : Rep d rows -> I < num_dofs d ->
    exists r c l ib vb, nth_error rows I = Some r /\
      nth_error (counts d) I = Some c /\ nth_error (lengths d) I = Some l /\
      nth_error (indexL d) I = Some ib /\ nth_error (vals d) I = Some vb /\
      RowRep (init I) (length_inc d) c l ib vb r.
  Proof.
    intros HR HI. destruct (nth_error rows I) as [r|] eqn:E.
    - destruct (rp_row _ _ HR _ _ E) as (c & l & ib & vb & H). exists r, c, l, ib, vb. split; [reflexivity|exact H].
    - apply nth_error_None in E. rewrite (rp_rows _ _ HR) in E. lia.
  Qed.

  (** Replacing the data of one row. *)
  Lemma Rep_upd d rows d' I r r' c' l' ib' vb' :
    Rep d rows -> nth_error rows I = Some r -> same_cfg d d' ->
    counts d' = upd (counts d) I c' -> lengths d' = upd (lengths d) I l' ->
    indexL d' = upd (indexL d) I ib' -> vals d' = upd (vals d) I vb' ->
    (nnz d' + Z.of_nat (length r) = nnz d + Z.of_nat (length r'))%Z ->
    RowRep (init I) (length_inc d) c' l' ib' vb' r' ->
    Rep d' (upd rows I r').
  Proof.
    intros HR Hr (Hn & Hinc & _ & _) Hc Hl Hi Hv Hz HRR. destruct HR.
    assert (HI : I < num_dofs d).
    { rewrite <- rp_rows0. apply nth_error_Some. congruence. }
    constructor; rewrite ?Hc, ?Hl, ?Hi, ?Hv, ?upd_length, ?Hn; auto.
    - intros I0 r0. rewrite nth_error_upd.
      destruct (Nat.eqb_spec I I0) as [->|HI0]; simpl.
      + rewrite (proj2 (Nat.ltb_lt _ _)) by lia. intros E; inversion E; subst r0.
        exists c', l', ib', vb'. rewrite !nth_error_upd_eq by lia. rewrite Hinc. auto 10.
      + intros E. destruct (rp_row0 _ _ E) as (c & l & ib & vb & H1 & H2 & H3 & H4 & H5).
        exists c, l, ib, vb. rewrite !nth_error_upd_neq by auto. rewrite Hinc. auto 10.
    - pose proof (concat_upd_length _ _ _ r' Hr). lia.
  Qed.

  Lemma findIndex_ok d rows I J : Rep d rows -> I < num_dofs d ->
    exists r b m, nth_error rows I = Some r /\ findIndex V W d I J = Ok (b, m) /\ located V r J b m.
  Proof.
    intros HR HI. destruct (Rep_row _ _ _ HR HI) as (r & c & l & ib & vb & Hr & Hc & Hl & Hi & Hv & HRR).
    pose proof (RowRep_le _ _ _ _ _ _ _ HRR) as Hle. destruct HRR. destruct rr_i0 as [ji ->]. subst c.
    unfold findIndex. rewrite (aget_ok _ _ _ Hc), (aget_ok _ _ _ Hi). cbn [bind].
    destruct (Nat.ltb_spec (length r) 20).
    - destruct (find_linear_ok V W [] r ji J (length r)) as (b & m & E & HL); auto; try lia.
      { intros p []. }
      exists r, b, m. auto.
    - destruct (find_bisect_ok V W r ji J rr_s0 ltac:(lia) (S (length r)) 0 (length r)) as (b & m & E & HL);
        auto; try lia.
      exists r, b, m. auto.
  Qed.

  Lemma delete_at_ok d rows I l1 K v l2 :
    Rep d rows -> nth_error rows I = Some (l1 ++ (K, v) :: l2) ->
    exists d', delete_at V d I (length l1) = Ok (d', v) /\ same_cfg d d' /\
      Rep d' (upd rows I (l1 ++ l2)).
  Proof.
    intros HR Hr.
    assert (HI : I < num_dofs d).
    { rewrite <- (rp_rows _ _ HR). apply nth_error_Some. congruence. }
    destruct (Rep_row _ _ _ HR HI) as (r & c & l & ib & vb & Hr' & Hc & Hl & Hi & Hv & HRR).
    rewrite Hr in Hr'; inversion Hr'; subst r; clear Hr'.
    assert (HRR' := HRR). destruct HRR as [Hcr Hs [ji ->] [jv ->] Hil Hvl Hlk HlW].
    destruct (shift_left_ok V l1 (K, v) l2 ji jv c (length l1)) as (x & y & E); auto.
    { rewrite Hcr, app_length; simpl; lia. }
    unfold delete_at.
    rewrite (aget_ok _ _ _ Hi), (aget_ok _ _ _ Hv), (aget_ok _ _ _ Hc). cbn [bind].
    assert (Hrd : rd (fV (l1 ++ (K, v) :: l2) ++ jv) (length l1) = Ok v).
    { rewrite fV_app, fV_cons, <- app_assoc. apply rd_at. rewrite fV_length; auto. }
    rewrite Hrd. cbn [bind]. rewrite E. cbn [bind].
    rewrite !aset_ok by (rewrite ?(rp_i _ _ HR), ?(rp_v _ _ HR), ?(rp_c _ _ HR); lia). cbn [bind].
    eexists; split; [reflexivity|]. split; [unfold same_cfg; auto|].
    eapply Rep_upd with (I := I) (l' := l); eauto; cbn; try reflexivity.
    - unfold same_cfg; auto.
    - symmetry. apply upd_same; auto.
    - rewrite !app_length; simpl; lia.
    - constructor.
      + rewrite Hcr, !app_length; simpl; lia.
      + apply sorted_app_inv in Hs as (H1 & H2 & H3). apply sorted_cons in H2 as [H2 H2'].
        apply sorted_app; auto. intros p q Hp Hq. apply H3; simpl; auto.
      + exists (x :: ji). reflexivity.
      + exists (y :: jv). reflexivity.
      + rewrite !app_length, !fI_length, ?app_length in *; simpl in *; lia.
      + rewrite !app_length, !fV_length, ?app_length in *; simpl in *; lia.
      + assumption.
      + assumption.
  Qed.

  Lemma realloc_app {A} (a b : buf A) n : length (a ++ b) <= n ->
    realloc (a ++ b) n = a ++ (b ++ repeat None (n - length (a ++ b))).
  Proof. intros H. unfold realloc. rewrite firstn_all2 by lia. rewrite <- app_assoc. reflexivity. Qed.

  (** Making room for one more entry. *)
  Lemma grow_ok d rows I r c l :
    Rep d rows -> nth_error rows I = Some r ->
    nth_error (counts d) I = Some c -> nth_error (lengths d) I = Some l ->
    0 < length_inc d -> S (length r) <= max_row W (init I) (length_inc d) ->
    exists d1, (if c =? l then increaseSize V W d I (length_inc d) else Ok d) = Ok d1 /\
      same_cfg d d1 /\ Rep d1 rows /\
      counts d1 = counts d /\
      exists l1 ib vb, nth_error (lengths d1) I = Some l1 /\ nth_error (indexL d1) I = Some ib /\
        nth_error (vals d1) I = Some vb /\ length r < l1.
  Proof.
    intros HR Hr Hc Hl Hinc Hcap.
    assert (HI : I < num_dofs d).
    { rewrite <- (rp_rows _ _ HR). apply nth_error_Some. congruence. }
    destruct (Rep_row _ _ _ HR HI) as (r0 & c0 & l0 & ib & vb & Hr' & Hc' & Hl' & Hi & Hv & HRR).
    assert (r0 = r) by congruence. assert (c0 = c) by congruence. assert (l0 = l) by congruence. subst r0 c0 l0.
    pose proof (RowRep_le _ _ _ _ _ _ _ HRR) as Hle.
    destruct (Nat.eqb_spec c l) as [->|Hcl].
    - assert (HRR' := HRR). destruct HRR as [Hcr Hs [ji Hib] [jv Hvb] Hil Hvl [k Hlk] HlW].
      assert (Hnew : l + length_inc d < W).
      { unfold max_row in Hcap. set (q := (W - 1 - init I) / length_inc d) in *.
        assert (length_inc d * q <= W - 1 - init I) by (apply Nat.mul_div_le; lia).
        assert (k < q) by (apply Nat.nle_gt; intros Hq; nia). nia. }
      unfold increaseSize. rewrite (aget_ok _ _ _ Hl). cbn [bind].
      unfold wrap. rewrite Nat.mod_small by lia.
      rewrite !aset_ok by (rewrite (rp_l _ _ HR); lia). cbn [bind].
      rewrite (aget_ok _ _ _ Hi), (aget_ok _ _ _ Hv). cbn [bind].
      rewrite !aset_ok by (rewrite ?(rp_i _ _ HR), ?(rp_v _ _ HR); lia). cbn [bind].
      eexists; split; [reflexivity|]. split; [unfold same_cfg; auto|]. split; [|split; [reflexivity|]].
      + replace rows with (upd rows I r) by (apply upd_same; auto).
        eapply Rep_upd with (I := I) (c' := l) (l' := l + length_inc d)
          (ib' := realloc ib (l + length_inc d)) (vb' := realloc vb (l + length_inc d)) (d := d) (r := r);
          auto; cbn; try reflexivity.
        * unfold same_cfg; auto.
        * symmetry; apply upd_same; auto.
        * constructor; rewrite ?realloc_length; auto.
          -- exists (ji ++ repeat None (l + length_inc d - length ib)). rewrite Hib.
             rewrite realloc_app; [reflexivity|]. rewrite <- Hib. lia.
          -- exists (jv ++ repeat None (l + length_inc d - length vb)). rewrite Hvb.
             rewrite realloc_app; [reflexivity|]. rewrite <- Hvb. lia.
          -- exists (S k). lia.
      + cbn. exists (l + length_inc d), (realloc ib (l + length_inc d)), (realloc vb (l + length_inc d)).
        rewrite !nth_error_upd_eq by (rewrite ?(rp_l _ _ HR), ?(rp_i _ _ HR), ?(rp_v _ _ HR); lia).
        repeat split; auto. lia.
    - exists d. split; auto. split; [apply same_cfg_refl|]. split; auto. split; auto.
      exists l, ib, vb. repeat split; auto. destruct HRR. lia.
  Qed.

  Lemma insert_ok d rows I l1 l2 J v :
    Rep d rows -> nth_error rows I = Some (l1 ++ l2) ->
    (forall p, In p l1 -> (fst p < J)%Z) -> (forall p, In p l2 -> (J < fst p)%Z) ->
    0 < length_inc d -> S (length (l1 ++ l2)) <= max_row W (init I) (length_inc d) ->
    exists d', (c <- aget (counts d) I ;;
      l <- aget (lengths d) I ;;
      d1 <- (if c =? l then increaseSize V W d I (length_inc d) else Ok d) ;;
      r <- aget (indexL d1) I ;;
      w <- aget (vals d1) I ;;
      '(r', w') <- shift_right V c (length l1) (r, w) ;;
      r'' <- wr r' (length l1) J ;;
      w'' <- wr w' (length l1) v ;;
      iL <- aset (indexL d1) I r'' ;;
      vs <- aset (vals d1) I w'' ;;
      cs <- aset (counts d1) I (wrap W (c + 1)) ;;
      Ok (TD (num_dofs d1) (length_inc d1) (deleteHits d1) (logicalAndHits d1) (nnz d1 + 1)
             cs (lengths d1) iL vs (it_i d1) (it_jj d1), v)) = Ok (d', v) /\ same_cfg d d' /\
      Rep d' (upd rows I (l1 ++ (J, v) :: l2)).
  Proof.
    intros HR Hr H1 H2 Hinc Hcap.
    assert (HI : I < num_dofs d).
    { rewrite <- (rp_rows _ _ HR). apply nth_error_Some. congruence. }
    destruct (Rep_row _ _ _ HR HI) as (r0 & c & l & ib0 & vb0 & Hr' & Hc & Hl & Hi0 & Hv0 & HRR0).
    assert (r0 = l1 ++ l2) by congruence; subst r0.
    destruct (grow_ok _ _ _ _ _ _ HR Hr Hc Hl Hinc Hcap)
      as (d1 & E & Hcfg & HR1 & Hcs & ln & ib & vb & Hl1 & Hi1 & Hv1 & Hlt).
    rewrite (aget_ok _ _ _ Hc), (aget_ok _ _ _ Hl). cbn [bind]. rewrite E. cbn [bind].
    rewrite (aget_ok _ _ _ Hi1), (aget_ok _ _ _ Hv1). cbn [bind].
    destruct (rp_row _ _ HR1 _ _ Hr) as (c1 & l1' & ib1 & vb1 & Hc1 & Hl1' & Hi1' & Hv1' & HRR).
    rewrite Hi1 in Hi1'; inversion Hi1'; subst ib1. rewrite Hv1 in Hv1'; inversion Hv1'; subst vb1.
    rewrite Hl1 in Hl1'; inversion Hl1'; subst l1'.
    rewrite Hcs, Hc in Hc1; inversion Hc1; subst c1.
    destruct HRR as [Hcr Hs [ji ->] [jv ->] Hil Hvl Hlk HlW].
    destruct ji as [|x ji]; [rewrite !app_length, fI_length, app_length in *; simpl in *; lia|].
    destruct jv as [|y jv]; [rewrite !app_length, fV_length, app_length in *; simpl in *; lia|].
    destruct (shift_right_ok V l1 l2 x y ji jv c (length l1)) as (x' & y' & E'); auto.
    { rewrite Hcr, app_length. lia. }
    rewrite E'. cbn [bind].
    rewrite wr_at by (rewrite fI_length; auto). cbn [bind].
    rewrite wr_at by (rewrite fV_length; auto). cbn [bind].
    assert (num_dofs d1 = num_dofs d) as Hnd by apply Hcfg.
    rewrite !aset_ok by (rewrite ?(rp_i _ _ HR1), ?(rp_v _ _ HR1), ?(rp_c _ _ HR1); lia). cbn [bind].
    eexists; split; [reflexivity|].
    split; [destruct Hcfg as (? & ? & ? & ?); unfold same_cfg; cbn; auto|].
    assert (Hic : length_inc d1 = length_inc d) by apply Hcfg.
    eapply Rep_upd with (I := I) (l' := ln); eauto; cbn; try reflexivity.
    - unfold same_cfg; cbn; auto.
    - symmetry; apply upd_same; auto.
    - rewrite !app_length; simpl; lia.
    - unfold wrap. rewrite Nat.mod_small by lia. constructor.
      + rewrite Hcr, !app_length; simpl; lia.
      + apply sorted_app_inv in Hs as (Hs1 & Hs2 & Hs3). apply sorted_app; auto.
        * apply sorted_cons; split; auto.
        * intros p q Hp [<-|Hq]; auto.
      + exists ji. rewrite fI_app, fI_cons, <- app_assoc. reflexivity.
      + exists jv. rewrite fV_app, fV_cons, <- app_assoc. reflexivity.
      + rewrite <- Hil. rewrite !app_length, !fI_length, ?app_length; simpl. rewrite app_length, fI_length. lia.
      + rewrite <- Hvl. rewrite !app_length, !fV_length, ?app_length; simpl. rewrite app_length, fV_length. lia.
      + assumption.
      + assumption.
  Qed.

  (** * Abstraction *)
  Definition abs (rows : list row) : amap V :=
    fun I J => match nth_error rows I with Some r => rlookup V r J | None => None end.

  Definition meq (m m' : amap V) : Prop := forall i j, m i j = m' i j.

  Lemma meq_refl m : meq m m.
  Proof. intros i j; reflexivity. Qed.
  Lemma meq_sym m m' : meq m m' -> meq m' m.
  Proof. intros H i j; symmetry; apply H. Qed.
  Lemma meq_trans m1 m2 m3 : meq m1 m2 -> meq m2 m3 -> meq m1 m3.
  Proof. intros H1 H2 i j; rewrite H1; apply H2. Qed.

  Lemma put_meq m m' I J o : meq m m' -> meq (put m I J o) (put m' I J o).
  Proof. intros H i j. unfold put. destruct (_ && _); auto. Qed.

  Lemma abs_upd rows I r r' J o :
    nth_error rows I = Some r ->
    (forall j, rlookup V r' j = if Z.eqb j J then o else rlookup V r j) ->
    meq (abs (upd rows I r')) (put (abs rows) I J o).
  Proof.
    intros Hr Hl i j. unfold abs, put. rewrite nth_error_upd.
    rewrite (Nat.eqb_sym I i).
    destruct (Nat.eqb_spec i I) as [->|Hi]; simpl; auto.
    rewrite (proj2 (Nat.ltb_lt _ _)) by (apply nth_error_Some; congruence).
    rewrite Hl, Hr. reflexivity.
  Qed.

  Lemma rlookup_insert (l1 l2 : row) J v j :
    (forall p, In p l1 -> (fst p < J)%Z) -> (forall p, In p l2 -> (J < fst p)%Z) ->
    rlookup V (l1 ++ (J, v) :: l2) j = if Z.eqb j J then Some v else rlookup V (l1 ++ l2) j.
  Proof.
    intros H1 H2. rewrite !rlookup_app. simpl. rewrite (Z.eqb_sym J j).
    destruct (Z.eqb_spec j J) as [->|]; auto.
    rewrite rlookup_none; auto. intros p Hp; specialize (H1 p Hp); lia.
  Qed.

  Lemma rlookup_delete (l1 l2 : row) J v j :
    (forall p, In p l1 -> (fst p < J)%Z) -> (forall p, In p l2 -> (J < fst p)%Z) ->
    rlookup V (l1 ++ l2) j = if Z.eqb j J then None else rlookup V (l1 ++ (J, v) :: l2) j.
  Proof.
    intros H1 H2. rewrite !rlookup_app. simpl. rewrite (Z.eqb_sym J j).
    destruct (Z.eqb_spec j J) as [->|]; auto.
    rewrite !rlookup_none; auto; intros p Hp; [specialize (H2 p Hp)|specialize (H1 p Hp)]; lia.
  Qed.

  Definition mode_d (d : tdict) : mode := mode_of (deleteHits d) (logicalAndHits d).

  Lemma row_card_len (rows : list row) I r n :
    nth_error rows I = Some r -> rows_sorted r -> row_card_le (abs rows) I n -> length r <= n.
  Proof.
    intros Hr Hs H. rewrite <- (map_length fst). apply H.
    - unfold rows_sorted in Hs. clear -Hs. induction (map fst r) as [|a l IH]; constructor.
      + inversion Hs as [|? ? ? Hf]; subst. rewrite Forall_forall in Hf. intros Hin. specialize (Hf _ Hin). lia.
      + apply IH. inversion Hs; auto.
    - intros j Hj. unfold abs; rewrite Hr. apply in_map_iff in Hj as ([k v] & <- & Hin).
      cbn [fst]. rewrite (rlookup_in V r k v) by auto. discriminate.
  Qed.

  Lemma Rep_sorted d rows I r : Rep d rows -> nth_error rows I = Some r -> rows_sorted r.
  Proof. intros HR Hr. destruct (rp_row _ _ HR _ _ Hr) as (? & ? & ? & ? & ? & ? & ? & ? & []). auto. Qed.

  Lemma enterValue_ok d rows I J v :
    Rep d rows -> I < num_dofs d -> 0 < length_inc d ->
    row_card_le (fst (spec_enter bor (mode_d d) (abs rows) I J v)) I (max_row W (init I) (length_inc d)) ->
    exists d' rows', enterValue V bor W d I J v = Ok (d', snd (spec_enter bor (mode_d d) (abs rows) I J v)) /\
      same_cfg d d' /\ Rep d' rows' /\ meq (abs rows') (fst (spec_enter bor (mode_d d) (abs rows) I J v)).
  Proof.
    intros HR HI Hinc Hcap. destruct (findIndex_ok d rows I J HR HI) as (r & b & m & Hr & E & HL).
    assert (Hs := Rep_sorted _ _ _ _ HR Hr).
    unfold enterValue. rewrite E. cbn [bind].
    unfold spec_enter in *. change (abs rows I J) with
      (match nth_error rows I with Some r => rlookup V r J | None => None end) in *.
    rewrite Hr in *.
    destruct b.
    - apply located_true in HL as (l1 & w & l2 & -> & -> & Hlk & H1 & H2). rewrite Hlk in *.
      unfold mode_d, mode_of in *. destruct (deleteHits d) eqn:Hdel.
      + destruct (delete_at_ok d rows I l1 J w l2 HR Hr) as (d' & E' & Hcfg & HR').
        exists d', (upd rows I (l1 ++ l2)). cbn [fst snd]. conj4; auto.
        eapply abs_upd; eauto. intros j. apply rlookup_delete; auto.
      + destruct (rp_row _ _ HR _ _ Hr) as (c & l & ib & vb & Hc & Hl & Hi & Hv & HRR).
        rewrite (aget_ok _ _ _ Hv). cbn [bind].
        destruct HRR as [Hcr Hs' Hib [jv Hvb] Hil Hvl Hlk' HlW].
        assert (Hvb' : vb = fV l1 ++ Some w :: (fV l2 ++ jv)).
        { rewrite Hvb, fV_app, fV_cons, <- app_assoc. reflexivity. }
        rewrite Hvb'. rewrite rd_at by (rewrite fV_length; auto). cbn [bind].
        destruct (logicalAndHits d) eqn:Hor; cbn [fst snd].
        * rewrite wr_at by (rewrite fV_length; auto). cbn [bind].
          rewrite aset_ok by (rewrite (rp_v _ _ HR); auto). cbn [bind].
          eexists _, (upd rows I (l1 ++ (J, bor w v) :: l2)). split; [reflexivity|].
          split; [unfold same_cfg; cbn; auto|]. split.
          -- eapply Rep_upd with (I := I) (c' := c) (l' := l) (ib' := ib); eauto; cbn; try reflexivity.
             ++ unfold same_cfg; cbn; auto.
             ++ symmetry; apply upd_same; auto.
             ++ symmetry; apply upd_same; auto.
             ++ symmetry; apply upd_same; auto.
             ++ rewrite !app_length; simpl; lia.
             ++ constructor; auto.
                ** rewrite Hcr, !app_length; simpl; lia.
                ** unfold rows_sorted in *. rewrite map_app in *. simpl in *. exact Hs.
                ** destruct Hib as [ji ->]. exists ji. rewrite !fI_app, !fI_cons. reflexivity.
                ** exists jv. rewrite fV_app, fV_cons, <- app_assoc. reflexivity.
                ** rewrite <- Hvl, Hvb'. rewrite !app_length. simpl. reflexivity.
          -- eapply abs_upd; eauto. intros j. rewrite !rlookup_app. simpl. rewrite (Z.eqb_sym J j).
             destruct (Z.eqb_spec j J) as [->|]; auto.
             rewrite rlookup_none; auto. intros p Hp; specialize (H1 p Hp); lia.
        * exists d, rows. split; auto. split; [apply same_cfg_refl|]. split; auto. apply meq_refl.
    - apply located_false in HL as (l1 & l2 & -> & -> & Hlk & H1 & H2). rewrite Hlk in *. cbn [fst snd] in *.
      assert (Hput : meq (abs (upd rows I (l1 ++ (J, v) :: l2))) (put (abs rows) I J (Some v))).
      { eapply abs_upd; eauto. intros j. apply rlookup_insert; auto. }
      destruct (insert_ok d rows I l1 l2 J v HR Hr H1 H2 Hinc) as (d' & E' & Hcfg & HR').
      { replace (S (length (l1 ++ l2))) with (length (l1 ++ (J, v) :: l2)) by (rewrite !app_length; simpl; lia).
        eapply (row_card_len (upd rows I (l1 ++ (J, v) :: l2)) I).
        - apply nth_error_upd_eq. apply nth_error_Some; congruence.
        - apply sorted_app_inv in Hs as (Hs1 & Hs2 & Hs3). apply sorted_app; auto.
          + apply sorted_cons; split; auto.
          + intros p q Hp [<-|Hq]; auto.
        - intros js Hnd Hjs. apply Hcap; auto. intros j Hj. specialize (Hjs j Hj). rewrite Hput in Hjs. exact Hjs. }
      exists d', (upd rows I (l1 ++ (J, v) :: l2)). conj4; auto.
  Qed.

  Lemma removeValue_ok d rows I J :
    Rep d rows -> I < num_dofs d ->
    exists d' rows', removeValue V invalid W d I J = Ok (d', spec_get invalid (abs rows) I J) /\
      same_cfg d d' /\ Rep d' rows' /\ meq (abs rows') (put (abs rows) I J None).
  Proof.
    intros HR HI. destruct (findIndex_ok d rows I J HR HI) as (r & b & m & Hr & E & HL).
    unfold removeValue. rewrite E. cbn [bind].
    unfold spec_get. change (abs rows I J) with
      (match nth_error rows I with Some r => rlookup V r J | None => None end).
    rewrite Hr. destruct b.
    - apply located_true in HL as (l1 & w & l2 & -> & -> & Hlk & H1 & H2). rewrite Hlk.
      destruct (delete_at_ok d rows I l1 J w l2 HR Hr) as (d' & E' & Hcfg & HR').
      exists d', (upd rows I (l1 ++ l2)). conj4; auto.
      eapply abs_upd; eauto. intros j. apply rlookup_delete; auto.
    - apply located_false in HL as (l1 & l2 & -> & -> & Hlk & H1 & H2). rewrite Hlk.
      exists d, rows. split; auto. split; [apply same_cfg_refl|]. split; auto.
      intros i j. unfold put. destruct (Nat.eqb_spec i I) as [->|]; simpl; auto.
      destruct (Z.eqb_spec j J) as [->|]; auto. unfold abs. rewrite Hr, Hlk. reflexivity.
  Qed.

  Lemma getValue_ok d rows I J :
    Rep d rows -> I < num_dofs d -> getValue V invalid W d I J = Ok (spec_get invalid (abs rows) I J).
  Proof.
    intros HR HI. destruct (findIndex_ok d rows I J HR HI) as (r & b & m & Hr & E & HL).
    unfold getValue. rewrite E. cbn [bind].
    unfold spec_get. change (abs rows I J) with
      (match nth_error rows I with Some r => rlookup V r J | None => None end).
    rewrite Hr. destruct b.
    - apply located_true in HL as (l1 & w & l2 & -> & -> & Hlk & H1 & H2). rewrite Hlk.
      destruct (rp_row _ _ HR _ _ Hr) as (c & l & ib & vb & Hc & Hl & Hi & Hv & HRR).
      rewrite (aget_ok _ _ _ Hv). cbn [bind]. destruct HRR as [Hcr Hs' Hib [jv ->] Hil Hvl Hlk' HlW].
      rewrite fV_app, fV_cons, <- app_assoc. cbn [app]. apply rd_at. rewrite fV_length; auto.
    - apply located_false in HL as (l1 & l2 & -> & -> & Hlk & H1 & H2). rewrite Hlk. reflexivity.
  Qed.

  (** * Histories *)
  Lemma spec_enter_meq md m m' I J v : meq m m' ->
    meq (fst (spec_enter bor md m I J v)) (fst (spec_enter bor md m' I J v)) /\
    snd (spec_enter bor md m I J v) = snd (spec_enter bor md m' I J v).
  Proof.
    intros H. unfold spec_enter. rewrite (H I J). destruct (m' I J); [destruct md|]; cbn; split; auto using put_meq.
  Qed.

  Lemma spec_step_meq md m m' o : meq m m' ->
    meq (fst (spec_step bor invalid md m o)) (fst (spec_step bor invalid md m' o)) /\
    snd (spec_step bor invalid md m o) = snd (spec_step bor invalid md m' o).
  Proof.
    intros H. destruct o; cbn [spec_step].
    - apply spec_enter_meq; auto.
    - cbn. split; [apply put_meq; auto|]. unfold spec_get. rewrite (H I J). reflexivity.
    - cbn. split; auto. unfold spec_get. rewrite (H I J). reflexivity.
  Qed.

  Lemma row_card_meq m m' I n : meq m m' -> row_card_le m I n -> row_card_le m' I n.
  Proof. intros H H1 js Hnd Hjs. apply H1; auto. intros j Hj. rewrite H. auto. Qed.

  Lemma step_ok d rows m o :
    Rep d rows -> meq (abs rows) m -> op_row o < num_dofs d -> 0 < length_inc d ->
    (forall I, row_card_le (fst (spec_step bor invalid (mode_d d) m o)) I (max_row W (init I) (length_inc d))) ->
    exists d' rows', step V bor invalid W d o = Ok (d', snd (spec_step bor invalid (mode_d d) m o)) /\
      same_cfg d d' /\ Rep d' rows' /\ meq (abs rows') (fst (spec_step bor invalid (mode_d d) m o)).
  Proof.
    intros HR Hm HI Hinc Hcap. destruct (spec_step_meq (mode_d d) _ _ o Hm) as [Hf Hsn]. rewrite <- Hsn.
    destruct o as [I J v|I J|I J]; cbn [op_row] in HI; cbn [step].
    - destruct (enterValue_ok d rows I J v HR HI Hinc) as (d' & rows' & E & Hc & HR' & Hm').
      { eapply row_card_meq; [apply meq_sym; exact Hf|]. apply Hcap. }
      exists d', rows'. conj4; auto. eapply meq_trans; eauto.
    - destruct (removeValue_ok d rows I J HR HI) as (d' & rows' & E & Hc & HR' & Hm').
      exists d', rows'. conj4; auto. eapply meq_trans; eauto.
    - rewrite (getValue_ok d rows I J HR HI). cbn [bind].
      exists d, rows. split; auto. split; [apply same_cfg_refl|]. split; auto.
  Qed.

  Lemma spec_run_app md m p o :
    fst (spec_run bor invalid md m (p ++ [o])) = fst (spec_step bor invalid md (fst (spec_run bor invalid md m p)) o).
  Proof.
    revert m; induction p as [|x p IH]; intros m; cbn [spec_run app].
    - cbn [fst]. destruct (spec_step bor invalid md m o); reflexivity.
    - destruct (spec_step bor invalid md m x) as [m1 v1]. specialize (IH m1).
      destruct (spec_run bor invalid md m1 p) as [m2 v2].
      destruct (spec_run bor invalid md m1 (p ++ [o])) as [m3 v3]. cbn in *. exact IH.
  Qed.

  Lemma run_ok ops : forall d rows m,
    Rep d rows -> meq (abs rows) m -> 0 < length_inc d ->
    (forall o, In o ops -> op_row o < num_dofs d) ->
    (forall p q, ops = p ++ q -> forall I,
        row_card_le (fst (spec_run bor invalid (mode_d d) m p)) I (max_row W (init I) (length_inc d))) ->
    exists d' rows', run V bor invalid W d ops = Ok (d', snd (spec_run bor invalid (mode_d d) m ops)) /\
      same_cfg d d' /\ Rep d' rows' /\ meq (abs rows') (fst (spec_run bor invalid (mode_d d) m ops)).
  Proof.
    induction ops as [|o ops IH]; intros d rows m HR Hm Hinc Hops Hcap.
    - exists d, rows. cbn. split; auto. split; [apply same_cfg_refl|]. auto.
    - destruct (step_ok d rows m o HR Hm) as (d1 & rows1 & E & Hc & HR1 & Hm1); auto.
      { apply Hops; left; auto. }
      { intros I. specialize (Hcap [o] ops eq_refl I). cbn [spec_run] in Hcap.
        destruct (spec_step bor invalid (mode_d d) m o); exact Hcap. }
      cbn [run spec_run]. rewrite E. cbn [bind].
      assert (Hmd : mode_d d1 = mode_d d).
      { unfold mode_d. destruct Hc as (_ & _ & -> & ->). reflexivity. }
      assert (Hi1 : length_inc d1 = length_inc d) by apply Hc.
      assert (Hn1 : num_dofs d1 = num_dofs d) by apply Hc.
      destruct (IH d1 rows1 (fst (spec_step bor invalid (mode_d d) m o))) as (d' & rows' & E' & Hc' & HR' & Hm'); auto.
      { rewrite Hi1; auto. }
      { intros o' Ho. rewrite Hn1. apply Hops; right; auto. }
      { intros p q -> I. rewrite Hmd, Hi1. specialize (Hcap (o :: p) q eq_refl I). cbn [spec_run] in Hcap.
        destruct (spec_step bor invalid (mode_d d) m o). cbn [fst].
        destruct (spec_run bor invalid (mode_d d) a p). exact Hcap. }
      rewrite Hmd in *.
      destruct (spec_step bor invalid (mode_d d) m o) as [m1 v1]. cbn [fst snd] in *.
      destruct (spec_run bor invalid (mode_d d) m1 ops) as [m2 v2]. cbn [fst snd] in *.
      rewrite E'. cbn [bind]. exists d', rows'. conj4; auto. eapply same_cfg_trans; eauto.
  Qed.

  Lemma abs_nonempty rows i j : abs rows i j <> None <-> exists r, nth_error rows i = Some r /\ In j (map fst r).
  Proof.
    unfold abs. destruct (nth_error rows i) as [r|] eqn:E.
    - split.
      + intros H. exists r; split; auto. destruct (rlookup V r j) as [v|] eqn:Ev; [|congruence].
        apply rlookup_some_in in Ev. apply (in_map fst) in Ev. exact Ev.
      + intros (r' & E' & H). inversion E'; subst r'. intros Hn. apply in_map_iff in H as ([k v] & Hk & Hin).
        simpl in Hk; subst k. clear -Hn Hin. induction r as [|[K w] r IH]; simpl in *; [tauto|].
        destruct (Z.eqb_spec K j); [discriminate|]. destruct Hin as [Hin|Hin]; [congruence|]. auto.
    - split; [congruence|]. intros (r & H & _). discriminate.
  Qed.

  Lemma Rep_card d rows : Rep d rows -> card_eq (abs rows) (Z.to_nat (nnz d)) /\ (0 <= nnz d)%Z.
  Proof.
    intros HR. rewrite (rp_nnz _ _ HR), Nat2Z.id. split; [|lia].
    exists (keys_from V 0 rows). split; [|split].
    - apply keys_from_nodup. intros r Hr. apply In_nth_error in Hr as (i & Hi). eapply Rep_sorted; eauto.
    - apply keys_from_length.
    - intros i j. rewrite keys_from_in, abs_nonempty, Nat.sub_0_r. split.
      + intros (_ & r & H); eauto.
      + intros (r & H). split; [lia|]; eauto.
  Qed.

End Dict.

Arguments abs {V}.
Arguments meq {V}.
Arguments same_cfg {V}.
Arguments Rep {V}.
Arguments mode_d {V}.

Lemma init_rep V W nd i0 inc del orh : i0 < W ->
  Rep W (fun _ => i0) (td_init V nd i0 inc del orh) (repeat [] nd).
Proof.
  intros H. constructor; cbn; rewrite ?repeat_length; auto.
  - intros I r E. apply nth_error_repeat in E as [-> HI].
    exists 0, i0, (alloc i0), (alloc i0). rewrite !nth_error_repeat_some by auto.
    repeat split; auto.
    + constructor.
    + exists (alloc i0); reflexivity.
    + exists (alloc i0); reflexivity.
    + apply alloc_length.
    + apply alloc_length.
    + exists 0; lia.
  - induction nd; simpl; auto.
Qed.

Lemma abs_init V nd : meq (abs (repeat [] nd)) (@amap_empty V).
Proof.
  intros i j. unfold abs, amap_empty. destruct (nth_error (repeat [] nd) i) as [r|] eqn:E; auto.
  apply nth_error_repeat in E as [-> _]. reflexivity.
Qed.
