From Coq Require Import Sorted FinFun.
From Verif Require Import Util TupleDictModel TupleDictSpec TupleDictProofs TupleDictProofs2.
Set Default Proof Using "Type".

(** * Enumeration *)
Section Enum.
  Variable V : Type.
  Variable bor : V -> V -> V.
  Variable invalid : V.
  Variable W : nat.
  Variable init : nat -> nat.
  Local Notation tdict := (tdict V).
  Local Notation row := (list (Z * V)).
  Local Notation entry := (nat * Z * V)%type.

  Definition tag (i : nat) (r : row) : list entry := map (fun p => (i, fst p, snd p)) r.

  Fixpoint entries_from (i : nat) (rows : list row) : list entry :=
    match rows with
    | [] => []
    | r :: t => tag i r ++ entries_from (S i) t
    end.

  Lemma entries_length rows : forall i, length (entries_from i rows) = length (concat rows).
  Proof. induction rows as [|r t IH]; intros i; simpl; auto. unfold tag. rewrite !app_length, map_length, IH. lia. Qed.

  Lemma entries_keys rows : forall i, map fst (entries_from i rows) = keys_from V i rows.
  Proof.
    induction rows as [|r t IH]; intros i; simpl; auto.
    rewrite map_app, IH. unfold tag. rewrite map_map. reflexivity.
  Qed.

  Lemma entries_in rows : (forall r, In r rows -> rows_sorted r) -> forall k i j v,
    In (i, j, v) (entries_from k rows) <-> k <= i /\ abs rows (i - k) j = Some v.
  Proof.
    induction rows as [|r t IH]; intros Hs k i j v; simpl.
    - split; [intros []|]. unfold abs. intros (_ & H). destruct (i - k); discriminate.
    - rewrite in_app_iff. rewrite IH by (intros; apply Hs; right; auto). split.
      + intros [H|(Hk & H)].
        * unfold tag in H. apply in_map_iff in H as (p & E & Hp). inversion E; subst. split; auto.
          rewrite Nat.sub_diag. unfold abs; simpl. apply rlookup_in; [apply Hs; left; auto|].
          destruct p; auto.
        * split; [lia|]. replace (i - k) with (S (i - S k)) by lia. exact H.
      + intros (Hk & H). destruct (i - k) as [|n] eqn:E.
        * left. replace i with k by lia. unfold abs in H; simpl in H. apply rlookup_some_in in H.
          unfold tag. apply in_map_iff. exists (j, v). auto.
        * right. split; [lia|]. replace (i - S k) with n by lia. exact H.
  Qed.

  Lemma StronglySorted_app {A} (R : A -> A -> Prop) a b :
    StronglySorted R a -> StronglySorted R b -> (forall x y, In x a -> In y b -> R x y) ->
    StronglySorted R (a ++ b).
  Proof.
    induction a as [|x a IH]; simpl; auto. intros Ha Hb H. inversion Ha as [|? ? H1 H2]; subst.
    constructor; auto. rewrite Forall_forall in *. intros y Hy. apply in_app_or in Hy as [Hy|Hy]; auto.
  Qed.

  Lemma keys_sorted rows : (forall r, In r rows -> rows_sorted r) -> forall k,
    StronglySorted key_lt (keys_from V k rows).
  Proof.
    induction rows as [|r t IH]; intros Hs k; simpl; [constructor|].
    apply StronglySorted_app.
    - assert (Hr : rows_sorted r) by (apply Hs; left; auto). clear -Hr.
      induction r as [|p r IH]; simpl; constructor.
      + apply IH. apply sorted_cons in Hr as [Hr _]; exact Hr.
      + apply sorted_cons in Hr as [_ Hr]. rewrite Forall_forall. intros x Hx.
        apply in_map_iff in Hx as (q & <- & Hq). right; simpl; auto.
    - apply IH. intros; apply Hs; right; auto.
    - intros x [i j] Hx Hy. apply in_map_iff in Hx as (p & <- & Hp). apply keys_from_in in Hy as (Hk & _).
      left; simpl; lia.
  Qed.

  Lemma Rep_set_iter d rows i jj : Rep W init d rows -> Rep W init (set_iter V d i jj) rows.
  Proof. intros []; constructor; auto. Qed.

  (** Entries of the rows from [i] on. *)
  Definition ents (rows : list row) (i : nat) : list entry := entries_from i (skipn i rows).

  Lemma ents_step rows i r : nth_error rows i = Some r -> ents rows i = tag i r ++ ents rows (S i).
  Proof.
    unfold ents. intros H. replace (skipn i rows) with (r :: skipn (S i) rows); [reflexivity|].
    clear -H. revert i H; induction rows as [|x rows IH]; intros [|i] H; simpl in *; try discriminate.
    - inversion H; auto.
    - rewrite <- (IH i H). reflexivity.
  Qed.

  Lemma ents_end rows i : length rows <= i -> ents rows i = [].
  Proof. intros H. unfold ents. rewrite skipn_all2 by lia. reflexivity. Qed.

  Lemma skip_empty_ok d rows : Rep W init d rows -> forall fuel i,
    i <= num_dofs d -> num_dofs d - i <= fuel ->
    exists i', skip_empty V fuel d i = Ok i' /\ i <= i' <= num_dofs d /\ ents rows i = ents rows i' /\
      (i' < num_dofs d -> exists p r, nth_error rows i' = Some (p :: r)).
  Proof.
    intros HR. induction fuel as [|fuel IH]; intros i Hi Hf.
    - cbn [skip_empty]. destruct (Nat.ltb_spec i (num_dofs d)); [lia|].
      exists i. repeat split; auto. lia.
    - cbn [skip_empty]. destruct (Nat.ltb_spec i (num_dofs d)).
      + destruct (Rep_row _ _ _ _ _ _ HR H) as (r & c & l & ib & vb & Hr & Hc & _ & _ & _ & HRR).
        rewrite (aget_ok _ _ _ Hc). cbn [bind]. rewrite (rr_c _ _ _ _ _ _ _ _ _ HRR).
        destruct (Nat.eqb_spec (length r) 0) as [E|E].
        * destruct (IH (S i)) as (i' & Ei & H1 & H2 & H3); try lia.
          exists i'. repeat split; auto; try lia. rewrite <- H2. rewrite (ents_step _ _ _ Hr).
          destruct r; [reflexivity|discriminate].
        * exists i. repeat split; auto; try lia. intros _. destruct r as [|p r]; [simpl in E; lia|]. eauto.
      + exists i. repeat split; auto. lia.
  Qed.

  (** The iterator stands before the entries [rem]. *)
  Definition at_pos (d : tdict) (rows : list row) (rem : list entry) : Prop :=
    Rep W init d rows /\
    ((it_i d < num_dofs d /\ exists a p b, nth_error rows (it_i d) = Some (a ++ p :: b) /\
        length a = it_jj d /\ rem = tag (it_i d) (p :: b) ++ ents rows (S (it_i d))) \/
     (num_dofs d <= it_i d /\ rem = [])).

  Lemma at_row_start d rows i : Rep W init d rows -> i <= num_dofs d ->
    (i < num_dofs d -> exists p r, nth_error rows i = Some (p :: r)) ->
    at_pos (set_iter V d i 0) rows (ents rows i).
  Proof.
    intros HR Hi Hr. split; [apply Rep_set_iter; auto|]. cbn [set_iter it_i it_jj num_dofs].
    destruct (Nat.lt_ge_cases i (num_dofs d)) as [H|H].
    - left. split; auto. destruct (Hr H) as (p & r & E). exists [], p, r. repeat split; auto.
      apply ents_step; auto.
    - right. split; auto. apply ents_end. rewrite (rp_rows _ _ _ _ _ HR). auto.
  Qed.

  Lemma startIter_ok d rows : Rep W init d rows ->
    exists d', startIter V d = Ok d' /\ at_pos d' rows (entries_from 0 rows).
  Proof.
    intros HR. destruct (skip_empty_ok d rows HR (num_dofs d) 0) as (i & E & Hi & He & Hr); try lia.
    unfold startIter. rewrite E. cbn [bind]. eexists; split; [reflexivity|].
    change (entries_from 0 rows) with (ents rows 0). rewrite He. apply at_row_start; auto. lia.
  Qed.

  Lemma next_ok d rows rem : at_pos d rows rem ->
    match rem with
    | [] => next V d = Ok (d, None)
    | e :: rem' => exists d', next V d = Ok (d', Some e) /\ at_pos d' rows rem'
    end.
  Proof.
    intros (HR & [(Hi & a & p & b & Hr & Ha & ->)|(Hi & ->)]).
    - destruct (Rep_row _ _ _ _ _ _ HR Hi) as (r & c & l & ib & vb & Hr' & Hc & Hl & Hib & Hvb & HRR).
      rewrite Hr in Hr'; inversion Hr'; subst r; clear Hr'.
      destruct HRR as [Hcr Hs [ji ->] [jv ->] Hil Hvl Hlk HlW].
      unfold next. rewrite (proj2 (Nat.ltb_lt _ _) Hi).
      rewrite (aget_ok _ _ _ Hib), (aget_ok _ _ _ Hvb), (aget_ok _ _ _ Hc). cbn [bind].
      destruct p as [j v].
      assert (E1 : rd (fI (a ++ (j, v) :: b) ++ ji) (it_jj d) = Ok j).
      { rewrite fI_app, fI_cons, <- app_assoc. apply rd_at. rewrite fI_length; auto. }
      assert (E2 : rd (fV (a ++ (j, v) :: b) ++ jv) (it_jj d) = Ok v).
      { rewrite fV_app, fV_cons, <- app_assoc. apply rd_at. rewrite fV_length; auto. }
      rewrite E1. cbn [bind]. rewrite E2. cbn [bind tag map app fst snd].
      rewrite app_length in Hcr. simpl in Hcr.
      destruct (Nat.ltb_spec (S (it_jj d)) c).
      + destruct b as [|q b]; [simpl in Hcr; lia|].
        eexists; split; [reflexivity|]. split; [apply Rep_set_iter; auto|].
        left. cbn [set_iter it_i it_jj num_dofs]. split; auto. exists (a ++ [(j, v)]), q, b. rewrite <- app_assoc, app_length.
        repeat split; auto. simpl; lia.
      + destruct b as [|q b]; [|simpl in Hcr; lia].
        destruct (skip_empty_ok d rows HR (num_dofs d) (S (it_i d))) as (i' & E & Hi' & He & Hr'); try lia.
        rewrite E. cbn [bind]. eexists; split; [reflexivity|].
        cbn [map app]. rewrite He. apply at_row_start; auto. lia.
    - unfold next. destruct (Nat.ltb_spec (it_i d) (num_dofs d)); [lia|]. reflexivity.
  Qed.

  Lemma iter_all_ok rows rem : forall fuel d acc, at_pos d rows rem -> length rem < fuel ->
    exists d', iter_all V fuel d acc = Ok (d', acc ++ rem).
  Proof.
    induction rem as [|e rem IH]; intros fuel d acc Hp Hf; destruct fuel as [|fuel]; try (simpl in Hf; lia).
    - pose proof (next_ok _ _ _ Hp) as E. cbn in E. cbn [iter_all]. rewrite E. cbn [bind].
      exists d. rewrite app_nil_r. reflexivity.
    - destruct (next_ok _ _ _ Hp) as (d' & E & Hp'). cbn [iter_all]. rewrite E. cbn [bind].
      destruct (IH fuel d' (acc ++ [e]) Hp') as (d'' & E'); [simpl in Hf; lia|].
      exists d''. rewrite E', <- app_assoc. reflexivity.
  Qed.

  Lemma toDict_ok d rows : Rep W init d rows -> toDict V d = Ok (entries_from 0 rows).
  Proof.
    intros HR. destruct (startIter_ok d rows HR) as (d' & E & Hp).
    unfold toDict. rewrite E. cbn [bind].
    destruct (iter_all_ok rows _ (S (Z.to_nat (nnz d))) d' [] Hp) as (d'' & E').
    { rewrite (rp_nnz _ _ _ _ _ HR), Nat2Z.id, entries_length. lia. }
    rewrite E'. reflexivity.
  Qed.

  (** ** getData *)
  Lemma wr_next {A} (a : list A) n x k : k = length a -> k < n ->
    wr (map Some a ++ repeat None (n - length a)) k x
    = Ok (map Some (a ++ [x]) ++ repeat None (n - length (a ++ [x]))).
  Proof.
    intros -> H. rewrite app_length. simpl.
    replace (n - length a) with (S (n - (length a + 1))) by lia. cbn [repeat].
    rewrite wr_at by (rewrite map_length; auto). rewrite map_app, <- app_assoc. reflexivity.
  Qed.

  Definition ekey (e : entry) : Z := snd (fst e).

  Lemma getData_ok d rows : Rep W init d rows ->
    getData V d = Ok (map (fun e => Some (ekey e)) (entries_from 0 rows), map (fun e => Some (snd e)) (entries_from 0 rows)).
  Proof.
    intros HR. unfold getData.
    set (n := Z.to_nat (nnz d)).
    assert (Hn : n = length (entries_from 0 rows)).
    { unfold n. rewrite (rp_nnz _ _ _ _ _ HR), Nat2Z.id, entries_length. reflexivity. }
    pose (st := fun done : list entry => (length done,
       (map Some (map ekey done) ++ repeat None (n - length (map ekey done)),
        map Some (map snd done) ++ repeat None (n - length (map snd done))))).
    pose (Inv := fun i (s : nat * (buf Z * buf V)) =>
       exists done, entries_from 0 rows = done ++ ents rows i /\ s = st done).
    loop_inv Inv s E HI.
    - lia.
    - exists []. split; [reflexivity|]. unfold st, alloc. cbn. rewrite Nat.sub_0_r. reflexivity.
    - intros i s0 Hi (done & Hd & ->).
      destruct (Rep_row _ _ _ _ _ _ HR (proj2 Hi)) as (r & c & l & ib & vb & Hr & Hc & Hl & Hib & Hvb & HRR).
      destruct HRR as [Hcr Hs [ji Hji] [jv Hjv] Hil Hvl Hlk HlW].
      rewrite (aget_ok _ _ _ Hc). cbn [bind].
      rewrite (ents_step _ _ _ Hr) in Hd.
      pose (Inv2 := fun j (s : nat * (buf Z * buf V)) =>
         exists a b, r = a ++ b /\ length a = j /\ s = st (done ++ tag i a)).
      loop_inv Inv2 s1 E1 HI1.
      + lia.
      + exists [], r. repeat split; auto. unfold tag; cbn [map]. rewrite app_nil_r. reflexivity.
      + intros j s1 Hj (a & b & Hab & Ha & ->).
        destruct b as [|[K v] b]; [rewrite app_nil_r in Hab; subst; lia|].
        unfold st at 1. cbn [fst snd].
        rewrite (aget_ok _ _ _ Hib), (aget_ok _ _ _ Hvb). cbn [bind].
        assert (E1 : rd ib j = Ok K).
        { rewrite Hji, Hab, fI_app, fI_cons, <- app_assoc. apply rd_at. rewrite fI_length; auto. }
        assert (E2 : rd vb j = Ok v).
        { rewrite Hjv, Hab, fV_app, fV_cons, <- app_assoc. apply rd_at. rewrite fV_length; auto. }
        rewrite E1. cbn [bind].
        assert (Hlt : length (done ++ tag i a) < n).
        { rewrite Hn, Hd, Hab. unfold tag. rewrite !map_app, !app_length. simpl. lia. }
        rewrite wr_next by (rewrite ?map_length; auto). cbn [bind].
        rewrite E2. cbn [bind].
        rewrite wr_next by (rewrite ?map_length; auto). cbn [bind].
        eexists; split; [reflexivity|]. exists (a ++ [(K, v)]), b. repeat split.
        * rewrite <- app_assoc. exact Hab.
        * rewrite app_length; simpl; lia.
        * assert (Ht : tag i (a ++ [(K, v)]) = tag i a ++ [(i, K, v)]) by (unfold tag; rewrite map_app; reflexivity).
          rewrite Ht, app_assoc. set (D := done ++ tag i a). unfold st.
          rewrite (map_app ekey D), (map_app snd D), (app_length D). cbn [map length].
          change (ekey (i, K, v)) with K. change (snd (i, K, v)) with v.
          f_equal. lia.
      + destruct HI1 as (a & b & Hab & Ha & ->). exists (st (done ++ tag i a)). split; auto.
        assert (b = []) as ->.
        { subst r. rewrite app_length in Hcr. destruct b; simpl in *; auto; lia. }
        rewrite app_nil_r in Hab; subst a.
        exists (done ++ tag i r). split; auto. rewrite Hd, app_assoc. reflexivity.
    - destruct HI as (done & Hd & ->). rewrite E. unfold st. cbn [bind].
      rewrite ents_end, app_nil_r in Hd by (rewrite (rp_rows _ _ _ _ _ HR); auto). subst done.
      rewrite !map_length, <- Hn, Nat.sub_diag. cbn [repeat]. rewrite !app_nil_r, !map_map. reflexivity.
  Qed.
End Enum.

(** * Pickling *)
Section Pickle.
  Variable V : Type.
  Variable W : nat.
  Variable init : nat -> nat.
  Local Notation tdict := (tdict V).
  Local Notation row := (list (Z * V)).

  Lemma list_ext {A} (a b : list A) : length a = length b ->
    (forall i x, nth_error a i = Some x -> nth_error b i = Some x) -> a = b.
  Proof.
    revert b; induction a as [|x a IH]; intros [|y b] Hl H; simpl in Hl; try discriminate; auto.
    f_equal.
    - specialize (H 0 x eq_refl). simpl in H. congruence.
    - apply IH; auto. intros i z Hz. apply (H (S i) z Hz).
  Qed.

  Lemma Rep_counts d (rows : list row) : Rep W init d rows -> counts d = map (@length _) rows.
  Proof.
    intros HR. symmetry. apply list_ext.
    - rewrite map_length, (rp_rows _ _ _ _ _ HR), (rp_c _ _ _ _ _ HR). reflexivity.
    - intros i x Hx. rewrite nth_error_map in Hx. destruct (nth_error rows i) as [r|] eqn:E; [|discriminate].
      cbn in Hx; inversion Hx; subst x. destruct (rp_row _ _ _ _ _ HR _ _ E) as (c & l & ib & vb & Hc & _ & _ & _ & HRR).
      rewrite Hc. f_equal. apply HRR.
  Qed.

  Lemma pickle_ok d (rows : list row) : Rep W init d rows ->
    exists st d', getstate V d = Ok st /\ setstate V st = Ok d' /\ same_cfg d d' /\
      Rep W (fun i => nth i (map (@length _) rows) 0) d' rows.
  Proof.
    intros HR. unfold getstate. rewrite (getData_ok V W init d rows HR). cbn [bind].
    set (iL := map (fun e => Some (ekey V e)) (entries_from V 0 rows)).
    set (vs := map (fun e => Some (snd e)) (entries_from V 0 rows)).
    exists (num_dofs d, length_inc d, deleteHits d, logicalAndHits d, counts d, iL, vs).
    unfold setstate.
    pose (nd := num_dofs d).
    pose (stI := fun i : nat =>
      (length (concat (firstn i rows)),
       (map (@length _) (firstn i rows) ++ repeat 0 (nd - i),
        (map fI (firstn i rows) ++ repeat (alloc 0) (nd - i),
         map fV (firstn i rows) ++ repeat (alloc 0) (nd - i))))).
    assert (Hlen : length rows = nd) by apply (rp_rows _ _ _ _ _ HR).
    assert (Hcounts := Rep_counts d rows HR).
    match goal with |- exists d', _ /\ bind ?L _ = _ /\ _ => assert (EL : L = Ok (stI nd)) end.
    { pose (Inv := fun i s => s = stI i).
      loop_inv Inv s E HI.
      - lia.
      - unfold Inv, stI. cbn. rewrite Nat.sub_0_r. reflexivity.
      - intros i s0 Hi ->. unfold stI.
        destruct (nth_error rows i) as [r|] eqn:Hr; [|apply nth_error_None in Hr; fold nd in Hi; lia].
        fold nd in Hi.
        assert (Hc : nth_error (counts d) i = Some (length r)).
        { rewrite Hcounts. apply map_nth_error; auto. }
        rewrite (aget_ok _ _ _ Hc). cbn [bind].
        assert (Hfn : length (firstn i rows) = i) by (rewrite firstn_length; lia).
        assert (Hsplit : firstn (S i) rows = firstn i rows ++ [r]).
        { clear -Hr. revert i Hr; induction rows as [|x rows IH]; intros [|i] Hr; simpl in *; try discriminate.
          - inversion Hr; auto.
          - f_equal. apply IH; auto. }
        replace (nd - i) with (S (nd - S i)) by lia. cbn [repeat].
        rewrite aset_ok by (rewrite app_length, map_length; simpl; lia). cbn [bind].
        rewrite upd_at by (rewrite map_length; auto).
        assert (Hent : entries_from V 0 rows = entries_from V 0 (firstn i rows) ++ tag V i r ++ ents V rows (S i)).
        { rewrite <- (ents_step V rows i r Hr). unfold ents. clear.
          enough (G : forall k, entries_from V k rows = entries_from V k (firstn i rows) ++ entries_from V (k + i) (skipn i rows)).
          { apply (G 0). }
          revert i; induction rows as [|x rows IH]; intros [|i] k; simpl; rewrite ?Nat.add_0_r; auto.
          rewrite (IH i (S k)), <- app_assoc. do 3 f_equal. lia. }
        pose (Inv2 := fun j (s : nat * (buf Z * buf V)) => exists a b, r = a ++ b /\ length a = j /\
            s = (length (concat (firstn i rows)) + j,
                 (fI a ++ repeat None (length r - j), fV a ++ repeat None (length r - j)))).
        loop_inv Inv2 s1 E1 HI1.
        + lia.
        + exists [], r. repeat split; auto. unfold alloc. cbn. rewrite Nat.add_0_r, Nat.sub_0_r. reflexivity.
        + intros j s1 Hj (a & b & Hab & Ha & ->).
          destruct b as [|[K v] b]; [rewrite app_nil_r in Hab; subst; lia|].
          assert (Hk : nth_error (entries_from V 0 rows) (length (concat (firstn i rows)) + j) = Some (i, K, v)).
          { rewrite Hent, Hab. rewrite nth_error_app2 by (rewrite entries_length; lia).
            rewrite entries_length. replace (_ + j - _) with j by lia.
            unfold tag. rewrite map_app, <- app_assoc. rewrite nth_error_app2 by (rewrite map_length; lia).
            rewrite map_length, Ha, Nat.sub_diag. reflexivity. }
          assert (Ei : rd iL (length (concat (firstn i rows)) + j) = Ok K).
          { apply rd_ok. unfold iL. rewrite nth_error_map, Hk. reflexivity. }
          assert (Ev : rd vs (length (concat (firstn i rows)) + j) = Ok v).
          { apply rd_ok. unfold vs. rewrite nth_error_map, Hk. reflexivity. }
          rewrite Ei. cbn [bind].
          replace (length r - j) with (S (length r - S j)) by lia. cbn [repeat].
          rewrite wr_at by (rewrite fI_length; auto). cbn [bind]. rewrite Ev. cbn [bind].
          rewrite wr_at by (rewrite fV_length; auto). cbn [bind].
          eexists; split; [reflexivity|]. exists (a ++ [(K, v)]), b. repeat split.
          * rewrite <- app_assoc; exact Hab.
          * rewrite app_length; simpl; lia.
          * rewrite fI_app, fV_app, <- !app_assoc. cbn. f_equal. lia.
        + destruct HI1 as (a & b & Hab & Ha & ->).
          assert (b = []) as ->.
          { apply (f_equal (@length _)) in Hab. rewrite app_length in Hab. destruct b; simpl in *; auto; lia. }
          rewrite app_nil_r in Hab; subst a. rewrite E1. cbn [bind].
          rewrite Nat.sub_diag. cbn [repeat]. rewrite !app_nil_r.
          rewrite aset_ok by (rewrite app_length, map_length; simpl; lia). cbn [bind].
          rewrite aset_ok by (rewrite app_length, map_length; simpl; lia). cbn [bind].
          eexists; split; [reflexivity|]. unfold Inv, stI. rewrite Hsplit.
          rewrite !map_app, concat_app, app_length. cbn [map concat]. rewrite !app_nil_r.
          rewrite <- !app_assoc. cbn [app].
          repeat f_equal.
          * apply upd_at. rewrite map_length; auto.
          * apply upd_at. rewrite map_length; auto.
      - rewrite E. unfold Inv in HI. rewrite HI. reflexivity. }
    rewrite EL. unfold stI. cbn [bind]. rewrite Nat.sub_diag. cbn [repeat]. rewrite !app_nil_r.
    rewrite firstn_all2 by lia.
    eexists; split; [reflexivity|]. split; [reflexivity|]. split; [unfold same_cfg; cbn; auto|].
    constructor; cbn; rewrite ?map_length; auto.
    - apply (rp_c _ _ _ _ _ HR).
    - intros I r Hr. destruct (rp_row _ _ _ _ _ HR _ _ Hr) as (c & l & ib & vb & Hc & Hl & Hib & Hvb & HRR).
      exists (length r), (length r), (fI r), (fV r).
      rewrite !(map_nth_error _ _ _ Hr), Hcounts, (map_nth_error _ _ _ Hr). repeat split; auto.
      + eapply Rep_sorted; eauto.
      + exists []; rewrite app_nil_r; auto.
      + exists []; rewrite app_nil_r; auto.
      + apply fI_length.
      + apply fV_length.
      + exists 0. rewrite Nat.mul_0_l, Nat.add_0_r. symmetry. apply nth_error_nth. apply map_nth_error; auto.
      + pose proof (RowRep_le _ _ _ _ _ _ _ _ _ HRR). destruct HRR. lia.
  Qed.
End Pickle.
