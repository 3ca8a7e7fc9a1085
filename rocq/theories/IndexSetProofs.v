From Coq Require Import Sorted Permutation.
From Verif Require Import Util IndexSetModel.

Local Notation srt := (StronglySorted Z.lt).

(** * qsort *)
Definition fits (l : list Z) : Prop := forall x y, In x l -> In y l -> (- 2^31 <= x - y < 2^31)%Z.

Lemma wrap32_id x : (- 2^31 <= x < 2^31)%Z -> wrap32 x = x.
Proof. intros H. unfold wrap32. rewrite Z.mod_small; lia. Qed.

Lemma qinsert_perm x l : Permutation (x :: l) (qinsert x l).
Proof.
  induction l as [|y t IH]; simpl; [reflexivity|]. destruct (_ <=? 0)%Z; [reflexivity|].
  rewrite perm_swap, IH. reflexivity.
Qed.
Lemma qsort_perm l : Permutation l (qsort l).
Proof. induction l as [|x t IH]; simpl; [reflexivity|]. rewrite <- qinsert_perm. constructor. exact IH. Qed.

Lemma qinsert_sorted x l : fits (x :: l) -> StronglySorted Z.le l -> StronglySorted Z.le (qinsert x l).
Proof.
  induction l as [|y t IH]; intros Hf Hs; simpl; [repeat constructor|].
  unfold compareIndices. rewrite wrap32_id by (apply Hf; simpl; auto).
  destruct (Z.leb_spec (x - y) 0).
  - constructor; auto. constructor; [lia|]. inversion Hs as [|? ? H1 H2]; subst.
    rewrite Forall_forall in *. intros z Hz. specialize (H2 z Hz). lia.
  - inversion Hs as [|? ? H1 H2]; subst. constructor.
    + apply IH; auto. intros u v Hu Hv. apply Hf; simpl in *; tauto.
    + rewrite Forall_forall in *. intros z Hz.
      apply (Permutation_in z (Permutation_sym (qinsert_perm x t))) in Hz. destruct Hz as [->|Hz]; [lia|auto].
Qed.
Lemma qsort_sorted l : fits l -> StronglySorted Z.le (qsort l).
Proof.
  induction l as [|x t IH]; intros Hf; simpl; [constructor|].
  apply qinsert_sorted.
  - intros u v Hu Hv. apply Hf.
    + destruct Hu; [left; auto|right]. eapply Permutation_in; [symmetry; apply qsort_perm|auto].
    + destruct Hv; [left; auto|right]. eapply Permutation_in; [symmetry; apply qsort_perm|auto].
  - apply IH. intros u v Hu Hv; apply Hf; right; auto.
Qed.

Lemma le_nodup_lt l : StronglySorted Z.le l -> NoDup l -> srt l.
Proof.
  induction 1 as [|x l Hs IH Hf]; intros Hn; [constructor|]. inversion Hn; subst.
  constructor; auto. rewrite Forall_forall in *. intros y Hy. specialize (Hf y Hy).
  assert (x <> y) by congruence. lia.
Qed.

Lemma srt_nodup l : srt l -> NoDup l.
Proof.
  induction 1 as [|x l Hs IH Hf]; constructor; auto. rewrite Forall_forall in Hf.
  intros Hx. specialize (Hf x Hx). lia.
Qed.

(** strictly sorted lists are determined by their elements *)
Lemma srt_ext l1 : forall l2, srt l1 -> srt l2 -> (forall x, In x l1 <-> In x l2) -> l1 = l2.
Proof.
  induction l1 as [|x l1 IH]; intros l2 H1 H2 H.
  - destruct l2 as [|y l2]; auto. exfalso. apply (H y). left; auto.
  - destruct l2 as [|y l2]; [exfalso; apply (H x); left; auto|].
    inversion H1 as [|? ? S1 F1]; subst. inversion H2 as [|? ? S2 F2]; subst.
    rewrite Forall_forall in F1, F2.
    assert (x = y).
    { destruct (proj1 (H x) (or_introl eq_refl)) as [|Hx]; auto.
      destruct (proj2 (H y) (or_introl eq_refl)) as [|Hy]; auto.
      specialize (F1 y Hy). specialize (F2 x Hx). lia. }
    subst y. f_equal. apply IH; auto. intros z. split; intros Hz.
    + destruct (proj1 (H z) (or_intror Hz)) as [->|]; auto. specialize (F1 z Hz). lia.
    + destruct (proj2 (H z) (or_intror Hz)) as [->|]; auto. specialize (F2 z Hz). lia.
Qed.

Lemma qsort_srt l : fits l -> NoDup l -> srt (qsort l).
Proof.
  intros Hf Hn. apply le_nodup_lt; [apply qsort_sorted; auto|].
  eapply Permutation_NoDup; [apply qsort_perm|auto].
Qed.

(** * Searching *)
Lemma rd_map (l : list Z) i x : nth_error l i = Some x -> rd (map Some l) i = Ok x.
Proof. intros H. apply rd_ok. rewrite nth_error_map, H. reflexivity. Qed.

Lemma rd_app (p : list Z) x q : rd (map Some (p ++ x :: q)) (length p) = Ok x.
Proof. apply rd_map. rewrite nth_error_app2, Nat.sub_diag by lia. reflexivity. Qed.

(** the answer of a search: the first position holding i *)
Definition first_at (l : list Z) (i : Z) (o : option nat) : Prop :=
  match o with
  | Some p => nth_error l p = Some i /\ forall q, q < p -> nth_error l q <> Some i
  | None => ~ In i l
  end.

Lemma linear_ok i q : forall p, ~ In i p ->
  exists o, ais_linear (map Some (p ++ q)) (length q) (length p) i = Ok o /\ first_at (p ++ q) i o.
Proof.
  induction q as [|x q IH]; intros p Hp; simpl.
  - exists None. split; auto. rewrite app_nil_r. exact Hp.
  - rewrite rd_app. simpl. destruct (Z.eqb_spec x i) as [->|Hx].
    + exists (Some (length p)). split; auto. split.
      * rewrite nth_error_app2, Nat.sub_diag by lia. reflexivity.
      * intros r Hr. rewrite nth_error_app1 by lia. intros E. apply Hp. eapply nth_error_In; eauto.
    + destruct (IH (p ++ [x])) as (o & E & H).
      { rewrite in_app_iff. simpl. intros [?|[?|[]]]; auto. }
      rewrite <- app_assoc in E, H. simpl in E, H. rewrite app_length in E. simpl in E.
      rewrite Nat.add_1_r in E. eauto.
Qed.

Lemma srt_nth l : srt l -> forall i j x y, nth_error l i = Some x -> nth_error l j = Some y -> i < j -> (x < y)%Z.
Proof.
  induction 1 as [|a l Hs IH Hf]; intros i j x y Hi Hj Hij.
  - destruct i; discriminate.
  - destruct j as [|j]; [lia|]. simpl in Hj. rewrite Forall_forall in Hf. destruct i as [|i]; simpl in Hi.
    + inversion Hi; subst. apply Hf. eapply nth_error_In; eauto.
    + eapply IH; eauto. lia.
Qed.

Lemma bisect_ok l i : srt l -> forall fuel low high, low < high <= length l -> high - low < fuel ->
  (forall p, nth_error l p = Some i -> low <= p < high) ->
  exists o, ais_bisect fuel (map Some l) low high i = Ok o /\ first_at l i o.
Proof.
  intros Hs. induction fuel as [|f IH]; intros low high Hlh Hfu Hin; [lia|].
  cbn [ais_bisect].
  destruct (nth_error l low) as [x|] eqn:Ex; [|apply nth_error_None in Ex; lia].
  rewrite (rd_map _ _ _ Ex). cbn [bind].
  destruct (Z.eqb_spec x i) as [->|Hx]; cbn [negb].
  - exists (Some low). split; auto. split; auto. intros q Hq Eq. specialize (Hin q Eq). lia.
  - destruct (Nat.leb_spec (high - low) 1) as [H1|H1].
    + exists None. split; auto. simpl. intros Hi. apply In_nth_error in Hi as (p & Ep).
      specialize (Hin p Ep). assert (p = low) by lia. subst p. congruence.
    + assert (Hm1 : low < (low + high) / 2) by (apply Nat.div_le_lower_bound; lia).
      assert (Hm2 : (low + high) / 2 < high) by (apply Nat.div_lt_upper_bound; lia).
      set (mid := (low + high) / 2) in *.
      destruct (nth_error l mid) as [m|] eqn:Em; [|apply nth_error_None in Em; lia].
      rewrite (rd_map _ _ _ Em). cbn [bind]. destruct (Z.leb_spec m i) as [Hmi|Hmi].
      * apply IH; try lia. intros p Ep. specialize (Hin p Ep).
        destruct (Nat.lt_ge_cases p mid) as [Hp|Hp]; [|lia].
        pose proof (srt_nth l Hs p mid i m Ep Em Hp). lia.
      * apply IH; try lia. intros p Ep. specialize (Hin p Ep).
        destruct (Nat.lt_ge_cases p mid) as [Hp|Hp]; [lia|].
        destruct (Nat.eq_dec p mid) as [->|Hne]; [rewrite Em in Ep; inversion Ep; lia|].
        pose proof (srt_nth l Hs mid p m i Em Ep ltac:(lia)). lia.
Qed.

Lemma search_ok l i : srt l -> exists o, ais_search (map Some l) i = Ok o /\ first_at l i o.
Proof.
  intros Hs. unfold ais_search. rewrite map_length. destruct (Nat.ltb_spec (length l) 20).
  - apply (linear_ok i l []). auto.
  - apply bisect_ok; auto; try lia. intros p Ep. split; [lia|]. apply nth_error_Some. congruence.
Qed.

Lemma inSet_ok l i : srt l -> exists b, inSet (map Some l) i = Ok b /\ (b = true <-> In i l).
Proof.
  intros Hs. destruct (search_ok l i Hs) as (o & E & H). unfold inSet. rewrite E. cbn [bind].
  destruct o as [p|]; eexists; split; eauto; simpl in H.
  - split; auto. intros _. eapply nth_error_In. apply H.
  - split; [discriminate|]. tauto.
Qed.

Lemma rank l i p : srt l -> nth_error l p = Some i -> p = length (filter (fun x => x <? i)%Z l).
Proof.
  intros Hs. revert p. induction Hs as [|a l Hs IH Hf]; intros p Hp; [destruct p; discriminate|].
  rewrite Forall_forall in Hf. simpl. destruct p as [|p]; simpl in Hp.
  - inversion Hp; subst. rewrite Z.ltb_irrefl. assert (filter (fun x => x <? i)%Z l = []) as ->; auto.
    { clear -Hf. induction l as [|b l IH]; simpl; auto.
      destruct (Z.ltb_spec b i); [specialize (Hf b (or_introl eq_refl)); lia|]. apply IH. intros; apply Hf; right; auto. }
  - assert (a < i)%Z by (apply Hf; eapply nth_error_In; eauto).
    destruct (Z.ltb_spec a i); [|lia]. simpl. f_equal. apply IH; auto.
Qed.

Lemma position_ok l i : srt l ->
  (In i l -> position (map Some l) i = Ok (Z.of_nat (length (filter (fun x => x <? i)%Z l)))) /\
  (~ In i l -> position (map Some l) i = Ok (-1)%Z).
Proof.
  intros Hs. destruct (search_ok l i Hs) as (o & E & H). unfold position. rewrite E. cbn [bind].
  destruct o as [p|]; simpl in H.
  - destruct H as [H _]. split.
    + intros _. rewrite (rank _ _ _ Hs H) at 1. reflexivity.
    + intros Hn. destruct Hn. eapply nth_error_In; eauto.
  - split; auto. intros; contradiction.
Qed.

Lemma uinSet_ok l i : exists b, uais_inSet (map Some l) i = Ok b /\ (b = true <-> In i l).
Proof.
  destruct (linear_ok i l []) as (o & E & H); auto. unfold uais_inSet. rewrite map_length. simpl in E. rewrite E. cbn [bind].
  destruct o as [p|]; eexists; split; eauto; simpl in H.
  - split; auto. intros _. eapply nth_error_In. apply H.
  - split; [discriminate|]. tauto.
Qed.

Lemma uposition_ok l i :
  (In i l -> exists p, uais_position (map Some l) i = Ok (Z.of_nat p) /\ nth_error l p = Some i /\ forall q, q < p -> nth_error l q <> Some i) /\
  (~ In i l -> uais_position (map Some l) i = Ok (-1)%Z).
Proof.
  destruct (linear_ok i l []) as (o & E & H); auto. unfold uais_position. rewrite map_length. simpl in E. rewrite E. cbn [bind].
  destruct o as [p|]; simpl in H.
  - split; [eauto|]. intros Hn. destruct Hn. eapply nth_error_In. apply H.
  - split; auto. intros; contradiction.
Qed.

(** * Construction from a set *)
Lemma fill_ok (s : list Z) :
  for_list s (fun i st => let '(k, A) := st in A' <- wr A k i ;; Ok (S k, A')) (0, alloc (length s)) = Ok (length s, map Some s).
Proof.
  destruct (for_list_inv (fun (d : list Z) (st : nat * buf Z) => st = (length d, map Some d ++ alloc (length s - length d)))
              (fun i st => let '(k, A) := st in A' <- wr A k i ;; Ok (S k, A')) s [] (0, alloc (length s))) as (st & E & H).
  - simpl. rewrite Nat.sub_0_r. reflexivity.
  - intros p x q st -> ->. cbn [app]. rewrite app_length. cbn [length].
    replace (length p + S (length q) - length p) with (S (length q)) by lia.
    rewrite wr_next. cbn [bind]. eexists. split; [reflexivity|]. rewrite app_length. cbn [length].
    f_equal; [lia|]. f_equal. f_equal. lia.
  - rewrite E, H. simpl. rewrite Nat.sub_diag. simpl. rewrite app_nil_r. reflexivity.
Qed.

Lemma collect_ok (l : list Z) : forall acc,
  for_list (map Some l) (fun c acc => match c with Some x => Ok (acc ++ [x]) | None => Err EUninit end) acc = Ok (acc ++ l).
Proof.
  induction l as [|x l IH]; intros acc; simpl; [rewrite app_nil_r; auto|].
  rewrite IH, <- app_assoc. reflexivity.
Qed.

Lemma fromSet_ok s : NoDup s -> fits s ->
  exists l, fromSet s = Ok (map Some l) /\ srt l /\ forall x, In x l <-> In x s.
Proof.
  intros Hn Hf. unfold fromSet. rewrite fill_ok. cbn [bind].
  destruct (Nat.ltb_spec 1 (length s)).
  - rewrite collect_ok. cbn [bind app]. exists (qsort s). split; auto. split; [apply qsort_srt; auto|].
    intros x. split; apply Permutation_in; [symmetry|]; apply qsort_perm.
  - exists s. split; auto. split; [|reflexivity]. destruct s as [|a [|b s]]; simpl in *; try lia; repeat constructor.
Qed.

Lemma init_ok a : NoDup a -> fits a ->
  exists l, ais_init (Some a) false = map Some l /\ srt l /\ forall x, In x l <-> In x a.
Proof.
  intros Hn Hf. exists (qsort a). split; auto. split; [apply qsort_srt; auto|].
  intros x. split; apply Permutation_in; [symmetry|]; apply qsort_perm.
Qed.

(** * Iteration *)
Lemma iter_ok q : forall p fuel acc, length q < fuel ->
  ais_iter fuel (map Some (p ++ q)) (length p) acc = Ok (acc ++ q).
Proof.
  induction q as [|x q IH]; intros p fuel acc Hf; (destruct fuel as [|f]; [lia|]); cbn [ais_iter]; unfold ais_step.
  - rewrite map_length, app_nil_r. rewrite Nat.ltb_irrefl. cbn. rewrite app_nil_r. reflexivity.
  - rewrite map_length, app_length. simpl length. destruct (Nat.ltb_spec (length p) (length p + S (length q))); [|lia].
    rewrite rd_app. cbn [bind]. specialize (IH (p ++ [x]) f (acc ++ [x])).
    rewrite app_length, <- !app_assoc in IH. simpl in IH. rewrite Nat.add_1_r in IH. apply IH. simpl in Hf; lia.
Qed.
Lemma list_ok l : ais_list (map Some l) = Ok l.
Proof. unfold ais_list. rewrite map_length. apply (iter_ok l []). lia. Qed.

Fixpoint incr_from (x : Z) (l : list Z) : bool :=
  match l with [] => true | y :: t => (x <? y)%Z && incr_from y t end.
Lemma sorted_loop_ok q : forall p fuel i b, length q < fuel ->
  sorted_loop fuel (map Some (p ++ q)) (length p) i b = Ok (b && incr_from i q).
Proof.
  induction q as [|x q IH]; intros p fuel i b Hf; (destruct fuel as [|f]; [lia|]); cbn [sorted_loop]; unfold ais_step.
  - rewrite map_length, app_nil_r. rewrite Nat.ltb_irrefl. cbn. rewrite andb_true_r. reflexivity.
  - rewrite map_length, app_length. simpl length. destruct (Nat.ltb_spec (length p) (length p + S (length q))); [|lia].
    rewrite rd_app. cbn [bind]. specialize (IH (p ++ [x]) f x (b && (i <? x)%Z)).
    rewrite app_length, <- !app_assoc in IH. simpl in IH. rewrite Nat.add_1_r in IH. rewrite IH by (simpl in Hf; lia).
    simpl. rewrite andb_assoc. reflexivity.
Qed.
Lemma incr_from_srt l : forall x, incr_from x l = true <-> srt (x :: l).
Proof.
  induction l as [|y l IH]; intros x; simpl.
  - split; auto. intros _. repeat constructor.
  - rewrite andb_true_iff, IH, Z.ltb_lt. split.
    + intros [H1 H2]. constructor; auto. inversion H2 as [|? ? ? HF]; subst. constructor; auto.
      rewrite Forall_forall in *. intros z Hz. specialize (HF z Hz). lia.
    + intros H. inversion H as [|? ? ? HF]; subst. split; auto. inversion HF; auto.
Qed.
Lemma isSorted_ok l : exists b, isSorted (map Some l) = Ok b /\ (b = true <-> srt l).
Proof.
  destruct l as [|x l].
  - exists true. split; auto. split; auto. intros _. constructor.
  - exists (incr_from x l). split; [|apply incr_from_srt]. unfold isSorted, ais_step. cbn [map length].
    cbn [Nat.ltb Nat.leb]. cbn [rd nth_error bind].
    rewrite map_length. apply (sorted_loop_ok l [x]). lia.
Qed.

(** * Merging *)
Section Merge.
  Variables e l g : bool.
  Definition emit (b : bool) (x : Z) (o : list Z) := if b then x :: o else o.

  Fixpoint mg (n : nat) (s1 s2 : list Z) : list Z * list Z * list Z :=
    match n, s1, s2 with
    | S n, x :: t1, y :: t2 =>
        if Z.eqb x y then let '(o, r1, r2) := mg n t1 t2 in (emit e x o, r1, r2)
        else if Z.ltb x y then let '(o, r1, r2) := mg n t1 s2 in (emit l x o, r1, r2)
        else let '(o, r1, r2) := mg n s1 t2 in (emit g y o, r1, r2)
    | _, _, _ => ([], s1, s2)
    end.

  Lemma emit_length (b : bool) x o k : (if b then S k else k) + length o = k + length (emit b x o).
  Proof. destruct b; simpl; lia. Qed.

  Ltac at_ends :=
    rewrite !map_length, !app_length; simpl length; rewrite ?Nat.add_0_r, ?Nat.ltb_irrefl, ?andb_false_r.

  Lemma count_ok n : forall (s1 s2 p1 p2 : list Z) k (o r1 r2 : list Z) fuel, n < fuel -> length s1 + length s2 <= n -> mg n s1 s2 = (o, r1, r2) ->
    count_loop e l g fuel (map Some (p1 ++ s1)) (map Some (p2 ++ s2)) (length p1) (length p2) k
    = Ok (length (p1 ++ s1) - length r1, length (p2 ++ s2) - length r2, k + length o).
  Proof.
    induction n as [|n IH]; intros s1 s2 p1 p2 k o r1 r2 fuel Hfu Hn Hm; (destruct fuel as [|f]; [lia|]).
    - destruct s1; destruct s2; simpl in Hn; try lia. simpl in Hm. inversion Hm; subst. simpl.
      rewrite !app_nil_r, !map_length, Nat.ltb_irrefl. simpl. rewrite !Nat.sub_0_r, Nat.add_0_r. reflexivity.
    - destruct s1 as [|x t1]; [|destruct s2 as [|y t2]].
      + simpl in Hm. inversion Hm; subst. cbn [count_loop]. rewrite app_nil_r, !map_length, Nat.ltb_irrefl. cbn [andb length].
        rewrite Nat.sub_0_r, Nat.add_0_r, app_length. repeat f_equal. lia.
      + simpl in Hm. inversion Hm; subst. cbn [count_loop]. rewrite app_nil_r, !map_length, Nat.ltb_irrefl, andb_false_r. cbn [length].
        rewrite Nat.sub_0_r, Nat.add_0_r, app_length. simpl length. repeat f_equal. lia.
      + cbn [count_loop]. rewrite !map_length, !app_length. simpl length.
        replace (length p1 <? length p1 + S (length t1)) with true by (symmetry; apply Nat.ltb_lt; lia).
        replace (length p2 <? length p2 + S (length t2)) with true by (symmetry; apply Nat.ltb_lt; lia).
        cbn [andb]. rewrite !rd_app. cbn [bind]. cbn [mg] in Hm. simpl in Hn.
        destruct (Z.eqb x y).
        * destruct (mg n t1 t2) as [[o' r1'] r2'] eqn:E. inversion Hm; subst; clear Hm.
          specialize (IH t1 t2 (p1 ++ [x]) (p2 ++ [y]) (if e then S k else k) o' r1 r2 f ltac:(lia) ltac:(lia) E).
          rewrite !app_length, <- !app_assoc in IH. simpl in IH. rewrite !Nat.add_1_r in IH. rewrite IH.
          rewrite (emit_length e x). rewrite !Nat.add_succ_r. reflexivity.
        * destruct (Z.ltb x y).
          -- destruct (mg n t1 (y :: t2)) as [[o' r1'] r2'] eqn:E. inversion Hm; subst; clear Hm.
             specialize (IH t1 (y :: t2) (p1 ++ [x]) p2 (if l then S k else k) o' r1 r2 f ltac:(lia) ltac:(simpl; lia) E).
             rewrite !app_length, <- !app_assoc in IH. simpl in IH. rewrite !Nat.add_1_r in IH. rewrite IH.
             rewrite (emit_length l x). rewrite !Nat.add_succ_r. reflexivity.
          -- destruct (mg n (x :: t1) t2) as [[o' r1'] r2'] eqn:E. inversion Hm; subst; clear Hm.
             specialize (IH (x :: t1) t2 p1 (p2 ++ [y]) (if g then S k else k) o' r1 r2 f ltac:(lia) ltac:(simpl; lia) E).
             rewrite !app_length, <- !app_assoc in IH. simpl in IH. rewrite !Nat.add_1_r in IH. rewrite IH.
             rewrite (emit_length g y). rewrite !Nat.add_succ_r. reflexivity.
  Qed.

  Lemma write_ok n : forall (s1 s2 p1 p2 out : list Z) m (o r1 r2 : list Z) fuel, n < fuel -> length s1 + length s2 <= n -> mg n s1 s2 = (o, r1, r2) ->
    write_loop e l g fuel (map Some (p1 ++ s1)) (map Some (p2 ++ s2)) (length p1) (length p2) (length out) (map Some out ++ alloc (length o + m))
    = Ok (length (p1 ++ s1) - length r1, length (p2 ++ s2) - length r2, length (out ++ o), map Some (out ++ o) ++ alloc m).
  Proof.
    induction n as [|n IH]; intros s1 s2 p1 p2 out m o r1 r2 fuel Hfu Hn Hm; (destruct fuel as [|f]; [lia|]).
    - destruct s1; destruct s2; simpl in Hn; try lia. simpl in Hm. inversion Hm; subst. simpl.
      rewrite !app_nil_r, !map_length, Nat.ltb_irrefl. simpl. rewrite !Nat.sub_0_r. reflexivity.
    - destruct s1 as [|x t1]; [|destruct s2 as [|y t2]].
      + simpl in Hm. inversion Hm; subst. cbn [write_loop]. rewrite !app_nil_r, !map_length, Nat.ltb_irrefl. cbn [andb length].
        rewrite Nat.sub_0_r, app_length. repeat f_equal. lia.
      + simpl in Hm. inversion Hm; subst. cbn [write_loop]. rewrite !app_nil_r, !map_length, Nat.ltb_irrefl, andb_false_r. cbn [length].
        rewrite Nat.sub_0_r, app_length. simpl length. repeat f_equal. lia.
      + cbn [write_loop]. rewrite !map_length, !app_length. simpl length.
        replace (length p1 <? length p1 + S (length t1)) with true by (symmetry; apply Nat.ltb_lt; lia).
        replace (length p2 <? length p2 + S (length t2)) with true by (symmetry; apply Nat.ltb_lt; lia).
        cbn [andb]. rewrite !rd_app. cbn [bind]. cbn [mg] in Hm. simpl in Hn.
        destruct (Z.eqb x y).
        * destruct (mg n t1 t2) as [[o' r1'] r2'] eqn:E. inversion Hm; subst; clear Hm.
          assert (G : forall out', write_loop e l g f (map Some (p1 ++ x :: t1)) (map Some (p2 ++ y :: t2)) (S (length p1)) (S (length p2)) (length out') (map Some out' ++ alloc (length o' + m))
             = Ok (length p1 + S (length t1) - length r1, length p2 + S (length t2) - length r2, length (out' ++ o'), map Some (out' ++ o') ++ alloc m)).
          { intros out'. specialize (IH t1 t2 (p1 ++ [x]) (p2 ++ [y]) out' m o' r1 r2 f ltac:(lia) ltac:(lia) E).
            rewrite !app_length, <- !app_assoc in IH. simpl in IH. rewrite !Nat.add_1_r in IH.
            rewrite !app_length. rewrite !Nat.add_succ_r. exact IH. }
          unfold emit. destruct e.
          -- change (length (x :: o') + m) with (S (length o' + m)). rewrite wr_next. cbn [bind].
             specialize (G (out ++ [x])). rewrite <- app_assoc in G. rewrite (app_length out [x]), Nat.add_1_r in G. rewrite G. rewrite !app_length. reflexivity.
          -- rewrite G, !app_length. reflexivity.
        * destruct (Z.ltb x y).
          -- destruct (mg n t1 (y :: t2)) as [[o' r1'] r2'] eqn:E. inversion Hm; subst; clear Hm.
             assert (G : forall out', write_loop e l g f (map Some (p1 ++ x :: t1)) (map Some (p2 ++ y :: t2)) (S (length p1)) (length p2) (length out') (map Some out' ++ alloc (length o' + m))
               = Ok (length p1 + S (length t1) - length r1, length p2 + S (length t2) - length r2, length (out' ++ o'), map Some (out' ++ o') ++ alloc m)).
             { intros out'. specialize (IH t1 (y :: t2) (p1 ++ [x]) p2 out' m o' r1 r2 f ltac:(lia) ltac:(simpl; lia) E).
               rewrite !app_length, <- !app_assoc in IH. simpl in IH. rewrite !Nat.add_1_r in IH.
               rewrite !app_length. rewrite !Nat.add_succ_r in *. exact IH. }
             unfold emit. destruct l.
             ++ change (length (x :: o') + m) with (S (length o' + m)). rewrite wr_next. cbn [bind].
                specialize (G (out ++ [x])). rewrite <- app_assoc in G. rewrite (app_length out [x]), Nat.add_1_r in G. rewrite G. rewrite !app_length. reflexivity.
             ++ rewrite G, !app_length. reflexivity.
          -- destruct (mg n (x :: t1) t2) as [[o' r1'] r2'] eqn:E. inversion Hm; subst; clear Hm.
             assert (G : forall out', write_loop e l g f (map Some (p1 ++ x :: t1)) (map Some (p2 ++ y :: t2)) (length p1) (S (length p2)) (length out') (map Some out' ++ alloc (length o' + m))
               = Ok (length p1 + S (length t1) - length r1, length p2 + S (length t2) - length r2, length (out' ++ o'), map Some (out' ++ o') ++ alloc m)).
             { intros out'. specialize (IH (x :: t1) t2 p1 (p2 ++ [y]) out' m o' r1 r2 f ltac:(lia) ltac:(simpl; lia) E).
               rewrite !app_length, <- !app_assoc in IH. simpl in IH. rewrite !Nat.add_1_r in IH.
               rewrite !app_length. rewrite !Nat.add_succ_r in *. exact IH. }
             unfold emit. destruct g.
             ++ change (length (y :: o') + m) with (S (length o' + m)). rewrite wr_next. cbn [bind].
                specialize (G (out ++ [y])). rewrite <- app_assoc in G. rewrite (app_length out [y]), Nat.add_1_r in G. rewrite G. rewrite !app_length. reflexivity.
             ++ rewrite G, !app_length. reflexivity.
  Qed.
End Merge.

Lemma srt_app a b : srt a -> srt b -> (forall x y, In x a -> In y b -> (x < y)%Z) -> srt (a ++ b).
Proof.
  induction 1 as [|x a Ha IH Hf]; intros Hb Hlt; simpl; auto. constructor.
  - apply IH; auto. intros; apply Hlt; auto. right; auto.
  - rewrite Forall_forall in *. intros y Hy. apply in_app_or in Hy as [Hy|Hy]; auto. apply Hlt; auto. left; auto.
Qed.

Lemma mg_spec e l g n : forall s1 s2 o r1 r2, length s1 + length s2 <= n -> srt s1 -> srt s2 ->
  mg e l g n s1 s2 = (o, r1, r2) ->
  exists c1 c2, s1 = c1 ++ r1 /\ s2 = c2 ++ r2 /\ (r1 = [] \/ r2 = []) /\
    (forall x y, In x c1 \/ In x c2 -> In y r1 \/ In y r2 -> (x < y)%Z) /\
    srt o /\
    (forall z, In z o <-> (e = true /\ In z c1 /\ In z c2) \/ (l = true /\ In z c1 /\ ~ In z c2) \/ (g = true /\ In z c2 /\ ~ In z c1)).
Proof.
  induction n as [|n IH]; intros s1 s2 o r1 r2 Hn H1 H2 Hm.
  - destruct s1; destruct s2; simpl in Hn; try lia. simpl in Hm. inversion Hm; subst.
    exists [], []. split; [|split; [|split; [|split; [|split]]]]; auto; simpl; try tauto; constructor.
  - destruct s1 as [|x t1]; [|destruct s2 as [|y t2]].
    + simpl in Hm. inversion Hm; subst. exists [], []. split; [|split; [|split; [|split; [|split]]]]; auto; simpl; try tauto; constructor.
    + simpl in Hm. inversion Hm; subst. exists [], []. split; [|split; [|split; [|split; [|split]]]]; auto; simpl; try tauto; constructor.
    + cbn [mg] in Hm. simpl in Hn. inversion H1 as [|? ? S1 F1]; subst. inversion H2 as [|? ? S2 F2]; subst.
      rewrite Forall_forall in F1, F2.
      assert (Hem : forall b v o', srt o' -> (forall z, In z o' -> (v < z)%Z) -> srt (emit b v o')).
      { intros b v o' Ho Hv. destruct b; simpl; auto. constructor; auto. rewrite Forall_forall. auto. }
      assert (Hin : forall b v o' z, In z (emit b v o') <-> (b = true /\ z = v) \/ In z o').
      { intros b v o' z. destruct b; simpl; intuition congruence. }
      destruct (Z.eqb_spec x y) as [->|Hne]; [|destruct (Z.ltb_spec x y)].
      * destruct (mg e l g n t1 t2) as [[o' r1'] r2'] eqn:E. inversion Hm; subst; clear Hm.
        destruct (IH t1 t2 o' r1 r2) as (c1 & c2 & -> & -> & Hr & Hlt & Ho & Hz); auto; [lia|].
        assert (Hbig : forall z, In z c1 \/ In z c2 -> (y < z)%Z).
        { intros z [Hz1|Hz1]; [apply F1|apply F2]; apply in_or_app; auto. }
        exists (y :: c1), (y :: c2). split; auto. split; auto. split; auto. split; [|split].
        -- intros u v Hu Hv. simpl in Hu.
           assert (Hu' : u = y \/ In u c1 \/ In u c2) by (destruct Hu as [[?|?]|[?|?]]; auto).
           destruct Hu' as [->|Hu']; [|apply Hlt; auto].
           destruct Hv; [apply F1|apply F2]; apply in_or_app; auto.
        -- apply Hem; auto. intros z Hzo. apply Hbig. apply Hz in Hzo. tauto.
        -- intros z. rewrite Hin, Hz. simpl. assert (forall b, In b c1 \/ In b c2 -> b <> y).
           { intros b Hb. specialize (Hbig b Hb). lia. }
           destruct (Z.eq_dec z y) as [->|Hzy].
           ++ assert (~ In y c1) by (intros Q; apply (H y); auto). assert (~ In y c2) by (intros Q; apply (H y); auto). tauto.
           ++ assert (y <> z) by auto. tauto.
      * destruct (mg e l g n t1 (y :: t2)) as [[o' r1'] r2'] eqn:E. inversion Hm; subst; clear Hm.
        destruct (IH t1 (y :: t2) o' r1 r2) as (c1 & c2 & -> & Ec2 & Hr & Hlt & Ho & Hz); auto; [simpl; lia|].
        assert (Hbig : forall z, In z c1 \/ In z c2 \/ In z r1 \/ In z r2 -> (x < z)%Z).
        { intros z Hzz. assert (In z (c1 ++ r1) \/ In z (y :: t2)) as [Hz1|Hz1].
          { rewrite Ec2, !in_app_iff. tauto. }
          - apply F1; auto.
          - simpl in Hz1. destruct Hz1 as [->|Hz1]; [lia|]. specialize (F2 z Hz1). lia. }
        exists (x :: c1), c2. split; auto. split; auto. split; auto. split; [|split].
        -- intros u v Hu Hv. simpl in Hu. destruct Hu as [[->|Hu]|Hu].
           ++ apply Hbig. tauto.
           ++ apply Hlt; auto.
           ++ apply Hlt; auto.
        -- apply Hem; auto. intros z Hzo. apply Hbig. apply Hz in Hzo. tauto.
        -- intros z. rewrite Hin, Hz. simpl. destruct (Z.eq_dec z x) as [->|Hzy].
           ++ assert (~ In x c1) by (intros Q; assert (x < x)%Z by (apply Hbig; auto); lia). assert (~ In x c2) by (intros Q; assert (x < x)%Z by (apply Hbig; auto); lia). tauto.
           ++ assert (x <> z) by auto. tauto.
      * destruct (mg e l g n (x :: t1) t2) as [[o' r1'] r2'] eqn:E. inversion Hm; subst; clear Hm.
        destruct (IH (x :: t1) t2 o' r1 r2) as (c1 & c2 & Ec1 & -> & Hr & Hlt & Ho & Hz); auto; [simpl; lia|].
        assert (Hbig : forall z, In z c1 \/ In z c2 \/ In z r1 \/ In z r2 -> (y < z)%Z).
        { intros z Hzz. assert (In z (c2 ++ r2) \/ In z (x :: t1)) as [Hz1|Hz1].
          { rewrite Ec1, !in_app_iff. tauto. }
          - apply F2; auto.
          - simpl in Hz1. destruct Hz1 as [->|Hz1]; [lia|]. specialize (F1 z Hz1). lia. }
        exists c1, (y :: c2). split; auto. split; auto. split; auto. split; [|split].
        -- intros u v Hu Hv. simpl in Hu. destruct Hu as [Hu|[->|Hu]].
           ++ apply Hlt; auto.
           ++ apply Hbig. tauto.
           ++ apply Hlt; auto.
        -- apply Hem; auto. intros z Hzo. apply Hbig. apply Hz in Hzo. tauto.
        -- intros z. rewrite Hin, Hz. simpl. destruct (Z.eq_dec z y) as [->|Hzy].
           ++ assert (~ In y c1) by (intros Q; assert (y < y)%Z by (apply Hbig; auto); lia). assert (~ In y c2) by (intros Q; assert (y < y)%Z by (apply Hbig; auto); lia). tauto.
           ++ assert (y <> z) by auto. tauto.
Qed.

Lemma copy_tail_ok c r out m : m = length r ->
  copy_tail (map Some (c ++ r)) (length c) (length out) (map Some out ++ alloc m) = Ok (map Some (out ++ r)).
Proof.
  intros ->. unfold copy_tail. rewrite map_length, app_length.
  loop_inv (fun j (st : nat * buf Z) => exists d q, r = d ++ q /\ j = length c + length d /\
      st = (length (out ++ d), map Some (out ++ d) ++ alloc (length q))) st E HI.
  - lia.
  - exists [], r. rewrite Nat.add_0_r, app_nil_r. auto.
  - intros k st Hk (d & q & -> & -> & ->). rewrite app_length in Hk. destruct q as [|x q]; [simpl in Hk; lia|].
    assert (rd (map Some (c ++ d ++ x :: q)) (length c + length d) = Ok x) as ->.
    { apply rd_map. rewrite nth_error_app2 by lia. replace (length c + length d - length c) with (length d) by lia.
      rewrite nth_error_app2, Nat.sub_diag by lia. reflexivity. }
    cbn [bind length]. rewrite wr_next. cbn [bind]. eexists. split; [reflexivity|].
    exists (d ++ [x]), q. rewrite <- app_assoc. split; auto. split; [rewrite app_length; simpl; lia|].
    rewrite app_assoc, (app_length (out ++ d) [x]). simpl. rewrite Nat.add_1_r. reflexivity.
  - rewrite E. destruct HI as (d & q & -> & Hq & ->). cbn [bind]. rewrite app_length in Hq.
    destruct q; [|simpl in Hq; lia]. simpl. rewrite !app_nil_r. reflexivity.
Qed.

Lemma fuel2_eq a b : fuel2 (map Some a) (map Some b) = S (length a + length b).
Proof. unfold fuel2. rewrite !map_length. reflexivity. Qed.

Lemma union_ok a b : srt a -> srt b ->
  exists r, union (map Some a) (map Some b) = Ok (map Some r) /\ srt r /\ forall z, In z r <-> In z a \/ In z b.
Proof.
  intros Ha Hb. unfold union. rewrite fuel2_eq.
  destruct (mg true true true (length a + length b) a b) as [[o r1] r2] eqn:E.
  destruct (mg_spec _ _ _ _ _ _ _ _ _ (le_n _) Ha Hb E) as (c1 & c2 & E1 & E2 & Hr & Hlt & Ho & Hz).
  pose proof (count_ok true true true _ a b [] [] 0 o r1 r2 _ (Nat.lt_succ_diag_r _) (le_n _) E) as Hcn. cbn [app length] in Hcn. rewrite Hcn. cbn [bind]. clear Hcn.
  rewrite !map_length.
  set (k := if length a - length r1 =? length a then _ else _).
  assert (Hk : k = length o + (length r1 + length r2)).
  { subst k. subst a b. rewrite !app_length. destruct Hr as [->| ->]; simpl length.
    - rewrite Nat.add_0_r, Nat.sub_0_r, Nat.eqb_refl. lia.
    - destruct (Nat.eqb_spec (length c1 + length r1 - length r1) (length c1 + length r1)); lia. }
  rewrite Hk. clear k Hk.
  pose proof (write_ok true true true _ a b [] [] [] (length r1 + length r2) o r1 r2 _ (Nat.lt_succ_diag_r _) (le_n _) E) as Hw.
  cbn [app length map] in Hw. rewrite Hw. cbn [bind].
  assert (Hs : srt (o ++ r1 ++ r2)).
  { apply srt_app; auto.
    - subst a b. destruct Hr as [->| ->]; simpl; rewrite ?app_nil_r.
      + clear -Hb. induction c2; simpl in *; auto. inversion Hb; auto.
      + clear -Ha. induction c1; simpl in *; auto. inversion Ha; auto.
    - intros x y Hx Hy. apply Hlt; [apply Hz in Hx; tauto|apply in_app_or in Hy; tauto]. }
  assert (Hm : forall z, In z (o ++ r1 ++ r2) <-> In z a \/ In z b).
  { intros z. subst a b. rewrite !in_app_iff, Hz.
    destruct (in_dec Z.eq_dec z c1); destruct (in_dec Z.eq_dec z c2); tauto. }
  destruct (Nat.eqb_spec (length a - length r1) (length a)) as [H0|H0].
  - assert (r1 = []) as -> by (destruct r1; auto; subst a; rewrite app_length in H0; simpl in H0; lia).
    subst b. rewrite app_length. replace (length c2 + length r2 - length r2) with (length c2) by lia.
    rewrite copy_tail_ok by reflexivity. exists (o ++ r2). auto.
  - assert (r2 = []) as -> by (destruct Hr as [->|]; auto; simpl in H0; lia).
    subst a. rewrite app_length. replace (length c1 + length r1 - length r1) with (length c1) by lia.
    rewrite copy_tail_ok by (simpl; lia). rewrite app_nil_r in *. exists (o ++ r1). auto.
Qed.

Lemma inter_ok a b : srt a -> srt b ->
  exists r, inter (map Some a) (map Some b) = Ok (map Some r) /\ srt r /\ forall z, In z r <-> In z a /\ In z b.
Proof.
  intros Ha Hb. unfold inter. rewrite fuel2_eq.
  destruct (mg true false false (length a + length b) a b) as [[o r1] r2] eqn:E.
  destruct (mg_spec _ _ _ _ _ _ _ _ _ (le_n _) Ha Hb E) as (c1 & c2 & E1 & E2 & Hr & Hlt & Ho & Hz).
  pose proof (count_ok true false false _ a b [] [] 0 o r1 r2 _ (Nat.lt_succ_diag_r _) (le_n _) E) as Hcn. cbn [app length] in Hcn. rewrite Hcn. cbn [bind]. clear Hcn.
  pose proof (write_ok true false false _ a b [] [] [] 0 o r1 r2 _ (Nat.lt_succ_diag_r _) (le_n _) E) as Hw.
  cbn [app length map] in Hw. rewrite Nat.add_0_r in Hw. rewrite Nat.add_0_l, Hw. cbn [bind].
  exists o. split; [simpl; rewrite app_nil_r; auto|]. split; auto.
  intros z. rewrite Hz. subst a b. rewrite !in_app_iff.
  assert (Hd1 : In z c1 -> In z r2 -> False) by (intros P Q; assert (z < z)%Z by (apply Hlt; auto); lia).
  assert (Hd2 : In z c2 -> In z r1 -> False) by (intros P Q; assert (z < z)%Z by (apply Hlt; auto); lia).
  assert (Hd3 : In z r1 -> In z r2 -> False) by (destruct Hr as [->| ->]; simpl; auto).
  split; [intros [?|[[? ?]|[? ?]]]; try discriminate; tauto|]. tauto.
Qed.

Lemma setminus_ok a b : srt a -> srt b ->
  exists r, setminus (map Some a) (map Some b) = Ok (map Some r) /\ srt r /\ forall z, In z r <-> In z a /\ ~ In z b.
Proof.
  intros Ha Hb. unfold setminus. rewrite fuel2_eq.
  destruct (mg false true false (length a + length b) a b) as [[o r1] r2] eqn:E.
  destruct (mg_spec _ _ _ _ _ _ _ _ _ (le_n _) Ha Hb E) as (c1 & c2 & E1 & E2 & Hr & Hlt & Ho & Hz).
  pose proof (count_ok false true false _ a b [] [] 0 o r1 r2 _ (Nat.lt_succ_diag_r _) (le_n _) E) as Hcn. cbn [app length] in Hcn. rewrite Hcn. cbn [bind]. clear Hcn.
  rewrite map_length.
  replace (0 + length o + (length a - (length a - length r1))) with (length o + length r1)
    by (subst a; rewrite app_length; lia).
  pose proof (write_ok false true false _ a b [] [] [] (length r1) o r1 r2 _ (Nat.lt_succ_diag_r _) (le_n _) E) as Hw.
  cbn [app length map] in Hw. rewrite Hw. cbn [bind].
  exists (o ++ r1). split; [|split].
  - rewrite E1 at 1 2. rewrite app_length. replace (length c1 + length r1 - length r1) with (length c1) by lia.
    apply copy_tail_ok. reflexivity.
  - apply srt_app; auto.
    + subst a. clear -Ha. induction c1; simpl in *; auto. inversion Ha; auto.
    + intros x y Hx Hy. apply Hlt; [apply Hz in Hx|]; intuition discriminate.
  - intros z. subst a b. rewrite !in_app_iff, Hz.
    assert (Hd1 : In z c1 -> In z r2 -> False) by (intros P Q; assert (z < z)%Z by (apply Hlt; auto); lia).
    assert (Hd2 : In z c2 -> In z r1 -> False) by (intros P Q; assert (z < z)%Z by (apply Hlt; auto); lia).
    assert (Hd3 : In z r1 -> In z r2 -> False) by (destruct Hr as [->| ->]; simpl; auto).
    split.
    + intros [[[? ?]|[?|[? ?]]]|?]; try discriminate; tauto.
    + intros [[?|?] ?]; [left|right; auto]. right; left. tauto.
Qed.

(** * Ranges *)
Definition range_list (start increment : Z) (n : nat) : list Z :=
  map (fun k => start + increment * Z.of_nat k)%Z (seq 0 n).

Lemma range_iter_app start stop increment fuel : forall n k acc,
  ((increment > 0)%Z /\ (forall j : nat, k <= j < k + n -> (start + increment * Z.of_nat j < stop)%Z) /\
   (start + increment * Z.of_nat (k + n) >= stop)%Z) \/
  ((increment < 0)%Z /\ (forall j : nat, k <= j < k + n -> (start + increment * Z.of_nat j > stop)%Z) /\
   (start + increment * Z.of_nat (k + n) <= stop)%Z) ->
  n < fuel ->
  range_iter fuel start stop increment (Z.of_nat k) acc
  = Ok (acc ++ map (fun j => start + increment * Z.of_nat j)%Z (seq k n)).
Proof.
  induction fuel as [|f IH]; intros n k acc H Hf; [lia|]. cbn [range_iter]. unfold range_step.
  destruct n as [|n].
  - rewrite Nat.add_0_r in H. simpl. rewrite app_nil_r.
    destruct H as [(H1 & _ & H2)|(H1 & _ & H2)].
    + destruct (Z.ltb_spec 0 increment); [|lia]. destruct (Z.ltb_spec (start + increment * Z.of_nat k) stop); [lia|]. reflexivity.
    + destruct (Z.ltb_spec 0 increment); [lia|]. destruct (Z.ltb_spec increment 0); [|lia].
      destruct (Z.ltb_spec stop (start + increment * Z.of_nat k)); [lia|]. reflexivity.
  - assert (Hrec : range_iter f start stop increment (Z.of_nat (S k)) (acc ++ [(start + increment * Z.of_nat k)%Z])
               = Ok ((acc ++ [(start + increment * Z.of_nat k)%Z]) ++ map (fun j => start + increment * Z.of_nat j)%Z (seq (S k) n))).
    { apply IH; [|lia]. replace (S k + n) with (k + S n) by lia.
      destruct H as [(H1 & H2 & H3)|(H1 & H2 & H3)]; [left|right]; split; auto; split; auto; intros j Hj; apply H2; lia. }
    replace (Z.of_nat k + 1)%Z with (Z.of_nat (S k)) by lia.
    cbn [seq map]. rewrite <- app_assoc in Hrec. cbn [app] in Hrec.
    destruct H as [(H1 & H2 & _)|(H1 & H2 & _)]; specialize (H2 k ltac:(lia)).
    + destruct (Z.ltb_spec 0 increment); [|lia]. destruct (Z.ltb_spec (start + increment * Z.of_nat k) stop); [|lia]. exact Hrec.
    + destruct (Z.ltb_spec 0 increment); [lia|]. destruct (Z.ltb_spec increment 0); [|lia].
      destruct (Z.ltb_spec stop (start + increment * Z.of_nat k)); [|lia]. exact Hrec.
Qed.
