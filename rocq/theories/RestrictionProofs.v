(** Matrices built by a pass over contributions for the pattern and one for the data. *)
From Coq Require Import Sorted Qcabs.
From Verif Require Import Util Lin SparsityModel SparsitySpec SparsityProofs2 CSRModel CSRSpec CSRProofs Rows SSSProofs OpsProofs OpsProofs3 MeshModel RestrictionTables RestrictionModel.
Set Default Proof Using "Type".

Definition contribution := (nat * nat * Qc)%type.
Definition pair_of (t : contribution) : nat * Z := let '(a, b, v) := t in (a, Z.of_nat b).

(** The value that was set last. *)
Definition last_value (cs : list contribution) (a b : nat) : option Qc :=
  fold_left (fun o t => let '(x, y, v) := t in if (x =? a) && (y =? b) then Some v else o) cs None.
Lemma last_value_app cs t a b : last_value (cs ++ [t]) a b = let '(x, y, v) := t in if (x =? a) && (y =? b) then Some v else last_value cs a b.
Proof. unfold last_value. rewrite fold_left_app. reflexivity. Qed.
Lemma last_value_in cs a b v : last_value cs a b = Some v -> In (a, b, v) cs.
Proof.
  induction cs as [|[[x y] w] cs IH] using rev_ind; [discriminate|]. rewrite last_value_app, in_app_iff.
  destruct (Nat.eqb_spec x a) as [->|]; [destruct (Nat.eqb_spec y b) as [->|]|]; cbn [andb]; intros H.
  - inversion H; subst. right; left; reflexivity.
  - left; auto.
  - left; auto.
Qed.
Lemma last_value_none cs a b : last_value cs a b = None -> forall v, ~ In (a, b, v) cs.
Proof.
  induction cs as [|[[x y] w] cs IH] using rev_ind; [intros _ v []|]. rewrite last_value_app.
  destruct ((x =? a) && (y =? b)) eqn:E; [discriminate|]. intros H v Hv. apply in_app_iff in Hv as [Hv|[Hv|[]]]; [apply (IH H v Hv)|].
  inversion Hv; subst. rewrite !Nat.eqb_refl in E. discriminate.
Qed.

Section Pattern.
  Variables (n m : nat) (cs : list contribution) (ip : list nat) (indz : list Z).
  Hypothesis range : forall a b v, In (a, b, v) cs -> a < n /\ b < m.
  Hypothesis pat : is_csr_of n (map pair_of cs) ip indz.
  Let ind := map Z.to_nat indz.

  Lemma pat_mono i j : i <= j -> j <= n -> nth i ip 0 <= nth j ip 0.
  Proof using pat.
    destruct pat as (_ & _ & H & _). intros Hij. induction Hij as [|j Hij IH]; [lia|]. intros Hj. specialize (H j ltac:(lia)). specialize (IH ltac:(lia)). lia.
  Qed.
  Lemma pat_end : nth n ip 0 = length indz.
  Proof using pat. destruct pat as (_ & _ & _ & H1 & H2 & _). congruence. Qed.
  (** each slot belongs to a row *)
  Lemma pat_row k : k < length indz -> exists i, i < n /\ nth i ip 0 <= k < nth (S i) ip 0.
  Proof using pat.
    intros Hk. rewrite <- pat_end in Hk.
    assert (H : forall r, r <= n -> k < nth r ip 0 -> exists i, i < r /\ nth i ip 0 <= k < nth (S i) ip 0).
    { induction r as [|r IH]; intros Hr H.
      - destruct pat as (_ & H0 & _). rewrite H0 in H. lia.
      - destruct (Nat.lt_ge_cases k (nth r ip 0)) as [L|L].
        + destruct (IH ltac:(lia) L) as (i & Hi & Hb). exists i. split; [lia|auto].
        + exists r. split; [lia|auto]. }
    apply (H n); auto.
  Qed.
  Lemma pat_row_unique i i' k : i < n -> i' < n -> nth i ip 0 <= k < nth (S i) ip 0 -> nth i' ip 0 <= k < nth (S i') ip 0 -> i = i'.
  Proof using pat.
    intros Hi Hi' H H'. destruct (Nat.lt_trichotomy i i') as [L|[L|L]]; auto.
    - pose proof (pat_mono (S i) i' ltac:(lia) ltac:(lia)). lia.
    - pose proof (pat_mono (S i') i ltac:(lia) ltac:(lia)). lia.
  Qed.
  Lemma pat_in z : In z indz -> (0 <= z < Z.of_nat m)%Z.
  Proof using pat range.
    intros H. apply (In_nth _ _ 0%Z) in H as (k & Hk & <-). destruct (pat_row k Hk) as (i & Hi & Hb).
    pose proof pat as (_ & _ & _ & _ & _ & HP). destruct (HP i Hi) as [_ HP']. specialize (HP' (nth k indz 0%Z)).
    assert (Hin : In (i, nth k indz 0%Z) (map pair_of cs)).
    { apply HP'. unfold slice. pose proof (pat_mono (S i) n ltac:(lia) ltac:(lia)). rewrite pat_end in H.
      replace (nth k indz 0%Z) with (nth (k - nth i ip 0) (firstn (nth (S i) ip 0 - nth i ip 0) (skipn (nth i ip 0) indz)) 0%Z).
      - apply nth_In. rewrite firstn_length, skipn_length. lia.
      - rewrite <- (firstn_skipn (nth (S i) ip 0 - nth i ip 0) (skipn (nth i ip 0) indz)) at 2 || idtac.
        assert (E : forall (l : list Z) a b d, b < a -> nth b (firstn a l) d = nth b l d).
        { clear. intros l a. revert l. induction a as [|a IH]; intros l b d Hb; [lia|]. destruct l as [|x l]; [destruct b; reflexivity|].
          destruct b as [|b]; [reflexivity|]. cbn. apply IH. lia. }
        assert (E2 : forall (l : list Z) a b d, nth b (skipn a l) d = nth (a + b) l d).
        { clear. intros l a. revert l. induction a as [|a IH]; intros l b d; [reflexivity|]. destruct l as [|x l]; [destruct b; reflexivity|]. cbn. apply IH. }
        rewrite E by lia. rewrite E2. f_equal. lia. }
    apply in_map_iff in Hin as (((a & b) & v) & Ep & Hin). cbn in Ep. inversion Ep. destruct (range a b v Hin). lia.
  Qed.
  Lemma ind_length : length ind = length indz.
  Proof using Type. apply map_length. Qed.
  Lemma pat_wf dat : length dat = length ind -> wf_rows n m ip ind dat.
  Proof using pat range.
    intros Hd. pose proof pat as (H1 & H2 & H3 & H4 & H5 & H6). split; [exact H1|]. split; [exact H3|]. split.
    { rewrite ind_length, pat_end. lia. }
    split; [exact Hd|]. intros j Hj. apply in_map_iff in Hj as (z & <- & Hz). apply pat_in in Hz. lia.
  Qed.
  Lemma row_cols dat i : length dat = length ind -> i < n -> map fst (rowlist ip ind dat i) = map Z.to_nat (slice indz (nth i ip 0) (nth (S i) ip 0)).
  Proof using Type.
    intros Hd Hi. unfold rowlist, slice. rewrite <- firstn_map, <- skipn_map.
    replace (map fst (combine ind dat)) with ind.
    - unfold ind. rewrite skipn_map, firstn_map. reflexivity.
    - clear - Hd. revert dat Hd. induction ind as [|x l IH]; intros [|y d] H; cbn in *; try discriminate; auto. f_equal. apply IH. lia.
  Qed.
  Lemma pat_sorted dat i : length dat = length ind -> i < n -> StronglySorted lt (map fst (rowlist ip ind dat i)).
  Proof using pat range.
    intros Hd Hi. rewrite row_cols by auto. pose proof pat as (_ & _ & _ & _ & _ & HP). destruct (HP i Hi) as [HS _].
    assert (Hp : forall z, In z (slice indz (nth i ip 0) (nth (S i) ip 0)) -> (0 <= z)%Z).
    { intros z Hz. assert (In z indz); [|apply pat_in in H; lia]. unfold slice in Hz.
      assert (F : forall (l : list Z) a, incl (firstn a l) l). { intros l a x Hx. rewrite <- (firstn_skipn a l). apply in_or_app; auto. }
      assert (G : forall (l : list Z) a, incl (skipn a l) l). { intros l a x Hx. rewrite <- (firstn_skipn a l). apply in_or_app; auto. }
      apply F in Hz. apply G in Hz. auto. }
    clear - HS Hp. revert Hp. induction HS as [|z l HS IH HF]; intros Hp; [constructor|]. cbn. constructor.
    - apply IH. intros; apply Hp; right; auto.
    - rewrite Forall_forall in HF |- *. intros y Hy. apply in_map_iff in Hy as (z' & <- & Hz'). specialize (HF z' Hz'). specialize (Hp z (or_introl eq_refl)) as H0.
      specialize (Hp z' (or_intror Hz')). lia.
  Qed.
  Lemma pat_find a b : a < n -> In (a, Z.of_nat b) (map pair_of cs) ->
    exists k lin, entry_find ip ind a b = Ok (Some k, lin) /\ nth a ip 0 <= k < nth (S a) ip 0 /\ nth k ind 0 = b.
  Proof using pat range.
    intros Ha Hin. set (dat := repeat 0%Qc (length ind)). assert (Hd : length dat = length ind) by apply repeat_length.
    destruct (entry_find_ok n m ip ind dat (pat_wf dat Hd) a b Ha (pat_sorted dat a Hd Ha)) as (o & E & Ho).
    destruct o as [k|]; [exists k, (nth (S a) ip 0 - nth a ip 0 <? 20); tauto|]. exfalso.
    pose proof pat as (_ & _ & _ & _ & _ & HP). destruct (HP a Ha) as [_ HP']. apply HP' in Hin.
    assert (Hm : In b (map fst (rowlist ip ind dat a))).
    { rewrite row_cols by auto. apply in_map_iff. exists (Z.of_nat b). split; [lia|auto]. }
    rewrite (rowlist_tab n m _ _ _ (pat_wf dat Hd)) in Hm by auto. unfold tab in Hm. rewrite map_map in Hm. apply in_map_iff in Hm as (j & Ej & Hj).
    apply in_seq in Hj. cbn in Ej. apply (Ho (nth a ip 0 + j)); auto. lia.
  Qed.
  Lemma pat_slot_lt a k : a < n -> nth a ip 0 <= k < nth (S a) ip 0 -> k < length ind.
  Proof using pat. intros Ha Hk. pose proof (pat_mono (S a) n ltac:(lia) ltac:(lia)). rewrite pat_end in H. rewrite ind_length. lia. Qed.
  Lemma pat_slot_in a k : a < n -> nth a ip 0 <= k < nth (S a) ip 0 -> exists v, In (a, nth k ind 0, v) cs.
  Proof using pat range.
    intros Ha Hk. set (dat := repeat 0%Qc (length ind)). assert (Hd : length dat = length ind) by apply repeat_length.
    pose proof (rowlist_nth n m _ _ _ (pat_wf dat Hd) a (k - nth a ip 0) Ha ltac:(lia)) as E.
    replace (nth a ip 0 + (k - nth a ip 0)) with k in E by lia. apply nth_error_In in E. apply (in_map fst) in E. rewrite row_cols in E by auto. cbn in E.
    apply in_map_iff in E as (z & Ez & Hz). pose proof pat as (_ & _ & _ & _ & _ & HP). destruct (HP a Ha) as [_ HP']. apply HP' in Hz.
    apply in_map_iff in Hz as (((x & y) & v) & Ep & Hin). cbn in Ep. inversion Ep; subst. exists v. rewrite <- Ez, Nat2Z.id. auto.
  Qed.
  Lemma slot_column a k k' : a < n -> nth a ip 0 <= k < nth (S a) ip 0 -> nth a ip 0 <= k' < nth (S a) ip 0 -> nth k ind 0 = nth k' ind 0 -> k = k'.
  Proof using pat range.
    intros Ha Hk Hk' E. set (dat := repeat 0%Qc (length ind)). assert (Hd : length dat = length ind) by apply repeat_length.
    pose proof (sorted_row_lt n m _ _ _ (pat_wf dat Hd) a Ha (pat_sorted dat a Hd Ha)) as HL.
    destruct (Nat.lt_trichotomy k k') as [L|[L|L]]; auto.
    - specialize (HL k k' ltac:(lia) L ltac:(lia)). lia.
    - specialize (HL k' k ltac:(lia) L ltac:(lia)). lia.
  Qed.

  Definition filled (done : list contribution) (data : buf Qc) : Prop :=
    length data = length ind /\
    forall a k, a < n -> nth a ip 0 <= k < nth (S a) ip 0 -> nth k data None = last_value done a (nth k ind 0).

  Lemma set_step done a b v data : incl done cs -> In (a, b, v) cs -> filled done data ->
    exists data', set_entry ip ind a b v data = Ok data' /\ filled (done ++ [(a, b, v)]) data'.
  Proof using pat range.
    intros Hd Hin [HL HF]. destruct (range a b v Hin) as [Ha Hb].
    assert (Hp : In (a, Z.of_nat b) (map pair_of cs)) by (apply in_map_iff; exists (a, b, v); auto).
    destruct (pat_find a b Ha Hp) as (k & lin & E & Hk & Ek). unfold set_entry. rewrite E. cbn [bind].
    pose proof (pat_slot_lt a k Ha Hk) as Hlt. rewrite wr_ok by lia. eexists; split; [reflexivity|]. split; [rewrite upd_length; auto|].
    intros a' k' Ha' Hk'. rewrite last_value_app. destruct (Nat.eq_dec k k') as [<-|Hne].
    - rewrite nth_upd_eq by lia. rewrite (pat_row_unique a' a k) by auto. rewrite Ek, !Nat.eqb_refl. reflexivity.
    - rewrite nth_upd_neq by auto. rewrite (HF a' k') by auto. destruct (Nat.eqb_spec a a') as [<-|]; [|reflexivity]. cbn [andb].
      destruct (Nat.eqb_spec b (nth k' ind 0)) as [E'|]; [|reflexivity]. exfalso. apply Hne. apply (slot_column a); auto. congruence.
  Qed.

  Lemma set_all : exists dat, for_list cs (fun t d => let '(a, b, v) := t in set_entry ip ind a b v d) (alloc (length ind)) = Ok (map Some dat) /\
    wf_csr n m (CSR m ip ind dat) /\ sorted_csr n (CSR m ip ind dat) /\ nth 0 ip 0 = 0 /\
    forall a b, a < n -> matrix (CSR m ip ind dat) a b = match last_value cs a b with Some v => v | None => 0%Qc end.
  Proof using pat range.
    destruct (for_list_inv (fun done data => incl done cs /\ filled done data) (fun t d => let '(a, b, v) := t in set_entry ip ind a b v d) cs [] (alloc (length ind)))
      as (data & E & _ & HL & HF).
    { split; [intros x []|]. split; [apply alloc_length|]. intros a k Ha Hk. pose proof (pat_slot_lt a k Ha Hk). unfold alloc.
      rewrite nth_repeat. reflexivity. }
    { intros p [[a b] v] q s0 Hl [Hi HF]. assert (Hin : In (a, b, v) cs) by (rewrite Hl; apply in_elt).
      destruct (set_step p a b v s0) as (s1 & E1 & H1); auto. exists s1. split; auto. split; auto. cbn. intros x Hx. apply in_app_iff in Hx as [Hx|[<-|[]]]; auto. }
    cbn [app] in HF. rewrite E.
    assert (HS : exists dat, data = map Some dat).
    { assert (H : forall k, k < length data -> exists v, nth k data None = Some v).
      { intros k Hk. rewrite HL, ind_length in Hk. destruct (pat_row k Hk) as (a & Ha & Hb). rewrite (HF a k Ha Hb).
        destruct (pat_slot_in a k Ha Hb) as (v & Hv). destruct (last_value cs a (nth k ind 0)) as [w|] eqn:El; [eauto|]. destruct (last_value_none _ _ _ El v Hv). }
      clear - H. induction data as [|o data IH]; [exists []; reflexivity|]. destruct (H 0 ltac:(cbn; lia)) as (v & Hv). cbn in Hv. subst o.
      destruct IH as (d & ->). { intros k Hk. apply (H (S k)). cbn. lia. } exists (v :: d). reflexivity. }
    destruct HS as (dat & ->). exists dat. rewrite map_length in HL.
    assert (wf : wf_csr n m (CSR m ip ind dat)) by (split; [reflexivity|apply pat_wf; auto]).
    assert (srt : sorted_csr n (CSR m ip ind dat)) by (intros i Hi; apply pat_sorted; auto).
    split; [reflexivity|]. split; [exact wf|]. split; [exact srt|]. split; [apply pat|].
    intros a b Ha. destruct (in_dec pair_eq_dec (a, Z.of_nat b) (map pair_of cs)) as [Hin|Hout].
    - destruct (pat_find a b Ha Hin) as (k & lin & _ & Hk & Ek). subst b. pose proof (found_value n m _ wf srt a k Ha Hk) as FV. cbn [c_data c_indices] in FV. rewrite FV.
      rewrite <- (HF a k Ha Hk). pose proof (pat_slot_lt a k Ha Hk) as Hlt. rewrite (nth_indep _ None (Some 0%Qc)) by (rewrite map_length; lia).
      rewrite (map_nth Some). reflexivity.
    - assert (El : last_value cs a b = None).
      { destruct (last_value cs a b) as [v|] eqn:El; [|reflexivity]. apply last_value_in in El. destruct Hout. apply in_map_iff. exists (a, b, v). auto. }
      rewrite El. unfold matrix. apply (ent_missing n m _ _ _ (proj2 wf)); auto. cbn [c_indptr c_indices]. intros k Hk Ek.
      destruct (pat_slot_in a k Ha Hk) as (v & Hv). rewrite Ek in Hv. apply Hout. apply in_map_iff. exists (a, b, v). auto.
  Qed.
End Pattern.

(** ** The loops over the cells *)
Section Loop.
  Variables (nsub : nat) (T : list rentry) (nc : nat) (F : list (list nat)) (dofsC dofsF : list (list Z)).
  Definition zat (D : list (list Z)) (i j : nat) : Z := nth j (nth i D []) 0%Z.
  Definition rbool (i : nat) (w : when) : bool := match reached nsub F i w with Ok b => b | Err _ => false end.
  Definition entry_contribution (i : nat) (e : rentry) : list contribution :=
    let '(w, j, s, k, v) := e in
    if rbool i w && (0 <=? zat dofsC i j)%Z && (0 <=? zat dofsF (nsub * i + s) k)%Z then [(Z.to_nat (zat dofsC i j), Z.to_nat (zat dofsF (nsub * i + s) k), v)] else [].
  Definition contributions : list contribution := flat_map (fun i => flat_map (entry_contribution i) T) (seq 0 nc).

  Definition readable : Prop := forall i w j s k v, i < nc -> In (w, j, s, k, v) T ->
    reached nsub F i w = Ok (rbool i w) /\ get2 dofsC i j = Ok (zat dofsC i j) /\ get2 dofsF (nsub * i + s) k = Ok (zat dofsF (nsub * i + s) k).

  Lemma restrict_entry_ok {S} (f : nat -> nat -> Qc -> S -> res S) i e s0 : readable -> i < nc -> In e T ->
    restrict_entry nsub F dofsC dofsF f i e s0 = for_list (entry_contribution i e) (fun t s => let '(a, b, v) := t in f a b v s) s0.
  Proof.
    intros H Hi He. destruct e as [[[[w j] s] k] v]. destruct (H i w j s k v Hi He) as (E1 & E2 & E3).
    unfold restrict_entry, entry_contribution. rewrite E1. cbn [bind]. destruct (rbool i w); cbn [andb]; [|reflexivity].
    rewrite E2. cbn [bind]. destruct (0 <=? zat dofsC i j)%Z; cbn [andb]; [|reflexivity]. rewrite E3. cbn [bind].
    destruct (0 <=? zat dofsF (nsub * i + s) k)%Z; [|reflexivity]. cbn [for_list]. destruct (f _ _ _ _); reflexivity.
  Qed.
  Lemma restrict_loop_ok {S} (f : nat -> nat -> Qc -> S -> res S) s0 : readable ->
    restrict_loop nsub T nc F dofsC dofsF f s0 = for_list contributions (fun t s => let '(a, b, v) := t in f a b v s) s0.
  Proof.
    intros H. unfold restrict_loop, contributions, for_range. rewrite Nat.sub_0_r.
    assert (G : forall m lo s0, lo + m <= nc -> for_n m lo (fun i s => for_list T (restrict_entry nsub F dofsC dofsF f i) s) s0 =
      for_list (flat_map (fun i => flat_map (entry_contribution i) T) (seq lo m)) (fun t s => let '(a, b, v) := t in f a b v s) s0).
    { induction m as [|m IH]; intros lo s1 Hm; [reflexivity|]. cbn [for_n seq flat_map]. rewrite for_list_app.
      assert (R : forall U s1, incl U T -> for_list U (restrict_entry nsub F dofsC dofsF f lo) s1 = for_list (flat_map (entry_contribution lo) U) (fun t s => let '(a, b, v) := t in f a b v s) s1).
      { induction U as [|e U IHU]; intros s2 HU; [reflexivity|]. cbn [for_list flat_map]. rewrite for_list_app, restrict_entry_ok; auto; [|lia|apply HU; left; auto].
        destruct (for_list (entry_contribution lo e) _ s2); [|reflexivity]. cbn [bind]. apply IHU. intros x Hx. apply HU. right; auto. }
      rewrite R by apply incl_refl. destruct (for_list (flat_map (entry_contribution lo) T) _ s1); [|reflexivity]. cbn [bind]. apply IH. lia. }
    apply G. lia.
  Qed.
  Lemma in_contributions a b v : In (a, b, v) contributions <->
    exists i w j s k, i < nc /\ In (w, j, s, k, v) T /\ rbool i w = true /\
      (0 <= zat dofsC i j)%Z /\ a = Z.to_nat (zat dofsC i j) /\ (0 <= zat dofsF (nsub * i + s) k)%Z /\ b = Z.to_nat (zat dofsF (nsub * i + s) k).
  Proof.
    unfold contributions. rewrite in_flat_map. split.
    - intros (i & Hi & H). apply in_seq in Hi. apply in_flat_map in H as (e & He & H). destruct e as [[[[w j] s] k] v']. cbn in H.
      destruct (rbool i w) eqn:E1; cbn [andb] in H; [|destruct H]. destruct (Z.leb_spec 0 (zat dofsC i j)); cbn [andb] in H; [|destruct H].
      destruct (Z.leb_spec 0 (zat dofsF (nsub * i + s) k)); [|destruct H]. destruct H as [H|[]]. inversion H; subst.
      exists i, w, j, s, k. repeat split; auto; lia.
    - intros (i & w & j & s & k & Hi & He & E1 & H1 & -> & H2 & ->). exists i. split; [apply in_seq; lia|]. apply in_flat_map. exists (w, j, s, k, v). split; auto.
      cbn. rewrite E1. apply Z.leb_le in H1, H2. rewrite H1, H2. left. reflexivity.
  Qed.

  Lemma buildRestriction_ok nC nF : readable ->
    (forall a b v, In (a, b, v) contributions -> a < nC /\ b < nF) ->
    (forall a, row_size a (map pair_of contributions) < 2 ^ 16) ->
    exists R, buildRestriction nsub T nc F dofsC nC dofsF nF = Ok R /\ wf_csr nC nF R /\ sorted_csr nC R /\ nth 0 (c_indptr R) 0 = 0 /\
      forall a b, a < nC -> matrix R a b = match last_value contributions a b with Some v => v | None => 0%Qc end.
  Proof.
    intros H HR HW. unfold buildRestriction. rewrite restrict_loop_ok by auto.
    destruct (sp_build_ok (2 ^ 16) 9 nC (map pair_of contributions)) as (ip & indz & E & Hp).
    { split; [lia|]. apply Nat.lt_le_trans with (2 ^ 4); [cbn; lia|]. apply Nat.pow_le_mono_r; lia. }
    { intros p Hp. apply in_map_iff in Hp as (((a & b) & v) & <- & Hp). cbn. apply (HR a b v Hp). }
    { exact HW. }
    unfold sp_build in E.
    assert (El : for_list (map pair_of contributions) (fun p s => sp_add (2 ^ 16) s (fst p) (snd p)) (sp_init nC 9) =
      for_list contributions (fun t s => let '(a, b, _) := t in sp_add (2 ^ 16) s a (Z.of_nat b)) (sp_init nC 9)).
    { clear. generalize (sp_init nC 9). induction contributions as [|[[a b] v] l IH]; intros s0; [reflexivity|]. cbn [map for_list pair_of fst snd].
      destruct (sp_add _ s0 a (Z.of_nat b)) as [s1|]; [|reflexivity]. cbn [bind]. apply (IH s1). }
    rewrite El in E. destruct (for_list contributions (fun t s => let '(a, b, _) := t in sp_add (2 ^ 16) s a (Z.of_nat b)) (sp_init nC 9)) as [sp|] eqn:Es; [|discriminate].
    cbn [bind] in E |- *. rewrite E. cbn [bind]. rewrite !all_init_some. cbn [bind]. rewrite restrict_loop_ok by auto.
    destruct (set_all nC nF contributions ip indz HR Hp) as (dat & Ed & wf & srt & H0 & HM). rewrite Ed. cbn [bind]. rewrite all_init_some. cbn [bind].
    eexists. split; [reflexivity|]. split; [exact wf|]. split; [exact srt|]. split; [exact H0|exact HM].
  Qed.
End Loop.
