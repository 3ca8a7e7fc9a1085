(** Conversion of CSR to symmetric storage; sortedness test. *)
From Coq Require Import Sorted Permutation.
From Verif Require Import Util Lin SparsitySpec CSRModel CSRSpec CSRProofs Rows SSSProofs OpsProofs OpsProofs2 OpsProofs3.
Set Default Proof Using "Type".

Lemma items_pairs {X} n (R : nat -> list X) c : c < n -> items (cat n (fun i => map (pair i) (R i))) c = R c.
Proof.
  assert (Hsame : forall i, items (map (pair i) (R i)) i = R i).
  { intros i. induction (R i) as [|x l IH]; [reflexivity|]. cbn [map]. rewrite items_cons. cbn [fst snd].
    rewrite Nat.eqb_refl, IH. reflexivity. }
  assert (Hother : forall i (l : list X), i <> c -> items (map (pair i) l) c = []).
  { intros i l Hne. induction l as [|x l IH]; [reflexivity|]. cbn [map]. rewrite items_cons. cbn [fst].
    apply Nat.eqb_neq in Hne. rewrite Hne. auto. }
  assert (Hz : forall k, k <= c -> items (cat k (fun i => map (pair i) (R i))) c = []).
  { induction k as [|k IH]; intros Hk; [reflexivity|]. rewrite cat_S, items_app, IH, Hother by lia. reflexivity. }
  induction n as [|n IH]; intros Hc; [lia|]. rewrite cat_S, items_app.
  destruct (Nat.eq_dec c n) as [->|Hne].
  - rewrite Hz, Hsame by lia. reflexivity.
  - rewrite IH, Hother by lia. apply app_nil_r.
Qed.

Lemma filter_cat {X} (t : X -> bool) n (G : nat -> list X) : filter t (cat n G) = cat n (fun i => filter t (G i)).
Proof. induction n as [|n IH]; [reflexivity|]. rewrite !cat_S, filter_app, IH. reflexivity. Qed.

Lemma filter_map_comm {X Y} (t : Y -> bool) (f : X -> Y) l : filter t (map f l) = map f (filter (fun x => t (f x)) l).
Proof. induction l as [|x l IH]; [reflexivity|]. cbn [map filter]. destruct (t (f x)); cbn [map]; rewrite IH; reflexivity. Qed.

Definition low (t : nat * (nat * Qc)) : bool := fst (snd t) <? fst t.

Section ToSss.
  Variables (n : nat) (A : csr).
  Hypothesis wf : wf_csr n n A.
  Hypothesis nd : nodup_csr n A.
  Hypothesis dg : forall i, i < n -> stored A i i.

  Let R := rowlist (c_indptr A) (c_indices A) (c_data A).
  Let F := cat n (fun i => map (pair i) (R i)).
  Let L := filter low F.

  Definition lowrow (i : nat) : list (nat * Qc) := filter (fun p => fst p <? i) (R i).

  Lemma L_rows : L = cat n (fun i => map (pair i) (lowrow i)).
  Proof using Type.
    unfold L, F. rewrite filter_cat. apply cat_ext. intros i Hi. rewrite filter_map_comm. reflexivity.
  Qed.

  Lemma L_keys p : In p L -> fst p < n.
  Proof using Type.
    rewrite L_rows. intros Hp. apply in_cat in Hp as (i & Hi & Hp). apply in_map_iff in Hp as (q & <- & _). auto.
  Qed.

  Lemma in_F i p : In (i, p) F <-> i < n /\ In p (R i).
  Proof using Type.
    unfold F. rewrite in_cat. split.
    - intros (k & Hk & H). apply in_map_iff in H as (q & E & Hq). injection E as -> ->. auto.
    - intros [Hi Hp]. exists i. split; auto. apply in_map; auto.
  Qed.

  Lemma diag_value i v : In (i, (i, v)) F -> v = matrix A i i.
  Proof using nd.
    intros H. apply in_F in H as [Hi H]. symmetry. apply ent_nodup; [apply nd; assumption|exact H].
  Qed.

  Definition sstep (t : nat * (nat * Qc)) (s : list nat * buf nat * buf Qc * buf Qc) :=
    let '(st, diag) := s in
    if low t then st' <- putb (fst t) (fst (snd t)) (snd (snd t)) st ;; Ok (st', diag)
    else if fst (snd t) =? fst t then diag' <- wr diag (fst t) (snd (snd t)) ;; Ok (st, diag')
    else Ok (st, diag).

  Lemma sstep_loop diag0 : length diag0 = n ->
    exists diag, for_list F sstep (fill_state n L [] L, diag0) = Ok (fill_state n L L [], diag) /\
      length diag = n /\ forall i, i < n -> nth_error diag i = Some (Some (matrix A i i)).
  Proof using wf nd dg.
    intros Hd0.
    destruct (for_list_inv (fun P s => exists Q diag, F = P ++ Q /\ s = (fill_state n L (filter low P) (filter low Q), diag) /\
        length diag = n /\ forall i v, In (i, (i, v)) P -> nth_error diag i = Some (Some (matrix A i i)))
      sstep F [] (fill_state n L [] L, diag0)) as (s' & E & Q & diag & HQ & -> & Hl & HV).
    - exists F, diag0. split; auto. split; auto. split; auto. intros i v [].
    - intros P [i [j v]] Q s HPQ (Q' & diag & HF & -> & Hl & HV). cbn [app] in *.
      assert (Q' = (i, (j, v)) :: Q) as -> by (apply (app_inv_head P); congruence).
      assert (Hin : In (i, (j, v)) F) by (rewrite HF; apply in_or_app; right; left; auto).
      assert (Hi : i < n) by (apply in_F in Hin as [? _]; auto).
      unfold sstep. cbn [fst snd]. destruct (low (i, (j, v))) eqn:El.
      + assert (EQ : filter low ((i, (j, v)) :: Q) = (i, (j, v)) :: filter low Q) by (cbn [filter]; rewrite El; auto).
        rewrite EQ, put_step.
        * cbn [bind]. eexists; split; [reflexivity|]. exists Q, diag. rewrite <- app_assoc. split; auto.
          split; [rewrite filter_app; cbn [filter]; rewrite El; reflexivity|]. split; auto.
          intros i' v' Hin'. apply in_app_or in Hin' as [Hin'|[E|[]]]; [eauto|].
          injection E as -> -> ->. unfold low in El. cbn [fst snd] in El. rewrite Nat.ltb_irrefl in El. discriminate.
        * exact L_keys.
        * unfold L. rewrite HF, filter_app, EQ. reflexivity.
      + assert (EQ : filter low ((i, (j, v)) :: Q) = filter low Q) by (cbn [filter]; rewrite El; auto).
        assert (EP : filter low (P ++ [(i, (j, v))]) = filter low P).
        { rewrite filter_app. cbn [filter]. rewrite El. apply app_nil_r. }
        destruct (Nat.eqb_spec j i) as [->|Hne].
        * rewrite wr_ok by lia. cbn [bind]. eexists; split; [reflexivity|]. eexists Q, _. rewrite <- app_assoc. split; auto.
          split; [rewrite EP, EQ; reflexivity|]. split; [rewrite upd_length; auto|].
          intros i' v' Hin'. destruct (Nat.eq_dec i' i) as [->|Hn].
          -- rewrite nth_error_upd_eq by lia. rewrite <- (diag_value i v) by auto. reflexivity.
          -- rewrite nth_error_upd_neq by auto.
             apply in_app_or in Hin' as [Hin'|[E|[]]]; [eauto|]. injection E as E1 E2. subst. congruence.
        * eexists; split; [reflexivity|]. exists Q, diag. rewrite <- app_assoc. split; auto.
          split; [rewrite EP, EQ; reflexivity|]. split; auto.
          intros i' v' Hin'. apply in_app_or in Hin' as [Hin'|[E|[]]]; [eauto|]. injection E as E1 E2 E3. congruence.
    - exists diag. cbn [app] in *. assert (Q = []) as -> by (apply (app_inv_head F); rewrite app_nil_r; auto).
      rewrite E. cbn [filter]. split; auto. split; auto. intros i Hi.
      pose proof (dg i Hi) as Hs. unfold stored in Hs. apply in_map_iff in Hs as ([k v] & Ek & Hv). cbn [fst] in Ek. subst k.
      apply (HV i v). apply in_F. auto.
  Qed.

  Lemma csr_to_sss_ok : csr_to_sss A
    = Ok (SSS (ptr n lowrow) (map fst (cat n lowrow)) (map snd (cat n lowrow)) (tab n (fun i => matrix A i i))).
  Proof using wf nd dg.
    pose proof (proj2 wf) as wfr. unfold csr_to_sss. rewrite (csr_nrows n n A wf).
    rewrite (for_rows_flat n (fun i => map (pair i) (R i)) _ (fun t ip => if low t then incr ip (fst t + 1) else Ok ip)).
    2: { intros i s Hi. rewrite for_list_map. apply (for_row_list n n _ _ _ wfr i); auto.
         intros jj j d s0 _ Ej _. rewrite (aget_ok _ _ _ Ej). reflexivity. }
    fold F. rewrite <- (for_list_filter low (fun t ip => incr ip (fst t + 1))). fold L.
    destruct (count_ok n L L_keys) as (ip0 & E & H1 & H2 & H3). rewrite E. cbn [bind].
    rewrite (prefix_loop n ip0 (bsz L)) by auto. cbn [bind].
    rewrite (aget_nth _ _ 0) by (rewrite tab_length; lia). rewrite tab_length, nth_tab by lia. cbn [bind].
    replace (n + 1 - 1) with n by lia.
    rewrite (for_rows_flat n (fun i => map (pair i) (R i)) _ sstep).
    2: { intros i s Hi. rewrite for_list_map. apply (for_row_list n n _ _ _ wfr i); auto.
         intros jj j d [[[ip ind] dat] diag] _ Ej Ed. rewrite (aget_ok _ _ _ Ej), (aget_ok _ _ _ Ed). cbn [bind].
         unfold sstep, low. cbn [fst snd]. destruct (j <? i).
         - unfold putb. destruct (aget ip i) as [p|e]; cbn [bind]; auto. destruct (wr ind p j) as [i1|e]; cbn [bind]; auto.
           destruct (wr dat p d) as [d1|e]; cbn [bind]; auto. destruct (aset ip i (p + 1)); reflexivity.
         - destruct (Nat.eqb_spec j i) as [->|]; reflexivity. }
    fold F.
    assert (E0 : (tab (n + 1) (fun k => nsum k (bsz L)), alloc (nsum n (bsz L)), alloc (nsum n (bsz L))) = fill_state n L [] L).
    { unfold fill_state. cbn [items filter map]. rewrite <- !part_start. f_equal. f_equal.
      apply tab_ext. intros k Hk. destruct (k <? n); cbn [length]; lia. }
    rewrite E0. destruct (sstep_loop (alloc n) (alloc_length n)) as (diag & E1 & Hl & HV). rewrite E1. cbn [bind].
    rewrite fill_state_done. cbn [bind].
    pose proof (shift_back_down n (fun c => nsum (if c <? n then S c else n) (bsz L))) as ES.
    destruct (for_range_down n 0 _ (tab (n + 1) (fun c => nsum (if c <? n then S c else n) (bsz L)))) as [ip3|e]; cbn [bind] in *; [|discriminate].
    rewrite ES. cbn [bind]. rewrite !all_init_some. cbn [bind].
    assert (diag = map Some (tab n (fun i => matrix A i i))) as ->.
    { apply nth_ext with (d := None) (d' := None); [rewrite map_length, tab_length; auto|].
      intros i Hi. rewrite Hl in Hi. erewrite nth_error_nth by (apply HV; auto). symmetry.
      apply nth_error_nth. rewrite nth_error_map, nth_error_tab by auto. reflexivity. }
    rewrite all_init_some. cbn [bind]. rewrite shifted.
    assert (HR : forall c, c < n -> items L c = lowrow c) by (intros c Hc; rewrite L_rows; apply items_pairs; auto).
    rewrite (cat_ext n (items L) lowrow HR). f_equal. f_equal.
    apply tab_ext. intros k Hk. apply nsum_ext. intros c Hc. unfold len. rewrite HR by lia. reflexivity.
  Qed.
End ToSss.

Lemma ent_filter_lt row i j : ent (filter (fun p : nat * Qc => fst p <? i) row) j = if j <? i then ent row j else 0%Qc.
Proof.
  induction row as [|p row IH]; cbn [filter].
  - rewrite ent_nil. destruct (j <? i); auto.
  - rewrite ent_cons. destruct (Nat.ltb_spec (fst p) i); rewrite ?ent_cons, IH;
    destruct (Nat.ltb_spec j i), (Nat.eqb_spec (fst p) j); try lia; ring.
Qed.

Lemma to_sss_thm n A : wf_csr n n A -> nodup_csr n A -> (forall i, i < n -> stored A i i) ->
  (forall i j, i < n -> j < n -> matrix A i j = matrix A j i) ->
  exists B, csr_to_sss A = Ok B /\ wf_sss n B /\ forall i j, i < n -> j < n -> sym_matrix B i j = matrix A i j.
Proof.
  intros wf nd dg sym. rewrite (csr_to_sss_ok n A wf nd dg). eexists; split; [reflexivity|]. split.
  - split; [|split].
    + cbn [s_indptr s_indices s_data]. apply mk_wf_rows. intros i p Hi Hp. apply filter_In in Hp as [_ Hp].
      apply Nat.ltb_lt in Hp. lia.
    + apply tab_length.
    + intros i p Hi Hp. cbn [s_indptr s_indices s_data] in Hp. rewrite mk_row in Hp by auto.
      apply filter_In in Hp as [_ Hp]. apply Nat.ltb_lt in Hp. auto.
  - intros i j Hi Hj. unfold sym_matrix, lower. cbn [s_indptr s_indices s_data s_diag]. rewrite !mk_row by auto.
    unfold lowrow. rewrite !ent_filter_lt. rewrite vat_tab by auto.
    change (ent (rowlist (c_indptr A) (c_indices A) (c_data A) i) j) with (matrix A i j).
    change (ent (rowlist (c_indptr A) (c_indices A) (c_data A) j) i) with (matrix A j i).
    destruct (Nat.ltb_spec j i), (Nat.ltb_spec i j), (Nat.eqb_spec i j); try lia.
    + ring.
    + rewrite sym by auto. ring.
    + subst. ring.
Qed.

(** a missing diagonal entry leaves uninitialised memory in the result *)
Lemma to_sss_missing_diag : exists A, wf_csr 1 1 A /\ nodup_csr 1 A /\
  (forall i j, i < 1 -> j < 1 -> matrix A i j = matrix A j i) /\ csr_to_sss A = Err EUninit.
Proof.
  exists (CSR 1 [0; 0] [] []). split; [|split; [|split]].
  - split; [reflexivity|]. split; [reflexivity|]. split; [intros [|i] H; cbn; lia|].
    split; [cbn; lia|]. split; [reflexivity|]. intros j [].
  - intros [|i] H; [constructor|lia].
  - intros [|i] [|j] H1 H2; try lia. reflexivity.
  - reflexivity.
Qed.

(** * isSorted *)
Lemma row_increasing_ok ind : forall r k p, k + r <= length ind ->
  exists b, row_increasing ind r k p = Ok b /\
    (b = true <-> StronglySorted lt (p :: tab r (fun q => nth (k + q) ind 0))).
Proof.
  induction r as [|r IH]; intros k p H; cbn [row_increasing].
  - exists true. split; auto. split; auto. intros _. repeat constructor.
  - rewrite (aget_nth _ _ 0) by lia. cbn [bind].
    assert (Et : tab (S r) (fun q => nth (k + q) ind 0) = nth k ind 0 :: tab r (fun q => nth (S k + q) ind 0)).
    { unfold tab. cbn [seq map]. rewrite Nat.add_0_r. f_equal. rewrite <- seq_shift, map_map. apply map_ext.
      intros a. f_equal. lia. }
    rewrite Et. destruct (Nat.leb_spec (nth k ind 0) p) as [Hle|Hgt].
    + exists false. split; auto. split; [discriminate|]. intros HS. apply StronglySorted_inv in HS as [_ HF].
      inversion HF; subst. lia.
    + destruct (IH (S k) (nth k ind 0) ltac:(lia)) as (b & E & Hb). exists b. split; auto. rewrite Hb. split.
      * intros HS. pose proof HS as HS0. apply StronglySorted_inv in HS as [HS HF]. constructor; auto.
        constructor; auto. eapply Forall_impl; [|exact HF]. intros; lia.
      * intros HS. apply StronglySorted_inv in HS as [HS _]. auto.
Qed.

Lemma isSorted_thm n m A : wf_csr n m A -> exists b, csr_isSorted A = Ok b /\ (b = true <-> sorted_csr n A).
Proof.
  intros wf. pose proof (proj2 wf) as wfr. unfold csr_isSorted.
  assert (Hl : length (c_indptr A) - 1 = n) by (destruct wfr as (H & _); lia).
  rewrite (aget_nth _ _ 0) by (destruct wfr as (H & _); lia). cbn [bind]. rewrite (csr_nrows n m A wf), Hl.
  loop_inv (fun i b => b = true <-> sorted_csr i A) st E HI.
  3: { intros i b Hi Hb.
       assert (Hdec : sorted_csr (S i) A <-> sorted_csr i A /\ StronglySorted lt (map fst (rowlist (c_indptr A) (c_indices A) (c_data A) i))).
       { split.
         - intros HS. split; [intros k Hk; apply HS; lia|apply HS; lia].
         - intros [HS HR] k Hk. destruct (Nat.eq_dec k i) as [->|]; auto. apply HS; lia. }
       destruct b; cbn [negb].
       2: { exists false. split; auto. split; [discriminate|]. rewrite Hdec. intros [HS _]. apply Hb in HS. discriminate. }
       assert (HS : sorted_csr i A) by (apply Hb; auto).
       pose proof (rowlist_tab n m _ _ _ wfr i ltac:(lia)) as ER.
       pose proof (wf_mono n m _ _ _ wfr i (S i) ltac:(lia) ltac:(lia)) as Hm.
       pose proof (wf_mono n m _ _ _ wfr (S i) n ltac:(lia) ltac:(lia)) as Hm2.
       assert (H3 : nth n (c_indptr A) 0 <= length (c_indices A)) by (destruct wfr as (_ & _ & H & _); auto).
       rewrite (wf_ip n m _ _ _ wfr) by lia. cbn [bind].
       destruct (Nat.eqb_spec (nth i (c_indptr A) 0) (nth n (c_indptr A) 0)) as [Eq|Hne].
       - exists true. split; auto. rewrite Hdec. split; auto. intros _. split; auto. rewrite ER.
         replace (nth (S i) (c_indptr A) 0 - nth i (c_indptr A) 0) with 0 by lia. constructor.
       - rewrite (aget_nth _ _ 0) by lia. cbn [bind]. rewrite (wf_ip n m _ _ _ wfr) by lia. cbn [bind].
         rewrite Nat.add_1_r.
         destruct (Nat.eq_dec (nth (S i) (c_indptr A) 0) (nth i (c_indptr A) 0)) as [Ee|Hne2].
         + rewrite Ee. replace (nth i (c_indptr A) 0 - (nth i (c_indptr A) 0 + 1)) with 0 by lia. cbn [row_increasing].
           exists true. split; auto. rewrite Hdec. split; auto. intros _. split; auto. rewrite ER, Ee, Nat.sub_diag. constructor.
         + destruct (row_increasing_ok (c_indices A) (nth (S i) (c_indptr A) 0 - (nth i (c_indptr A) 0 + 1)) (nth i (c_indptr A) 0 + 1)
             (nth (nth i (c_indptr A) 0) (c_indices A) 0) ltac:(lia)) as (b & E & Hb').
           rewrite Nat.add_1_r in *. exists b. split; auto. rewrite Hb', Hdec, ER.
           replace (nth (S i) (c_indptr A) 0 - nth i (c_indptr A) 0) with (S (nth (S i) (c_indptr A) 0 - S (nth i (c_indptr A) 0))) by lia.
           unfold tab. rewrite map_map. cbn [seq map fst]. rewrite Nat.add_0_r.
           rewrite <- seq_shift, map_map.
           rewrite (map_ext (fun x => nth (nth i (c_indptr A) 0 + S x) (c_indices A) 0) (fun q => nth (S (nth i (c_indptr A) 0) + q) (c_indices A) 0))
             by (intros; f_equal; lia).
           tauto. }
  - lia.
  - split; auto. intros _ k Hk. lia.
  - exists st. auto.
Qed.

(** * Entries of symmetric storage *)
Definition stored_lower (A : sss) (I J : nat) : Prop :=
  In J (map fst (rowlist (s_indptr A) (s_indices A) (s_data A) I)).

Section SssEntry.
  Variables (n : nat) (A : sss).
  Hypothesis wf : wf_sss n A.
  Hypothesis srt : sorted_sss n A.

  Lemma map_fst_rowlist d' i : length d' = length (s_data A) -> i < n ->
    map fst (rowlist (s_indptr A) (s_indices A) d' i) = map fst (rowlist (s_indptr A) (s_indices A) (s_data A) i).
  Proof using wf.
    intros Hl Hi. pose proof (proj1 wf) as wfr.
    rewrite (rowlist_tab n n _ _ _ (wf_data n n _ _ _ wfr _ Hl)), (rowlist_tab n n _ _ _ wfr) by auto.
    unfold tab. rewrite !map_map. reflexivity.
  Qed.

  Lemma wf_sss_data d' : length d' = length (s_data A) -> wf_sss n (SSS (s_indptr A) (s_indices A) d' (s_diag A)).
  Proof using wf.
    intros Hl. destruct wf as (wfr & Hd & Hlow). split; [|split]; cbn [s_indptr s_indices s_data s_diag]; auto.
    - eapply wf_data; eauto.
    - intros i p Hi Hp. apply (in_map fst) in Hp. rewrite map_fst_rowlist in Hp by auto.
      apply in_map_iff in Hp as (q & <- & Hq). eauto.
  Qed.

  Lemma sss_find I J : I < n -> stored_lower A I J ->
    exists k lin, entry_find (s_indptr A) (s_indices A) I J = Ok (Some k, lin) /\ nth k (s_indices A) 0 = J /\
      nth I (s_indptr A) 0 <= k < nth (S I) (s_indptr A) 0 /\ k < length (s_data A).
  Proof using wf srt.
    intros HI Hst. pose proof (proj1 wf) as wfr.
    destruct (entry_find_ok n n _ _ _ wfr I J HI (srt I HI)) as (o & E & Ho).
    pose proof (wf_hi n n _ _ _ wfr I HI) as Hhi. rewrite (combine_len n n _ _ _ wfr) in Hhi.
    assert (length (s_data A) = length (s_indices A)) by (destruct wfr as (_ & _ & _ & H & _); auto).
    destruct o as [k|].
    - destruct Ho as [Hk <-]. exists k, (nth (S I) (s_indptr A) 0 - nth I (s_indptr A) 0 <? 20). split; auto. split; auto. split; auto. lia.
    - exfalso. unfold stored_lower in Hst. rewrite (rowlist_tab n n _ _ _ wfr) in Hst by auto.
      unfold tab in Hst. rewrite map_map in Hst. apply in_map_iff in Hst as (k & Ek & Hk). cbn [fst] in Ek.
      apply in_seq in Hk. apply (Ho (nth I (s_indptr A) 0 + k)); auto. lia.
  Qed.

  Lemma sym_upd_data I k v i j : I < n -> i < n -> j < n -> nth I (s_indptr A) 0 <= k < nth (S I) (s_indptr A) 0 ->
    let J := nth k (s_indices A) 0 in
    sym_matrix (SSS (s_indptr A) (s_indices A) (upd (s_data A) k v) (s_diag A)) i j
    = (sym_matrix A i j + (if (((i =? I) && (j =? J)) || ((i =? J) && (j =? I)))%nat then v - nth k (s_data A) 0 else 0))%Qc.
  Proof using wf.
    intros HI Hi Hj Hk J. pose proof (proj1 wf) as wfr. unfold sym_matrix, lower. cbn [s_indptr s_indices s_data s_diag].
    rewrite !(ent_upd n n _ _ _ wfr I k v) by auto. fold J.
    assert (HJ : J < I).
    { destruct wf as (_ & _ & Hlow).
      pose proof (rowlist_nth n n _ _ _ wfr I (k - nth I (s_indptr A) 0) HI ltac:(lia)) as E.
      replace (nth I (s_indptr A) 0 + (k - nth I (s_indptr A) 0)) with k in E by lia.
      apply nth_error_In in E. apply (Hlow I) in E; auto. }
    destruct (Nat.eqb_spec i I), (Nat.eqb_spec j J), (Nat.eqb_spec j I), (Nat.eqb_spec i J); cbn [andb orb]; try lia; ring.
  Qed.

  Lemma sss_addToEntry_ok I J v : I < n -> J <= I -> (J < I -> stored_lower A I J) ->
    exists B, sss_addToEntry A I J v = Ok B /\ wf_sss n B /\
      forall i j, i < n -> j < n -> sym_matrix B i j
        = if ((i =? I) && (j =? J)) || ((i =? J) && (j =? I)) then (sym_matrix A i j + v)%Qc else sym_matrix A i j.
  Proof using wf srt.
    intros HI HJ Hst. unfold sss_addToEntry. destruct (Nat.eqb_spec I J) as [<-|Hne].
    - assert (Hd : length (s_diag A) = n) by (destruct wf as (_ & H & _); auto).
      rewrite (aget_nth _ _ 0%Qc) by lia. cbn [bind]. rewrite aset_ok by lia. cbn [bind].
      eexists; split; [reflexivity|]. split.
      + destruct wf as (H1 & H2 & H3). split; [exact H1|]. split; [cbn [s_diag]; rewrite upd_length; auto|exact H3].
      + intros i j Hi Hj. unfold sym_matrix, lower. cbn [s_indptr s_indices s_data s_diag].
        rewrite vat_upd by lia. fold (vat (s_diag A) I).
        destruct (Nat.eqb_spec i I), (Nat.eqb_spec j I), (Nat.eqb_spec i j); cbn [andb orb]; try lia; subst; try ring.
    - assert (J <? I = true) as -> by (apply Nat.ltb_lt; lia).
      destruct (sss_find I J HI (Hst ltac:(lia))) as (k & lin & E & EJ & Hk & Hkl). rewrite E. cbn [bind].
      rewrite (aget_nth _ _ 0%Qc) by lia. cbn [bind]. rewrite aset_ok by lia. cbn [bind].
      eexists; split; [reflexivity|]. split; [apply wf_sss_data; apply upd_length|].
      intros i j Hi Hj. rewrite (sym_upd_data I) by auto. rewrite EJ. destruct (_ || _); ring.
  Qed.

  Lemma sss_addToEntry_upper I J v : I < J -> sss_addToEntry A I J v = Ok A.
  Proof using Type.
    intros H. unfold sss_addToEntry. destruct (Nat.eqb_spec I J), (Nat.ltb_spec J I); try lia. reflexivity.
  Qed.
End SssEntry.

Lemma sss_thm : forall n (A : sss), wf_sss n A ->
    (forall (x : list Qc) (y : buf Qc), length x = n -> length y = n ->
       sss_matvec A x y = Ok (map Some (tab n (mv n (sym_matrix A) (vat x))))) /\
    (forall x y : list Qc, length x = n -> length y = n ->
       sss_matvec_no_overwrite A x (map Some y)
       = Ok (map Some (tab n (fun i => vat y i + mv n (sym_matrix A) (vat x) i)%Qc))) /\
    (sorted_sss n A -> forall i j, i < n -> j < n ->
       sss_getEntry A i j = Ok (sym_matrix A i j) /\ sss_getEntry A j i = Ok (sym_matrix A i j)).
Proof.
  intros n A wf. split; [|split].
  - intros; apply sss_matvec_ok; auto.
  - intros; apply sss_matvec_add_ok; auto.
  - intros srt i j Hi Hj. split; [apply (sss_getEntry_ok n); auto|].
    rewrite (sss_getEntry_ok n) by auto. f_equal. unfold sym_matrix. rewrite (Nat.eqb_sym j i).
    destruct (Nat.eqb_spec i j) as [->|]; ring.
Qed.

Lemma same_matrix_thm : forall n m (A : csr), wf_csr n m A ->
    (exists B, csr_eliminate_zeros A = Ok B /\ wf_csr n m B /\
       (forall i j, i < n -> matrix B i j = matrix A i j) /\ (forall v, In v (c_data B) -> v <> 0%Qc)) /\
    (exists B, csr_sort_indices A = Ok B /\ wf_csr n m B /\
       (forall i, i < n ->
          Permutation (rowlist (c_indptr A) (c_indices A) (c_data A) i) (rowlist (c_indptr B) (c_indices B) (c_data B) i) /\
          StronglySorted le (map fst (rowlist (c_indptr B) (c_indices B) (c_data B) i))) /\
       (forall i j, i < n -> matrix B i j = matrix A i j) /\
       (nodup_csr n A -> sorted_csr n B)) /\
    (exists b, csr_isSorted A = Ok b /\ (b = true <-> sorted_csr n A)).
Proof.
  intros n m A wf. split; [apply eliminate_zeros_thm; auto|]. split.
  - destruct (sort_indices_thm n m A wf) as (B & E & W & EI & H).
    { destruct wf as (_ & _ & _ & _ & H & _). auto. }
    exists B. split; auto. split; auto. split; auto. split.
    + intros i j Hi. unfold matrix. symmetry. apply ent_perm. apply H; auto.
    + intros nd i Hi. apply sorted_le_nodup; [apply H; auto|]. eapply Permutation_NoDup; [|apply nd; exact Hi].
      apply Permutation_map. apply H; auto.
  - apply (isSorted_thm n m); auto.
Qed.

Lemma scaling_thm : forall n m (A : csr), wf_csr n m A ->
    (forall s, length s = n -> exists B, csr_scaleLeft A s = Ok B /\ wf_csr n m B /\
       forall i j, i < n -> matrix B i j = (vat s i * matrix A i j)%Qc) /\
    (forall s, length s = m -> exists B, csr_scaleRight A s = Ok B /\ wf_csr n m B /\
       forall i j, i < n -> matrix B i j = (matrix A i j * vat s j)%Qc) /\
    (forall a, exists B, csr_scale A a = Ok B /\ wf_csr n m B /\
       forall i j, i < n -> matrix B i j = (a * matrix A i j)%Qc) /\
    (exists B, csr_setZero A = Ok B /\ wf_csr n m B /\ forall i j, i < n -> matrix B i j = 0%Qc).
Proof.
  intros n m A wf. split; [|split; [|split]]; intros.
  - apply csr_scaleLeft_ok; auto.
  - apply csr_scaleRight_ok; auto.
  - apply csr_scale_ok; auto.
  - apply csr_setZero_ok; auto.
Qed.

Lemma from_dense_full : forall n m (M : nat -> nat -> Qc) tol,
    exists B, csr_from_dense n m M tol = Ok B /\ wf_csr n m B /\ sorted_csr n B /\
      (forall i j, i < n -> j < m -> matrix B i j = if above tol (M i j) then M i j else 0%Qc) /\
      (tol = 0%Qc -> forall i j, i < n -> j < m -> matrix B i j = M i j).
Proof.
  intros n m M tol. destruct (from_dense_thm n m M tol) as (B & E & H1 & H2 & H3).
  exists B. split; auto. split; auto. split; auto. split; auto.
  intros -> i j Hi Hj. rewrite H3 by auto. destruct (above 0 (M i j)) eqn:Ea; auto. symmetry. apply above_zero; auto.
Qed.

Lemma entries_thm : forall n m (A : csr), wf_csr n m A ->
    (sorted_csr n A -> forall I J v, I < n ->
       csr_getEntry A I J = Ok (matrix A I J) /\
       (stored A I J ->
          (exists B, csr_setEntry A I J v = Ok B /\ wf_csr n m B /\
             forall i j, i < n -> matrix B i j = if (i =? I) && (j =? J) then v else matrix A i j) /\
          (exists B, csr_addToEntry A I J v = Ok B /\ wf_csr n m B /\
             forall i j, i < n -> matrix B i j = if (i =? I) && (j =? J) then (matrix A i j + v)%Qc else matrix A i j))) /\
    (nodup_csr n A -> csr_get_diagonal A = Ok (tab n (fun i => matrix A i i))).
Proof.
  intros n m A wf. split.
  - intros srt I J v HI. split; [apply (csr_getEntry_ok n m); auto|]. intros Hs. split.
    + apply (csr_setEntry_ok n m); auto.
    + apply (csr_addToEntry_ok n m); auto.
  - apply csr_get_diagonal_ok with (m := m); auto.
Qed.
