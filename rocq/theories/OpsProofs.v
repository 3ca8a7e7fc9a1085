(** Proofs about the structural operations on CSR matrices. *)
From Coq Require Import Sorted Permutation Qcabs.
From Verif Require Import Util Lin SparsitySpec CSRModel CSRSpec CSRProofs Rows SSSProofs.
Set Default Proof Using "Type".

(** * Matrices given by a function from rows to lists of pairs *)
Lemma combine_fst_snd {A B} (l : list (A * B)) : combine (map fst l) (map snd l) = l.
Proof. induction l as [|[a b] l IH]; cbn [map combine fst snd]; [auto|]. rewrite IH. reflexivity. Qed.

Definition mk (n m : nat) (R : nat -> list (nat * Qc)) : csr :=
  CSR m (ptr n R) (map fst (cat n R)) (map snd (cat n R)).

Lemma mk_wf_rows n m R : (forall i p, i < n -> In p (R i) -> fst p < m) ->
  wf_rows n m (ptr n R) (map fst (cat n R)) (map snd (cat n R)).
Proof.
  intros H. split; [apply ptr_length|]. split.
  { intros i Hi. rewrite !nth_ptr by lia. cbn [nsum]. lia. }
  split; [rewrite nth_ptr, map_length, cat_length by lia; auto|].
  split; [rewrite !map_length; auto|].
  intros j Hj. apply in_map_iff in Hj as (p & <- & Hp). apply in_cat in Hp as (i & Hi & Hp). eauto.
Qed.

Lemma mk_wf n m R : (forall i p, i < n -> In p (R i) -> fst p < m) -> wf_csr n m (mk n m R).
Proof. intros H. split; [reflexivity|]. apply mk_wf_rows; auto. Qed.

Lemma mk_row n R i : i < n -> rowlist (ptr n R) (map fst (cat n R)) (map snd (cat n R)) i = R i.
Proof. intros H. unfold rowlist. rewrite combine_fst_snd, !nth_ptr by lia. apply slice_cat; auto. Qed.

Lemma mk_matrix n m R i j : i < n -> matrix (mk n m R) i j = ent (R i) j.
Proof. intros H. unfold matrix, mk. cbn [c_indptr c_indices c_data]. rewrite mk_row; auto. Qed.

(** * Scaling *)
Lemma scale_loop (f : nat -> Qc -> Qc) lo hi data : hi <= length data ->
  exists data', for_range lo hi (fun jj data => v <- aget data jj ;; aset data jj (f jj v)) data = Ok data' /\
    length data' = length data /\
    forall k, nth k data' 0%Qc = if (lo <=? k) && (k <? hi) then f k (nth k data 0%Qc) else nth k data 0%Qc.
Proof.
  intros H. destruct (Nat.le_gt_cases lo hi) as [Hle|Hgt].
  2: { exists data. rewrite for_range_empty by lia. split; auto. split; auto. intros k.
       destruct (Nat.leb_spec lo k), (Nat.ltb_spec k hi); auto; lia. }
  loop_inv (fun i d => length d = length data /\
     forall k, nth k d 0%Qc = if (lo <=? k) && (k <? i) then f k (nth k data 0%Qc) else nth k data 0%Qc) st E HI.
  3: { intros i d Hi (L & V). rewrite (aget_nth _ _ 0%Qc) by lia. cbn [bind]. rewrite aset_ok by lia.
       eexists; split; [reflexivity|]. split; [rewrite upd_length; auto|]. intros k.
       destruct (Nat.eq_dec k i) as [->|Hne].
       - rewrite nth_upd_eq, V by lia.
         destruct (Nat.leb_spec lo i), (Nat.ltb_spec i i), (Nat.ltb_spec i (S i)); try lia. reflexivity.
       - rewrite nth_upd_neq, V by auto.
         destruct (Nat.leb_spec lo k), (Nat.ltb_spec k i), (Nat.ltb_spec k (S i)); auto; lia. }
  - lia.
  - split; auto. intros k. destruct (Nat.leb_spec lo k), (Nat.ltb_spec k lo); auto; lia.
  - exists st. destruct HI; auto.
Qed.

Section Scale.
  Variables (n m : nat) (ip ind : list nat) (dat : list Qc).
  Hypothesis wf : wf_rows n m ip ind dat.

  Lemma rows_scale (g : nat -> nat -> Qc -> Qc) (body : nat -> list Qc -> res (list Qc)) :
    (forall i d, i < n -> length d = length dat ->
       body i d = for_range (nth i ip 0) (nth (S i) ip 0) (fun jj data => v <- aget data jj ;; aset data jj (g i jj v)) d) ->
    exists data', for_range 0 n body dat = Ok data' /\ length data' = length dat /\
      forall i k, i < n -> nth i ip 0 <= k < nth (S i) ip 0 -> nth k data' 0%Qc = g i k (nth k dat 0%Qc).
  Proof using wf.
    intros Hb.
    loop_inv (fun i d => length d = length dat /\
       (forall k, nth i ip 0 <= k -> nth k d 0%Qc = nth k dat 0%Qc) /\
       forall i' k, i' < i -> nth i' ip 0 <= k < nth (S i') ip 0 -> nth k d 0%Qc = g i' k (nth k dat 0%Qc)) st E HI.
    3: { intros i d Hi (L & U & V). rewrite Hb by lia.
         pose proof (wf_hi n m _ _ _ wf i ltac:(lia)) as Hhi. rewrite (combine_len n m _ _ _ wf) in Hhi.
         assert (Hd : length dat = length ind) by (destruct wf as (_ & _ & _ & Hd & _); auto).
         destruct (scale_loop (g i) (nth i ip 0) (nth (S i) ip 0) d) as (d' & E & L' & V'); [lia|].
         rewrite E. eexists; split; [reflexivity|]. split; [lia|].
         pose proof (wf_mono n m _ _ _ wf i (S i) ltac:(lia) ltac:(lia)) as Hm. split.
         - intros k Hk. rewrite V'.
           destruct (Nat.leb_spec (nth i ip 0) k), (Nat.ltb_spec k (nth (S i) ip 0)); try lia. apply U; lia.
         - intros i' k Hi' Hk. rewrite V'. destruct (Nat.eq_dec i' i) as [->|Hne].
           + destruct (Nat.leb_spec (nth i ip 0) k), (Nat.ltb_spec k (nth (S i) ip 0)); try lia.
             cbn [andb]. rewrite U by lia. reflexivity.
           + pose proof (wf_mono n m _ _ _ wf (S i') i ltac:(lia) ltac:(lia)).
             destruct (Nat.leb_spec (nth i ip 0) k); try lia. cbn [andb]. apply V; lia. }
    - lia.
    - split; auto. split; auto. intros; lia.
    - exists st. destruct HI as (L & _ & V). auto.
  Qed.

  Lemma wf_data data' : length data' = length dat -> wf_rows n m ip ind data'.
  Proof using wf. intros H. destruct wf as (H1 & H2 & H3 & H4 & H5). repeat split; auto. lia. Qed.
End Scale.

Lemma csr_scaleLeft_ok n m A s : wf_csr n m A -> length s = n ->
  exists B, csr_scaleLeft A s = Ok B /\ wf_csr n m B /\
    forall i j, i < n -> matrix B i j = (vat s i * matrix A i j)%Qc.
Proof.
  intros wf Hs. pose proof (proj2 wf) as wfr. unfold csr_scaleLeft. rewrite (csr_nrows n m A wf).
  rewrite Hs, Nat.eqb_refl. cbn [guard bind].
  destruct (rows_scale n m _ _ _ wfr (fun i _ v => v * vat s i)%Qc
    (fun i data => d <- aget s i ;;
        for_row (c_indptr A) i (fun jj data => v <- aget data jj ;; aset data jj (v * d)%Qc) data)) as (d & E & L & V).
  - intros i d Hi Hd. rewrite (aget_nth _ _ 0%Qc) by lia. cbn [bind]. unfold for_row.
    rewrite (wf_ip n m _ _ _ wfr) by lia. cbn [bind]. rewrite (wf_ip n m _ _ _ wfr) by lia. cbn [bind].
    rewrite Nat.add_1_r. reflexivity.
  - rewrite E. cbn [bind]. eexists; split; [reflexivity|]. split.
    + split; [exact (proj1 wf)|]. cbn [c_indptr c_indices c_data]. eapply wf_data; eauto.
    + intros i j Hi. unfold matrix. cbn [c_indptr c_indices c_data].
      rewrite (ent_sum n m _ _ _ (wf_data n m _ _ _ wfr _ L)) by auto.
      rewrite (ent_sum n m _ _ _ wfr) by auto. rewrite <- sumf_scal. apply sumf_ext. intros k Hk.
      rewrite (V i) by lia. destruct (_ =? j); ring.
Qed.

Lemma csr_scaleRight_ok n m A s : wf_csr n m A -> length s = m ->
  exists B, csr_scaleRight A s = Ok B /\ wf_csr n m B /\
    forall i j, i < n -> matrix B i j = (matrix A i j * vat s j)%Qc.
Proof.
  intros wf Hs. pose proof (proj2 wf) as wfr. unfold csr_scaleRight. rewrite (csr_nrows n m A wf).
  rewrite (proj1 wf), Hs, Nat.eqb_refl. cbn [guard bind].
  assert (Hc : forall i k, i < n -> nth i (c_indptr A) 0 <= k < nth (S i) (c_indptr A) 0 -> nth k (c_indices A) 0 < m).
  { intros i k Hi Hk. pose proof (wf_hi n m _ _ _ wfr i Hi) as Hhi. rewrite (combine_len n m _ _ _ wfr) in Hhi.
    destruct wfr as (_ & _ & _ & _ & H5). apply H5. apply nth_In. lia. }
  destruct (rows_scale n m _ _ _ wfr (fun i k v => v * vat s (nth k (c_indices A) 0%nat))%Qc
    (fun i data => for_row (c_indptr A) i (fun jj data =>
      j <- aget (c_indices A) jj ;; s <- aget s j ;; v <- aget data jj ;; aset data jj (v * s)%Qc) data)) as (d & E & L & V).
  - intros i d Hi Hd. unfold for_row.
    rewrite (wf_ip n m _ _ _ wfr) by lia. cbn [bind]. rewrite (wf_ip n m _ _ _ wfr) by lia. cbn [bind].
    rewrite Nat.add_1_r. apply for_range_ext. intros k s0 Hk.
    pose proof (wf_hi n m _ _ _ wfr i Hi) as Hhi. rewrite (combine_len n m _ _ _ wfr) in Hhi.
    rewrite (aget_nth _ _ 0) by lia. cbn [bind].
    rewrite (aget_nth s _ 0%Qc) by (rewrite Hs; eauto). cbn [bind]. reflexivity.
  - rewrite E. cbn [bind]. eexists; split; [reflexivity|]. split.
    + split; [cbn [c_ncols]; auto|]. cbn [c_indptr c_indices c_data]. eapply wf_data; eauto.
    + intros i j Hi. unfold matrix. cbn [c_indptr c_indices c_data].
      rewrite (ent_sum n m _ _ _ (wf_data n m _ _ _ wfr _ L)) by auto.
      rewrite (ent_sum n m _ _ _ wfr) by auto. rewrite <- sumf_scal_r. apply sumf_ext. intros k Hk.
      rewrite (V i) by lia. destruct (Nat.eqb_spec (nth (nth i (c_indptr A) 0 + k) (c_indices A) 0) j) as [->|]; ring.
Qed.

Lemma csr_scale_ok n m A a : wf_csr n m A ->
  exists B, csr_scale A a = Ok B /\ wf_csr n m B /\ forall i j, i < n -> matrix B i j = (a * matrix A i j)%Qc.
Proof.
  intros wf. pose proof (proj2 wf) as wfr. unfold csr_scale.
  destruct (scale_loop (fun _ v => v * a)%Qc 0 (length (c_data A)) (c_data A) ltac:(lia)) as (d & E & L & V).
  rewrite E. cbn [bind]. eexists; split; [reflexivity|]. split.
  - split; [exact (proj1 wf)|]. cbn [c_indptr c_indices c_data]. eapply wf_data; eauto.
  - intros i j Hi. unfold matrix. cbn [c_indptr c_indices c_data].
    rewrite (ent_sum n m _ _ _ (wf_data n m _ _ _ wfr _ L)) by auto.
    rewrite (ent_sum n m _ _ _ wfr) by auto. rewrite <- sumf_scal. apply sumf_ext. intros k Hk.
    rewrite V. pose proof (wf_hi n m _ _ _ wfr i Hi) as Hhi. rewrite (combine_len n m _ _ _ wfr) in Hhi.
    assert (length (c_data A) = length (c_indices A)) by (destruct wfr as (_ & _ & _ & H & _); auto).
    assert ((0 <=? nth i (c_indptr A) 0 + k) && (nth i (c_indptr A) 0 + k <? length (c_data A)) = true) as ->.
    { apply andb_true_intro; split; [apply Nat.leb_le|apply Nat.ltb_lt]; lia. }
    destruct (_ =? j); ring.
Qed.

Lemma csr_setZero_ok n m A : wf_csr n m A ->
  exists B, csr_setZero A = Ok B /\ wf_csr n m B /\ forall i j, i < n -> matrix B i j = 0%Qc.
Proof.
  intros wf. pose proof (proj2 wf) as wfr. unfold csr_setZero.
  destruct (scale_loop (fun _ v => 0)%Qc 0 (length (c_data A)) (c_data A) ltac:(lia)) as (d & E & L & V).
  assert (E' : for_range 0 (length (c_data A)) (fun i data => aset data i 0%Qc) (c_data A) = Ok d).
  { rewrite <- E.
    assert (Hgen : forall n i (l : list Qc), i + n <= length l ->
      for_n n i (fun i data => aset data i 0%Qc) l = for_n n i (fun jj data => v <- aget data jj ;; aset data jj 0%Qc) l).
    { induction n0 as [|n0 IH]; intros i l Hl; [reflexivity|]. cbn [for_n].
      rewrite (aget_nth _ _ 0%Qc) by lia. cbn [bind]. rewrite aset_ok by lia. cbn [bind].
      apply IH. rewrite upd_length. lia. }
    apply Hgen. lia. }
  rewrite E'. cbn [bind]. eexists; split; [reflexivity|]. split.
  - split; [exact (proj1 wf)|]. cbn [c_indptr c_indices c_data]. eapply wf_data; eauto.
  - intros i j Hi. unfold matrix. cbn [c_indptr c_indices c_data].
    rewrite (ent_sum n m _ _ _ (wf_data n m _ _ _ wfr _ L)) by auto. apply sumf_zero. intros k Hk.
    rewrite V. pose proof (wf_hi n m _ _ _ wfr i Hi) as Hhi. rewrite (combine_len n m _ _ _ wfr) in Hhi.
    assert (length (c_data A) = length (c_indices A)) by (destruct wfr as (_ & _ & _ & H & _); auto).
    assert ((0 <=? nth i (c_indptr A) 0 + k) && (nth i (c_indptr A) 0 + k <? length (c_data A)) = true) as ->.
    { apply andb_true_intro; split; [apply Nat.leb_le|apply Nat.ltb_lt]; lia. }
    destruct (_ =? j); ring.
Qed.

(** * Single entries *)
Section Entry.
  Variables (n m : nat) (ip ind : list nat) (dat : list Qc).
  Hypothesis wf : wf_rows n m ip ind dat.

  (** overwriting the value in slot k of row I *)
  Lemma ent_upd I k v i j : I < n -> i < n -> nth I ip 0 <= k < nth (S I) ip 0 ->
    ent (rowlist ip ind (upd dat k v) i) j
    = (ent (rowlist ip ind dat i) j +
       (if ((i =? I) && (j =? nth k ind 0%nat))%nat then v - nth k dat 0 else 0))%Qc.
  Proof using wf.
    intros HI Hi Hk.
    rewrite (ent_sum n m _ _ _ (wf_data n m _ _ _ wf _ (upd_length dat k v))) by auto.
    rewrite (ent_sum n m _ _ _ wf) by auto.
    pose proof (wf_hi n m _ _ _ wf I HI) as Hhi. rewrite (combine_len n m _ _ _ wf) in Hhi.
    assert (Hd : length dat = length ind) by (destruct wf as (_ & _ & _ & Hd & _); auto).
    destruct (Nat.eqb_spec i I) as [->|Hne].
    - cbn [andb].
      transitivity (sumf (nth (S I) ip 0 - nth I ip 0) (fun k0 =>
        Qcplus (if nth (nth I ip 0 + k0) ind 0 =? j then nth (nth I ip 0 + k0) dat 0%Qc else 0%Qc)
          (if k0 =? k - nth I ip 0 then (if j =? nth k ind 0 then (v - nth k dat 0)%Qc else 0%Qc) else 0%Qc))).
      + apply sumf_ext. intros k0 Hk0. destruct (Nat.eqb_spec k0 (k - nth I ip 0)) as [->|Hne'].
        * replace (nth I ip 0 + (k - nth I ip 0)) with k by lia. rewrite nth_upd_eq by lia.
          rewrite (Nat.eqb_sym j). destruct (_ =? j); ring.
        * rewrite nth_upd_neq by lia. ring.
      + rewrite sumf_plus. rewrite sumf_delta by lia. reflexivity.
    - cbn [andb]. rewrite Qcplus_0_r. apply sumf_ext. intros k0 Hk0.
      rewrite nth_upd_neq; auto.
      destruct (Nat.lt_ge_cases i I).
      + pose proof (wf_mono n m _ _ _ wf (S i) I ltac:(lia) ltac:(lia)). lia.
      + pose proof (wf_mono n m _ _ _ wf (S I) i ltac:(lia) ltac:(lia)). lia.
  Qed.
End Entry.

(** Is there a stored entry (I, J)? *)
Definition stored (A : csr) (I J : nat) : Prop :=
  In J (map fst (rowlist (c_indptr A) (c_indices A) (c_data A) I)).

Section EntryOps.
  Variables (n m : nat) (A : csr).
  Hypothesis wf : wf_csr n m A.
  Hypothesis srt : sorted_csr n A.

  Lemma csr_getEntry_ok I J : I < n -> csr_getEntry A I J = Ok (matrix A I J).
  Proof using wf srt. intros HI. unfold csr_getEntry. apply (find_value n m _ _ _ (proj2 wf)); auto. Qed.

  Lemma stored_slot I k : I < n -> nth I (c_indptr A) 0 <= k < nth (S I) (c_indptr A) 0 ->
    stored A I (nth k (c_indices A) 0).
  Proof using wf.
    intros HI Hk. unfold stored.
    pose proof (rowlist_nth n m _ _ _ (proj2 wf) I (k - nth I (c_indptr A) 0) HI ltac:(lia)) as E.
    replace (nth I (c_indptr A) 0 + (k - nth I (c_indptr A) 0)) with k in E by lia.
    apply nth_error_In in E. apply (in_map fst) in E. exact E.
  Qed.

  Lemma not_stored I J : I < n -> (forall k, nth I (c_indptr A) 0 <= k < nth (S I) (c_indptr A) 0 -> nth k (c_indices A) 0 <> J) ->
    ~ stored A I J.
  Proof using wf.
    intros HI H Hs. unfold stored in Hs. rewrite (rowlist_tab n m _ _ _ (proj2 wf)) in Hs by auto.
    unfold tab in Hs. rewrite map_map in Hs. apply in_map_iff in Hs as (k & E & Hk). cbn [fst] in E.
    apply in_seq in Hk. apply (H (nth I (c_indptr A) 0 + k)); auto. lia.
  Qed.

  Let wfr := proj2 wf.

  Lemma slot_data I k : I < n -> k < nth (S I) (c_indptr A) 0 -> k < length (c_data A).
  Proof using wf.
    intros HI Hk. pose proof (wf_hi n m _ _ _ (proj2 wf) I HI) as Hhi. rewrite (combine_len n m _ _ _ (proj2 wf)) in Hhi.
    assert (length (c_data A) = length (c_indices A)) by (pose proof (proj2 wf) as (_ & _ & _ & H & _); auto). lia.
  Qed.

  Lemma found_value I k : I < n -> nth I (c_indptr A) 0 <= k < nth (S I) (c_indptr A) 0 ->
    matrix A I (nth k (c_indices A) 0) = nth k (c_data A) 0%Qc.
  Proof using wf srt.
    intros HI Hk. unfold matrix. apply (ent_found n m _ _ _ (proj2 wf)); auto. apply sorted_nodup; auto.
  Qed.

  Lemma matrix_upd I k v i j : I < n -> i < n -> nth I (c_indptr A) 0 <= k < nth (S I) (c_indptr A) 0 ->
    matrix (CSR (c_ncols A) (c_indptr A) (c_indices A) (upd (c_data A) k v)) i j
    = if (i =? I) && (j =? nth k (c_indices A) 0) then v else matrix A i j.
  Proof using wf srt.
    intros HI Hi Hk. unfold matrix at 1. cbn [c_indptr c_indices c_data].
    rewrite (ent_upd n m _ _ _ (proj2 wf) I k v i j HI Hi Hk).
    fold (matrix A i j). destruct (Nat.eqb_spec i I) as [->|]; [|cbn [andb]; ring]. cbn [andb].
    destruct (Nat.eqb_spec j (nth k (c_indices A) 0)) as [->|]; [|ring].
    rewrite (found_value I) by auto. ring.
  Qed.

  Lemma csr_setEntry_ok I J v : I < n -> stored A I J ->
    exists B, csr_setEntry A I J v = Ok B /\ wf_csr n m B /\
      forall i j, i < n -> matrix B i j = if (i =? I) && (j =? J) then v else matrix A i j.
  Proof using wf srt.
    intros HI Hst. unfold csr_setEntry.
    destruct (entry_find_ok n m _ _ _ (proj2 wf) I J HI (srt I HI)) as (o & -> & Ho). cbn [bind].
    destruct o as [k|].
    - destruct Ho as [Hk <-]. rewrite aset_ok by (apply (slot_data I); lia). cbn [bind].
      eexists; split; [reflexivity|]. split.
      + split; [exact (proj1 wf)|]. cbn [c_indptr c_indices c_data]. eapply wf_data; [exact (proj2 wf)|]. apply upd_length.
      + intros i j Hi. apply matrix_upd; auto.
    - destruct (not_stored I J HI Ho Hst).
  Qed.

  Lemma csr_addToEntry_ok I J v : I < n -> stored A I J ->
    exists B, csr_addToEntry A I J v = Ok B /\ wf_csr n m B /\
      forall i j, i < n -> matrix B i j = if (i =? I) && (j =? J) then (matrix A i j + v)%Qc else matrix A i j.
  Proof using wf srt.
    intros HI Hst. unfold csr_addToEntry.
    destruct (entry_find_ok n m _ _ _ (proj2 wf) I J HI (srt I HI)) as (o & -> & Ho). cbn [bind].
    destruct o as [k|].
    - destruct Ho as [Hk <-]. rewrite (aget_nth _ _ 0%Qc) by (apply (slot_data I); lia). cbn [bind].
      rewrite aset_ok by (apply (slot_data I); lia). cbn [bind].
      eexists; split; [reflexivity|]. split.
      + split; [exact (proj1 wf)|]. cbn [c_indptr c_indices c_data]. eapply wf_data; [exact (proj2 wf)|]. apply upd_length.
      + intros i j Hi. rewrite (matrix_upd I) by auto. destruct (Nat.eqb_spec i I) as [->|]; [|reflexivity]. cbn [andb].
        destruct (Nat.eqb_spec j (nth k (c_indices A) 0)) as [->|]; [|reflexivity]. rewrite (found_value I) by auto. reflexivity.
    - destruct (not_stored I J HI Ho Hst).
  Qed.

  Lemma csr_missing_entry I J v : I < n -> ~ stored A I J ->
    csr_addToEntry A I J v = Ok A /\
    csr_setEntry A I J v = (if nth (S I) (c_indptr A) 0 - nth I (c_indptr A) 0 <? 20 then Ok A else Err EIndex).
  Proof using wf srt.
    intros HI Hst. unfold csr_addToEntry, csr_setEntry.
    destruct (entry_find_ok n m _ _ _ (proj2 wf) I J HI (srt I HI)) as (o & -> & Ho). cbn [bind].
    destruct o as [k|]; [|auto].
    destruct Ho as [Hk <-]. destruct Hst. apply stored_slot; auto.
  Qed.
End EntryOps.

(** * Diagonal *)
Lemma diag_search_ok A i : forall r jj d,
  jj + r <= length (c_indices A) -> length (c_data A) = length (c_indices A) ->
  (forall a b, jj <= a -> a < b -> b < jj + r -> nth a (c_indices A) 0 <> nth b (c_indices A) 0) ->
  i < length d -> vat d i = 0%Qc ->
  diag_search A i r jj d = Ok (upd d i (sumf r (fun k => if nth (jj + k) (c_indices A) 0 =? i then nth (jj + k) (c_data A) 0%Qc else 0%Qc))).
Proof.
  induction r as [|r IH]; intros jj d Hl Hd Hu Hi H0; cbn [diag_search].
  - cbn [sumf]. rewrite upd_same; auto. apply nth_error_vat in Hi. rewrite Hi, H0. reflexivity.
  - rewrite (aget_nth _ _ 0) by lia. cbn [bind].
    rewrite sumf_first. rewrite Nat.add_0_r.
    destruct (Nat.eqb_spec (nth jj (c_indices A) 0) i) as [E|E].
    + rewrite (aget_nth _ _ 0%Qc) by lia. cbn [bind]. rewrite aset_ok by auto. do 2 f_equal.
      rewrite sumf_zero; [ring|]. intros k Hk.
      specialize (Hu jj (jj + S k) ltac:(lia) ltac:(lia) ltac:(lia)).
      destruct (Nat.eqb_spec (nth (jj + S k) (c_indices A) 0) i); [congruence|reflexivity].
    + rewrite IH; auto; try lia.
      * do 2 f_equal. rewrite Qcplus_0_l. apply sumf_ext. intros k Hk. replace (jj + S k) with (S jj + k) by lia. reflexivity.
      * intros; apply Hu; lia.
Qed.

Lemma nodup_row_neq n m ip ind dat i : wf_rows n m ip ind dat -> i < n -> NoDup (map fst (rowlist ip ind dat i)) ->
  forall a b, nth i ip 0 <= a -> a < b -> b < nth (S i) ip 0 -> nth a ind 0 <> nth b ind 0.
Proof.
  intros wf Hi Hn a b Ha Hab Hb E.
  pose proof (rowlist_nth n m _ _ _ wf i (a - nth i ip 0) Hi ltac:(lia)) as Ea.
  pose proof (rowlist_nth n m _ _ _ wf i (b - nth i ip 0) Hi ltac:(lia)) as Eb.
  replace (nth i ip 0 + (a - nth i ip 0)) with a in Ea by lia.
  replace (nth i ip 0 + (b - nth i ip 0)) with b in Eb by lia.
  rewrite NoDup_nth_error in Hn.
  specialize (Hn (a - nth i ip 0) (b - nth i ip 0)). rewrite map_length, (rowlist_length n m) in Hn by auto.
  rewrite !nth_error_map, Ea, Eb in Hn. cbn [option_map fst] in Hn. rewrite E in Hn.
  specialize (Hn ltac:(lia) eq_refl). lia.
Qed.

Lemma csr_get_diagonal_ok n m A : wf_csr n m A -> nodup_csr n A ->
  csr_get_diagonal A = Ok (tab n (fun i => matrix A i i)).
Proof.
  intros wf Hn. pose proof (proj2 wf) as wfr. unfold csr_get_diagonal. rewrite (csr_nrows n m A wf).
  loop_inv (fun i (d : list Qc) => length d = n /\ (forall k, k < i -> vat d k = matrix A k k) /\
     forall k, i <= k -> vat d k = 0%Qc) st E HI.
  3: { intros i d Hi (L & V & Z).
       rewrite (wf_ip n m _ _ _ wfr) by lia. cbn [bind]. rewrite (wf_ip n m _ _ _ wfr) by lia. cbn [bind].
       rewrite Nat.add_1_r.
       pose proof (wf_hi n m _ _ _ wfr i ltac:(lia)) as Hhi. rewrite (combine_len n m _ _ _ wfr) in Hhi.
       pose proof (wf_mono n m _ _ _ wfr i (S i) ltac:(lia) ltac:(lia)) as Hm.
       rewrite diag_search_ok; try lia.
       - rewrite <- (ent_sum n m _ _ _ wfr) by lia. fold (matrix A i i).
         eexists; split; [reflexivity|]. split; [rewrite upd_length; auto|]. split.
         + intros k Hk. rewrite vat_upd by lia. destruct (Nat.eqb_spec k i) as [->|]; auto. apply V; lia.
         + intros k Hk. rewrite vat_upd by lia. destruct (Nat.eqb_spec k i) as [->|]; [lia|]. apply Z; lia.
       - destruct wfr as (_ & _ & _ & H & _); auto.
       - intros a b Ha Hab Hb. eapply (nodup_row_neq n m _ _ _ i wfr); eauto; try lia. apply Hn; lia.
       - apply Z; lia. }
  - lia.
  - split; [apply repeat_length|]. split; [intros; lia|]. intros k _. unfold vat. apply nth_repeat.
  - rewrite E. destruct HI as (L & V & _). f_equal. apply eq_tab with (d := 0%Qc); auto.
Qed.

(** * Appending rows to two buffers *)
Definition app_state (N : nat) (out : list (nat * Qc)) : buf nat * buf Qc :=
  (map Some (map fst out) ++ alloc (N - length out), map Some (map snd out) ++ alloc (N - length out)).

Lemma append_step N out p : length out < N ->
  (ind' <- wr (fst (app_state N out)) (length out) (fst p) ;;
   dat' <- wr (snd (app_state N out)) (length out) (snd p) ;; Ok (ind', dat')) = Ok (app_state N (out ++ [p])).
Proof.
  intros H. unfold app_state. cbn [fst snd]. destruct (N - length out) as [|r] eqn:Er; [lia|].
  rewrite wr_next_at by (rewrite map_length; auto). cbn [bind].
  rewrite wr_next_at by (rewrite map_length; auto). cbn [bind].
  rewrite app_length. cbn [length]. replace (N - (length out + 1)) with r by lia.
  rewrite !map_app. reflexivity.
Qed.

Lemma append_row N (t : nat * Qc -> bool) (b : nat) (row : list (nat * Qc)) : forall out,
  b <= length out -> length out + length (filter t row) <= N ->
  for_list row (fun p '(ind, dat, k) =>
     if t p then ind' <- wr ind (b + k) (fst p) ;; dat' <- wr dat (b + k) (snd p) ;; Ok (ind', dat', k + 1)
     else Ok (ind, dat, k)) (app_state N out, length out - b)
  = Ok (app_state N (out ++ filter t row), length (out ++ filter t row) - b).
Proof.
  induction row as [|p row IH]; intros out Hb H; cbn [for_list filter] in *.
  - rewrite app_nil_r. reflexivity.
  - unfold app_state at 1. cbn iota beta. destruct (t p).
    + cbn [length] in H. pose proof (append_step N out p ltac:(lia)) as E.
      unfold app_state at 1 2 in E. cbn [fst snd] in E.
      replace (b + (length out - b)) with (length out) by lia.
      destruct (wr _ (length out) (fst p)) as [i1|e] eqn:E1; cbn [bind] in *; [|discriminate].
      destruct (wr _ (length out) (snd p)) as [d1|e] eqn:E2; cbn [bind] in *; [|discriminate].
      injection E as E3 E4. subst i1 d1.
      change (map Some (map fst (out ++ [p])) ++ alloc (N - length (out ++ [p])),
              map Some (map snd (out ++ [p])) ++ alloc (N - length (out ++ [p])))
        with (app_state N (out ++ [p])).
      replace (length out - b + 1) with (length (out ++ [p]) - b) by (rewrite app_length; cbn [length]; lia).
      rewrite IH; [|rewrite app_length; lia|rewrite app_length; cbn [length]; lia].
      rewrite <- app_assoc. reflexivity.
    + cbn [bind]. apply IH; auto.
Qed.

Lemma app_state_nil N : app_state N [] = (alloc N, alloc N).
Proof. unfold app_state. cbn [map length app]. rewrite Nat.sub_0_r. reflexivity. Qed.

Lemma app_state_full out : app_state (length out) out = (map Some (map fst out), map Some (map snd out)).
Proof. unfold app_state. rewrite Nat.sub_diag. cbn [alloc repeat]. rewrite !app_nil_r. reflexivity. Qed.
