(** Proofs about symmetric storage: matvec and entry access. *)
From Coq Require Import Sorted.
From Verif Require Import Util Lin SparsitySpec CSRModel CSRSpec CSRProofs.
Set Default Proof Using "Type".

Lemma sss_row_loop (row : list (nat * Qc)) (x : list Qc) (xi : Qc) : forall yl t,
  (forall p, In p row -> fst p < length yl) -> (forall p, In p row -> fst p < length x) ->
  exists yl', for_list row (fun p '(y, temp) =>
      xk <- aget x (fst p) ;; y' <- addto y (fst p) (snd p * xi)%Qc ;; Ok (y', temp + snd p * xk)%Qc) (map Some yl, t)
    = Ok (map Some yl', t + suml (map (fun p => snd p * vat x (fst p)) row))%Qc /\
    length yl' = length yl /\ forall k, vat yl' k = (vat yl k + ent row k * xi)%Qc.
Proof.
  induction row as [|p row IH]; intros yl t H H'; cbn [for_list map suml].
  - exists yl. split; [do 2 f_equal; ring|]. split; auto. intros; rewrite ent_nil; ring.
  - assert (H1 : fst p < length yl) by (apply H; left; auto).
    rewrite (aget_nth _ _ 0%Qc) by (apply H'; left; auto). cbn [bind].
    rewrite addto_ok by auto. cbn [bind].
    edestruct (IH (upd yl (fst p) (vat yl (fst p) + snd p * xi)%Qc)) as (yl' & E & L & V).
    + intros q Hq. rewrite upd_length. apply H; right; auto.
    + intros q Hq. apply H'; right; auto.
    + exists yl'. rewrite E. split; [do 2 f_equal; unfold vat; ring|]. split; [rewrite L, upd_length; auto|].
      intros k. rewrite V, vat_upd, ent_cons by auto.
      rewrite (Nat.eqb_sym (fst p) k). destruct (Nat.eqb_spec k (fst p)) as [->|]; ring.
Qed.

Section Sss.
  Variables (n : nat) (A : sss).
  Hypothesis wf : wf_sss n A.
  Let wfr : wf_rows n n (s_indptr A) (s_indices A) (s_data A) := proj1 wf.

  Lemma sss_nrows : s_nrows A = n.
  Proof using wf. pose proof wf as [(H & _) _]. unfold s_nrows. lia. Qed.

  Lemma lower_zero i j : i < n -> i <= j -> lower A i j = 0%Qc.
  Proof using wf.
    intros Hi Hj. apply ent_absent. intros p Hp. pose proof wf as (_ & _ & H). specialize (H i p Hi Hp). lia.
  Qed.

  (** contribution of the rows before [i] to component [j] *)
  Definition contrib (x : list Qc) (i j : nat) : Qc :=
    (sumf i (fun k => lower A k j * vat x k) +
     (if j <? i then vat (s_diag A) j * vat x j + sumf n (fun k => lower A j k * vat x k) else 0))%Qc.

  Lemma sss_rows_loop x yl : length x = n -> length yl = n ->
    exists yl', sss_rows A x (map Some yl) = Ok (map Some yl') /\ length yl' = n /\
      forall j, j < n -> vat yl' j = (vat yl j + contrib x n j)%Qc.
  Proof using wf.
    intros Hx Hy. unfold sss_rows. rewrite sss_nrows.
    loop_inv (fun i y => exists yl', y = map Some yl' /\ length yl' = n /\
       forall j, j < n -> vat yl' j = (vat yl j + contrib x i j)%Qc) st E HI.
    3: { intros i y0 Hi (yl0 & -> & L & V).
         pose proof wf as (_ & Hd & Hlow).
         rewrite (aget_nth _ _ 0%Qc) by lia. cbn [bind].
         rewrite (aget_nth _ _ 0%Qc) by lia. cbn [bind].
         rewrite (for_row_list n n _ _ _ wfr i _ (fun p '(y, temp) =>
            xk <- aget x (fst p) ;; y' <- addto y (fst p) (snd p * vat x i)%Qc ;; Ok (y', temp + snd p * xk)%Qc));
           [|lia|].
         2: { intros jj j d [y t] Hjj E1 E2. rewrite (aget_ok _ _ _ E1). cbn [bind].
              rewrite (aget_ok _ _ _ E2). cbn [bind]. reflexivity. }
         edestruct (sss_row_loop (rowlist (s_indptr A) (s_indices A) (s_data A) i) x (vat x i) yl0) as (yl1 & E1 & L1 & V1).
         - intros p Hp. rewrite L. apply (row_cols n n _ _ _ wfr i); auto.
         - intros p Hp. rewrite Hx. apply (row_cols n n _ _ _ wfr i); auto.
         - rewrite E1. cbn [bind]. rewrite addto_ok by lia.
           eexists; split; [reflexivity|]. eexists; split; [reflexivity|].
           split; [rewrite upd_length; lia|]. intros j Hj. rewrite vat_upd by lia.
           rewrite (ent_dot _ n (vat x)) by (intros p Hp; apply (row_cols n n _ _ _ wfr i); auto).
           change (fun j0 => ent (rowlist (s_indptr A) (s_indices A) (s_data A) i) j0 * vat x j0)%Qc
             with (fun j0 => lower A i j0 * vat x j0)%Qc.
           assert (Hent : forall k, ent (rowlist (s_indptr A) (s_indices A) (s_data A) i) k = lower A i k) by reflexivity.
           destruct (Nat.eqb_spec j i) as [->|Hne].
           + rewrite V1, V, Hent by lia. unfold contrib. cbn [sumf].
             assert (i <? i = false) as -> by (apply Nat.ltb_ge; lia).
             assert (i <? S i = true) as -> by (apply Nat.ltb_lt; lia).
             change (nth i (s_diag A) 0%Qc) with (vat (s_diag A) i). change (nth i x 0%Qc) with (vat x i). ring.
           + rewrite V1, V, Hent by lia. unfold contrib. cbn [sumf].
             assert ((j <? S i) = (j <? i)) as ->.
             { destruct (Nat.ltb_spec j i), (Nat.ltb_spec j (S i)); auto; lia. }
             destruct (j <? i); ring. }
    - lia.
    - exists yl. split; auto. split; auto. intros j Hj. unfold contrib. cbn [sumf].
      assert (j <? 0 = false) as -> by (apply Nat.ltb_ge; lia). ring.
    - destruct HI as (yl' & -> & L & V). exists yl'. auto.
  Qed.

  Lemma contrib_mv x j : j < n -> contrib x n j = mv n (sym_matrix A) (vat x) j.
  Proof using wf.
    intros Hj. unfold contrib, mv, sym_matrix. assert (j <? n = true) as -> by (apply Nat.ltb_lt; auto).
    rewrite (sumf_ext n (fun k => ((lower A j k + lower A k j + (if (j =? k)%nat then vat (s_diag A) j else 0)) * vat x k)%Qc)
       (fun k => (lower A j k * vat x k + lower A k j * vat x k + (if (k =? j)%nat then vat (s_diag A) j * vat x j else 0))%Qc)).
    - rewrite !sumf_plus. rewrite sumf_delta by auto. ring.
    - intros k Hk. rewrite (Nat.eqb_sym k j). destruct (Nat.eqb_spec j k) as [->|]; ring.
  Qed.

  Lemma sss_matvec_ok x y : length x = n -> length y = n ->
    sss_matvec A x y = Ok (map Some (tab n (mv n (sym_matrix A) (vat x)))).
  Proof using wf.
    intros Hx Hy. unfold sss_matvec. rewrite zero_loop. cbn [bind].
    destruct (sss_rows_loop x (tab (length y) (fun _ => 0%Qc))) as (yl & E & L & V); auto.
    - rewrite tab_length; auto.
    - rewrite E. do 2 f_equal. apply eq_tab with (d := 0%Qc); auto. intros j Hj. fold (vat yl j).
      rewrite V, vat_tab, contrib_mv by lia. ring.
  Qed.

  Lemma sss_matvec_add_ok x y : length x = n -> length y = n ->
    sss_matvec_no_overwrite A x (map Some y)
    = Ok (map Some (tab n (fun i => vat y i + mv n (sym_matrix A) (vat x) i)%Qc)).
  Proof using wf.
    intros Hx Hy. unfold sss_matvec_no_overwrite.
    destruct (sss_rows_loop x y) as (yl & E & L & V); auto.
    rewrite E. do 2 f_equal. apply eq_tab with (d := 0%Qc); auto. intros j Hj. fold (vat yl j).
    rewrite V, contrib_mv by lia. ring.
  Qed.
End Sss.

(** * Searching an entry *)
Lemma entry_linear_ok ind J : forall n i, i + n <= length ind ->
  exists o, entry_linear ind n i J = Ok o /\
    match o with
    | Some k => i <= k < i + n /\ nth k ind 0 = J
    | None => forall k, i <= k < i + n -> nth k ind 0 <> J
    end.
Proof.
  induction n as [|n IH]; intros i H; cbn [entry_linear].
  - exists None. split; auto. intros; lia.
  - rewrite (aget_nth _ _ 0) by lia. cbn [bind]. destruct (Nat.eqb_spec (nth i ind 0) J) as [E|E].
    + exists (Some i). split; auto. split; auto; lia.
    + destruct (IH (S i) ltac:(lia)) as (o & E1 & Ho). exists o. split; auto.
      destruct o as [k|]; [destruct Ho; split; auto; lia|].
      intros k Hk. destruct (Nat.eq_dec k i) as [->|]; auto. apply Ho; lia.
Qed.

Lemma entry_bisect_ok ind J lo hi : hi <= length ind ->
  (forall a b, lo <= a -> a < b -> b < hi -> nth a ind 0 < nth b ind 0) ->
  forall fuel low high, lo <= low -> low < high -> high <= hi -> high - low < fuel ->
  (forall k, lo <= k < hi -> nth k ind 0 = J -> low <= k < high) ->
  exists o, entry_bisect fuel ind low high J = Ok o /\
    match o with
    | Some k => lo <= k < hi /\ nth k ind 0 = J
    | None => forall k, lo <= k < hi -> nth k ind 0 <> J
    end.
Proof.
  intros Hl Hs. induction fuel as [|f IH]; intros low high H1 H2 H3 Hf HJ; [lia|]. cbn [entry_bisect].
  rewrite (aget_nth _ _ 0) by lia. cbn [bind]. destruct (Nat.eqb_spec (nth low ind 0) J) as [E|E].
  - exists (Some low). split; auto. split; auto; lia.
  - destruct (Nat.leb_spec (high - low) 1).
    + exists None. split; auto. intros k Hk Ek. specialize (HJ k Hk Ek).
      replace k with low in Ek by lia. auto.
    + assert (Hm : low < (low + high) / 2 < high).
      { pose proof (Nat.div_mod_eq (low + high) 2). pose proof (Nat.mod_upper_bound (low + high) 2). lia. }
      remember ((low + high) / 2) as mid eqn:Em. cbv zeta.
      rewrite (aget_nth _ _ 0) by lia. cbn [bind]. destruct (Nat.leb_spec (nth mid ind 0) J).
      * apply IH; try lia. intros k Hk Ek. specialize (HJ k Hk Ek). split; [|lia].
        destruct (Nat.le_gt_cases mid k); auto. specialize (Hs k mid ltac:(lia) ltac:(lia) ltac:(lia)). lia.
      * apply IH; try lia. intros k Hk Ek. specialize (HJ k Hk Ek). split; [lia|].
        destruct (Nat.le_gt_cases mid k); auto.
        destruct (Nat.eq_dec mid k) as [->|]; [lia|].
        specialize (Hs mid k ltac:(lia) ltac:(lia) ltac:(lia)). lia.
Qed.

Section Find.
  Variables (n m : nat) (ip ind : list nat) (dat : list Qc).
  Hypothesis wf : wf_rows n m ip ind dat.

  Lemma sorted_row_lt i : i < n -> StronglySorted lt (map fst (rowlist ip ind dat i)) ->
    forall a b, nth i ip 0 <= a -> a < b -> b < nth (S i) ip 0 -> nth a ind 0 < nth b ind 0.
  Proof using wf.
    intros Hi Hs a b Ha Hab Hb.
    pose proof (rowlist_nth n m _ _ _ wf i (a - nth i ip 0) Hi ltac:(lia)) as Ea.
    pose proof (rowlist_nth n m _ _ _ wf i (b - nth i ip 0) Hi ltac:(lia)) as Eb.
    replace (nth i ip 0 + (a - nth i ip 0)) with a in Ea by lia.
    replace (nth i ip 0 + (b - nth i ip 0)) with b in Eb by lia.
    assert (Hgen : forall (l : list nat) u v x y, StronglySorted lt l -> u < v ->
       nth_error l u = Some x -> nth_error l v = Some y -> x < y).
    { induction l as [|z l IH]; intros [|u] [|v] x y HS Huv E1 E2; cbn in *; try discriminate; try lia.
      - apply StronglySorted_inv in HS as [_ HF]. rewrite Forall_forall in HF.
        injection E1 as ->. apply HF. apply nth_error_In in E2. auto.
      - apply StronglySorted_inv in HS as [HS _]. apply (IH u v x y); auto; lia. }
    apply (Hgen (map fst (rowlist ip ind dat i)) (a - nth i ip 0) (b - nth i ip 0)); auto; try lia.
    - rewrite nth_error_map, Ea. reflexivity.
    - rewrite nth_error_map, Eb. reflexivity.
  Qed.

  Lemma entry_find_ok i J : i < n -> StronglySorted lt (map fst (rowlist ip ind dat i)) ->
    exists o, entry_find ip ind i J = Ok (o, nth (S i) ip 0 - nth i ip 0 <? 20) /\
      match o with
      | Some k => nth i ip 0 <= k < nth (S i) ip 0 /\ nth k ind 0 = J
      | None => forall k, nth i ip 0 <= k < nth (S i) ip 0 -> nth k ind 0 <> J
      end.
  Proof using wf.
    intros Hi Hs. unfold entry_find.
    rewrite (wf_ip n m _ _ _ wf) by lia. cbn [bind]. rewrite (wf_ip n m _ _ _ wf) by lia. cbn [bind].
    rewrite Nat.add_1_r.
    pose proof (wf_hi n m _ _ _ wf i Hi) as Hhi. rewrite (combine_len n m _ _ _ wf) in Hhi.
    pose proof (wf_mono n m _ _ _ wf i (S i) ltac:(lia) ltac:(lia)) as Hm.
    destruct (Nat.ltb_spec (nth (S i) ip 0 - nth i ip 0) 20).
    - destruct (entry_linear_ok ind J (nth (S i) ip 0 - nth i ip 0) (nth i ip 0) ltac:(lia)) as (o & E & Ho).
      rewrite E. cbn [bind]. exists o. split; auto.
      destruct o as [k|]; [destruct Ho; split; auto; lia|]. intros k Hk. apply Ho; lia.
    - destruct (entry_bisect_ok ind J (nth i ip 0) (nth (S i) ip 0) Hhi (sorted_row_lt i Hi Hs)
         (S (nth (S i) ip 0 - nth i ip 0)) (nth i ip 0) (nth (S i) ip 0)) as (o & E & Ho); try lia; auto.
      rewrite E. cbn [bind]. exists o. split; auto.
  Qed.

  (** entries as sums over the slots of the row *)
  Lemma rowlist_tab i : i < n -> rowlist ip ind dat i
    = tab (nth (S i) ip 0 - nth i ip 0) (fun k => (nth (nth i ip 0 + k) ind 0, nth (nth i ip 0 + k) dat 0%Qc)).
  Proof using wf.
    intros Hi. apply eq_tab with (d := (0, 0%Qc)); [apply (rowlist_length n m _ _ _ wf); auto|].
    intros k Hk. apply nth_error_nth. apply (rowlist_nth n m _ _ _ wf); auto.
  Qed.

  Lemma ent_tab r (c : nat -> nat) (v : nat -> Qc) j :
    ent (tab r (fun k => (c k, v k))) j = sumf r (fun k => if c k =? j then v k else 0%Qc).
  Proof.
    induction r as [|r IH]; [reflexivity|]. rewrite tab_S, ent_app, IH, ent_cons, ent_nil. cbn [sumf fst snd]. ring.
  Qed.

  Lemma ent_sum i j : i < n -> ent (rowlist ip ind dat i) j
    = sumf (nth (S i) ip 0 - nth i ip 0) (fun k =>
        if nth (nth i ip 0 + k) ind 0 =? j then nth (nth i ip 0 + k) dat 0%Qc else 0%Qc).
  Proof using wf. intros Hi. rewrite rowlist_tab by auto. apply ent_tab. Qed.

  Lemma sorted_nodup (l : list nat) : StronglySorted lt l -> NoDup l.
  Proof.
    induction 1 as [|x l HS IH HF]; constructor; auto. intros Hin. rewrite Forall_forall in HF. specialize (HF x Hin). lia.
  Qed.

  Lemma ent_found i k : i < n -> NoDup (map fst (rowlist ip ind dat i)) -> nth i ip 0 <= k < nth (S i) ip 0 ->
    ent (rowlist ip ind dat i) (nth k ind 0) = nth k dat 0%Qc.
  Proof using wf.
    intros Hi Hn Hk. apply ent_nodup; auto.
    pose proof (rowlist_nth n m _ _ _ wf i (k - nth i ip 0) Hi ltac:(lia)) as E.
    replace (nth i ip 0 + (k - nth i ip 0)) with k in E by lia. eapply nth_error_In; eauto.
  Qed.

  Lemma ent_missing i J : i < n -> (forall k, nth i ip 0 <= k < nth (S i) ip 0 -> nth k ind 0 <> J) ->
    ent (rowlist ip ind dat i) J = 0%Qc.
  Proof using wf.
    intros Hi H. rewrite ent_sum by auto. apply sumf_zero. intros k Hk.
    specialize (H (nth i ip 0 + k) ltac:(lia)). apply Nat.eqb_neq in H. rewrite H. reflexivity.
  Qed.

  Lemma find_value i J : i < n -> StronglySorted lt (map fst (rowlist ip ind dat i)) ->
    ('(o, _) <- entry_find ip ind i J ;; match o with Some k => aget dat k | None => Ok 0%Qc end)
    = Ok (ent (rowlist ip ind dat i) J).
  Proof using wf.
    intros Hi Hs. destruct (entry_find_ok i J Hi Hs) as (o & -> & Ho). cbn [bind].
    pose proof (wf_hi n m _ _ _ wf i Hi) as Hhi. rewrite (combine_len n m _ _ _ wf) in Hhi.
    destruct o as [k|].
    - destruct Ho as [Hk <-]. rewrite ent_found; auto using sorted_nodup.
      destruct wf as (_ & _ & _ & Hd & _). apply aget_nth. lia.
    - rewrite ent_missing; auto.
  Qed.
End Find.

Definition sorted_sss (n : nat) (A : sss) : Prop :=
  forall i, i < n -> StronglySorted lt (map fst (rowlist (s_indptr A) (s_indices A) (s_data A) i)).

Lemma sss_getEntry_ok n A I J : wf_sss n A -> sorted_sss n A -> I < n -> J < n ->
  sss_getEntry A I J = Ok (sym_matrix A I J).
Proof.
  intros wf Hs HI HJ. unfold sss_getEntry, sym_matrix. destruct (Nat.eqb_spec I J) as [->|Hne].
  - rewrite lower_zero with (n := n) by auto. rewrite (aget_nth _ _ 0%Qc) by (destruct wf as (_ & -> & _); auto).
    f_equal. unfold vat. ring.
  - destruct (Nat.ltb_spec I J).
    + rewrite (lower_zero n A wf I J) by lia. rewrite (find_value n n _ _ _ (proj1 wf)) by auto.
      f_equal. unfold lower. ring.
    + rewrite (lower_zero n A wf J I) by lia. rewrite (find_value n n _ _ _ (proj1 wf)) by auto.
      f_equal. unfold lower. ring.
Qed.
