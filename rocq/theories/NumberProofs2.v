(** Numbering and counting the degrees of freedom of the whole. *)
From Verif Require Import Util Lin OverlapModel OverlapSpec DistModel DistSpec DistProofs DistProofs2 DistProofs3 DistProofs4 NumberSpec NumberProofs.
From Coq Require Import Permutation.
Set Default Proof Using "Type".
Local Open Scope nat_scope.

Lemma NoDup_join (l l' : list nat) : NoDup l -> NoDup l' -> (forall x, In x l -> ~ In x l') -> NoDup (l ++ l').
Proof.
  intros Hl Hl' H. induction Hl as [|a l Ha Hl IH]; cbn; auto. constructor.
  - intros Hi. apply in_app_iff in Hi as [Hi|Hi]; auto. apply (H a); cbn; auto.
  - apply IH. intros x Hx. apply H. cbn. auto.
Qed.
Lemma flat_map_NoDup (f : nat -> list nat) l : (forall q, In q l -> NoDup (f q)) -> (forall q q' x, In x (f q) -> In x (f q') -> q = q') -> NoDup l -> NoDup (flat_map f l).
Proof.
  intros H1 H2. induction 1 as [|a l Ha Hl IH]; cbn; [constructor|]. apply NoDup_join.
  - apply H1. left. auto.
  - apply IH. intros q Hq. apply H1. right. auto.
  - intros x Hx Hy. apply in_flat_map in Hy as (q & Hq & Hy). rewrite (H2 a q x Hx Hy) in Ha. auto.
Qed.
Lemma qn_flat (f : nat -> list nat) n : qn (length (flat_map f (seq 0 n))) = sumf n (fun q => qn (length (f q))).
Proof.
  induction n as [|n IH]; [reflexivity|]. rewrite seq_S, flat_map_app, app_length, qn_add, IH. cbn [flat_map Nat.add]. rewrite app_nil_r. reflexivity.
Qed.
Lemma firstn_snoc (l : list nat) i : i < length l -> firstn (S i) l = firstn i l ++ [nth i l 0].
Proof. revert i. induction l as [|a l IH]; intros [|i] H; cbn in *; try lia; auto. f_equal. apply IH. lia. Qed.
Lemma filter_snoc (g : nat -> bool) l i : i < length l -> length (filter g (firstn (S i) l)) = length (filter g (firstn i l)) + (if g (nth i l 0) then 1 else 0).
Proof. intros H. rewrite firstn_snoc, filter_app, app_length by auto. cbn. destruct (g _); auto. Qed.
Lemma firstn_tab {A} n k (f : nat -> A) : k <= n -> firstn k (tab n f) = tab k f.
Proof.
  intros H. unfold tab. rewrite firstn_map. f_equal. replace n with (k + (n - k)) by lia. rewrite seq_app. rewrite <- (seq_length k 0) at 1. apply firstn_at.
Qed.
Lemma Qc_eq_bool_qn a b : Qc_eq_bool (qn a) (qn b) = (a =? b).
Proof.
  destruct (Nat.eqb_spec a b) as [->|H].
  - unfold Qc_eq_bool. destruct (Qc_eq_dec _ _); auto.
  - unfold Qc_eq_bool. destruct (Qc_eq_dec _ _) as [E|]; auto. apply qn_inj in E. congruence.
Qed.
Lemma vat_map (f : nat -> Qc) l i : i < length l -> vat (map f l) i = f (nth i l 0).
Proof. intros H. unfold vat. rewrite (nth_indep _ 0%Qc (f 0)) by (rewrite map_length; auto). apply map_nth. Qed.

(** ** The loops *)
Lemma count_own_ok size p (g : nat -> bool) l (v : list Qc) : length l = size p -> length v = size p ->
  (forall i, i < size p -> Qc_eq_bool (vat v i) (qn p) = g (nth i l 0)) -> count_own size p v = Ok (qn (length (filter g l))).
Proof.
  intros Hl HL Hg. unfold count_own. set (body := fun i k => _).
  destruct (for_range_inv (fun i s => s = qn (length (filter g (firstn i l)))) body 0 (size p) 0%Qc) as (s & E & Hs).
  - lia.
  - reflexivity.
  - intros i s Hi ->. unfold body. rewrite (aget_nth v i 0%Qc) by lia. fold (vat v i). cbn [bind]. eexists. split; [reflexivity|]. rewrite filter_snoc by lia. rewrite Hg by lia.
    rewrite qn_add. destruct (g _); [reflexivity|]. change (qn 0) with 0%Qc. ring.
  - rewrite E, Hs, <- Hl, firstn_all. auto.
Qed.
Lemma count_own_total size p v : length v = size p -> exists k, count_own size p v = Ok k.
Proof.
  intros HL. unfold count_own. set (body := fun i k => _).
  destruct (for_range_inv (fun i s => True) body 0 (size p) 0%Qc) as (s & E & Hs); try lia; auto; [|eauto].
  intros i s Hi _. unfold body. rewrite (aget_nth v i 0%Qc) by lia. cbn [bind]. eauto.
Qed.
Lemma number_own_ok size p (g : nat -> bool) l m (v : list Qc) : length l = size p -> length v = size p ->
  (forall i, i < size p -> Qc_eq_bool (vat v i) (qn p) = g (nth i l 0)) ->
  number_own size p m v = Ok (tab (size p) (fun i => if g (nth i l 0) then (m + qn (length (filter g (firstn i l))))%Qc else vat v i)).
Proof.
  intros Hl HL Hg. unfold number_own. set (body := fun i s => _).
  set (val := fun i => if g (nth i l 0) then (m + qn (length (filter g (firstn i l))))%Qc else vat v i).
  destruct (for_range_inv (fun i s => snd s = (m + qn (length (filter g (firstn i l))))%Qc /\ length (fst s) = size p /\ (forall j, j < i -> vat (fst s) j = val j) /\ (forall j, i <= j -> vat (fst s) j = vat v j)) body 0 (size p) (v, m)) as ((s, k) & E & _ & L & H1 & _).
  - lia.
  - cbn [fst snd firstn filter length]. change (qn 0) with 0%Qc. split; [ring|]. split; auto. split; auto. intros j Hj. lia.
  - intros i (w, k) Hi (Hk & L & H1 & H2). cbn [fst snd] in *. unfold body. rewrite (aget_nth w i 0%Qc) by lia. fold (vat w i). cbn [bind]. rewrite (H2 i) by lia. rewrite Hg by lia.
    rewrite filter_snoc by lia. rewrite qn_add. destruct (g (nth i l 0)) eqn:Eg.
    + rewrite aset_ok by lia. cbn [bind]. eexists. split; [reflexivity|]. cbn [fst snd]. split; [rewrite Hk; change (qn 1) with 1%Qc; ring|]. split; [rewrite upd_length; auto|]. split.
      * intros j Hj. rewrite vat_upd by lia. destruct (Nat.eqb_spec j i) as [->|]; [unfold val; rewrite Eg; auto|apply H1; lia].
      * intros j Hj. rewrite vat_upd by lia. destruct (Nat.eqb_spec j i) as [->|]; [lia|apply H2; lia].
    + eexists. split; [reflexivity|]. cbn [fst snd]. split; [rewrite Hk; change (qn 0) with 0%Qc; ring|]. split; auto. split.
      * intros j Hj. destruct (Nat.eq_dec j i) as [->|]; [unfold val; rewrite Eg; apply H2; lia|apply H1; lia].
      * intros j Hj. apply H2. lia.
  - rewrite E. cbn [bind fst] in *. f_equal. apply (eq_tab s (size p) _ 0%Qc); auto.
Qed.
Lemma number_own_total size p m v : length v = size p -> exists w, number_own size p m v = Ok w /\ length w = size p.
Proof.
  intros HL. unfold number_own. set (body := fun i s => _).
  destruct (for_range_inv (fun i s => length (fst s) = size p) body 0 (size p) (v, m)) as ((s, k) & E & L); try lia; auto.
  - intros i (w, k) Hi L. cbn [fst] in L. unfold body. rewrite (aget_nth w i 0%Qc) by lia. cbn [bind]. destruct (Qc_eq_bool _ _); [|eauto].
    rewrite aset_ok by lia. cbn [bind]. eexists. split; [reflexivity|]. cbn. rewrite upd_length. auto.
  - rewrite E. cbn [bind]. eauto.
Qed.

Section Consistent.
  Context {P N : nat} {size : nat -> nat} {mgr : nat -> manager} {glob : nat -> list nat}.
  Hypothesis Hc : consistent P N size mgr glob.
  Let Hv := con_valid _ _ _ _ _ Hc.
  Let own := owner P glob.
  Let part (q : nat) : list nat := filter (fun I => own I =? q) (glob q).

  Lemma global_order_ok : Permutation (global_order P glob) (seq 0 N).
  Proof using Hc.
    apply NoDup_Permutation; [|apply seq_NoDup|].
    - apply flat_map_NoDup; [| |apply seq_NoDup].
      + intros q Hq. apply in_seq in Hq. apply NoDup_filter. apply (con_once _ _ _ _ _ Hc). lia.
      + intros q q' x H H'. apply filter_In in H as (_ & H), H' as (_ & H'). apply Nat.eqb_eq in H, H'. congruence.
    - intros I. rewrite in_seq. unfold global_order. rewrite in_flat_map. split.
      + intros (p & Hp & HI). apply in_seq in Hp. apply filter_In in HI as (HI & _). split; [lia|]. eapply con_range; eauto. lia.
      + intros (_ & HI). destruct (owner_ok Hc I HI) as (H1 & H2 & _). fold own in H1, H2. exists (own I). split; [apply in_seq; lia|]. apply filter_In. split; auto. apply Nat.eqb_refl.
  Qed.
  Lemma global_index I : I < N -> index_of I (global_order P glob) = length (flat_map part (seq 0 (own I))) + length (filter (fun J => own J =? own I) (firstn (index_of I (glob (own I))) (glob (own I)))).
  Proof using Hc.
    intros HI. destruct (owner_ok Hc I HI) as (H1 & H2 & _). fold own in H1, H2. unfold global_order. fold own.
    replace P with (own I + S (P - own I - 1)) at 1 by lia. rewrite seq_app, flat_map_app. cbn [seq flat_map Nat.add]. fold part. change (fun p => filter (fun J => own J =? p) (glob p)) with part.
    rewrite index_of_app.
    - rewrite index_of_app_l by (apply filter_In; split; auto; apply Nat.eqb_refl). f_equal. destruct (index_ok Hc (own I) I H1 H2) as (H3 & H4). unfold at_ in H4.
      rewrite <- H4 at 1. unfold part. apply index_of_filter; auto; [apply (con_once _ _ _ _ _ Hc); auto|rewrite (con_size _ _ _ _ _ Hc); auto|]. rewrite H4. apply Nat.eqb_refl.
    - intros H. apply in_flat_map in H as (q & Hq & H). apply in_seq in Hq. apply filter_In in H as (_ & H). apply Nat.eqb_eq in H. lia.
  Qed.

  Hypothesis Ha : ascending P mgr.
  Lemma global_indices_ok (m : nat -> mem) : (forall p, p < P -> shaped 1 (size p) (m p) /\ 2 <= length (m p)) ->
    always P mgr (getGlobalIndices size) m (fun p r => reg r 0 = map (fun I => qn (index_of I (global_order P glob))) (glob p)).
  Proof using Hc Ha.
    intros Hm. apply (always_ok P 1 size); auto; [intros p Hp; apply Hm; auto| | |].
    - repeat (apply Forall_cons; [split|]); [| | | | | |apply Forall_nil].
      + intros p r Hp Hr. cbn [pre]. unfold attempt. rewrite (shaped_aset 1 (size p)) by (auto; lia). apply shaped_set; auto. apply repeat_length.
      + cbn [what]. apply (proper_unique Hc). lia.
      + intros p r Hp Hr. cbn [pre]. unfold attempt. destruct (shaped_get _ _ _ 0 Hr) as (E & L); [lia|]. rewrite E. cbn [bind].
        destruct (count_own_total size p (reg r 0) L) as (k & ->). cbn [bind]. apply shaped_other; auto.
      + cbn [what proper_call]. intros p l r Hp Hr. unfold attempt. destruct (shaped_get _ _ _ 0 Hr) as (E & L); [lia|]. rewrite E. cbn [bind].
        match goal with |- context [number_own size p ?x ?v] => destruct (number_own_total size p x v L) as (w & -> & Lw) end. cbn [bind].
        rewrite (shaped_aset 1 (size p)) by (auto; lia). apply shaped_set; auto.
      + apply keeps_nothing.
      + cbn [what]. apply (proper_unique Hc). lia.
    - cbn. auto.
    - intros p Hp. cbn [getGlobalIndices program_spec fold_left]. unfold round_spec at 1. cbn [pre what call_spec]. unfold nothing.
      set (m1 := round_spec P mgr _ m). set (m2 := round_spec P mgr _ m1).
      assert (forall q, q < P -> shaped 1 (size q) (m1 q) /\ 2 <= length (m1 q) /\ reg (m1 q) 0 = map (fun I => qn (own I)) (glob q)) as H1.
      { intros q Hq. unfold m1, round_spec. cbn [pre what call_spec].
        set (st := fun (q : nat) (r : mem) => attempt (fun p m0 => aset m0 0 (repeat (qn p) (size p))) q r).
        assert (forall q, q < P -> st q (m q) = set_reg (m q) 0 (repeat (qn q) (size q))) as Hst.
        { intros q' Hq'. unfold st, attempt. rewrite (shaped_aset 1 (size q')); auto. apply Hm; auto. }
        assert (forall q, q < P -> reg (st q (m q)) 0 = repeat (qn q) (size q)) as Hr.
        { intros q' Hq'. rewrite Hst by auto. apply reg_eq. destruct (Hm q' Hq'). lia. }
        fold (st q (m q)). change (fun q0 => reg (attempt (fun p0 m0 => aset m0 0 (repeat (qn p0) (size p0))) q0 (m q0)) 0) with (fun q0 => reg (st q0 (m q0)) 0).
        rewrite (unique_value Hc Ha q (fun q0 => reg (st q0 (m q0)) 0)) by (auto; rewrite Hr by auto; apply repeat_length).
        destruct (Hm q Hq) as (Hs & H2). assert (shaped 1 (size q) (st q (m q)) /\ 2 <= length (st q (m q))) as (Hs' & H2').
        { rewrite Hst by auto. split; [apply shaped_set; auto; apply repeat_length|]. unfold set_reg. rewrite upd_length. auto. }
        split; [apply shaped_set; auto; rewrite map_length; apply (con_size _ _ _ _ _ Hc); auto|]. split; [unfold set_reg; rewrite upd_length; auto|].
        rewrite reg_eq by lia. apply map_ext_in. intros I HI. assert (I < N) as HN by (eapply con_range; eauto). destruct (owner_ok Hc I HN) as (O1 & O2 & _). fold own in O1, O2 |- *.
        rewrite Hr by auto. destruct (index_ok Hc (own I) I O1 O2) as (O3 & _). unfold vat. rewrite (nth_indep _ 0%Qc (qn (own I))) by (rewrite repeat_length; auto). apply nth_repeat. }
      assert (forall q, q < P -> shaped 1 (size q) (m2 q) /\ 2 <= length (m2 q) /\ forall i, i < size q -> own (at_ glob q i) = q ->
         vat (reg (m2 q) 0) i = qn (length (flat_map part (seq 0 q)) + length (filter (fun J => own J =? q) (firstn i (glob q))))) as H2.
      { intros q Hq. unfold m2, round_spec. cbn [pre what call_spec].
        set (st := fun (q : nat) (r : mem) => attempt (fun p m0 => v <- aget m0 0 ;; k <- count_own size p v ;; Ok (upd m0 1 [k])) q r).
        assert (forall q i, q < P -> i < size q -> Qc_eq_bool (vat (reg (m1 q) 0) i) (qn q) = (own (nth i (glob q) 0) =? q)) as Ht.
        { intros q' i Hq' Hi. destruct (H1 q' Hq') as (_ & _ & ->). rewrite vat_map by (rewrite (con_size _ _ _ _ _ Hc); auto). apply Qc_eq_bool_qn. }
        assert (forall q, q < P -> st q (m1 q) = upd (m1 q) 1 [qn (length (part q))]) as Hst.
        { intros q' Hq'. unfold st, attempt. destruct (H1 q' Hq') as (Hs & _). destruct (shaped_get _ _ _ 0 Hs) as (E & L); [lia|]. rewrite E. cbn [bind].
          rewrite (count_own_ok size q' (fun I => own I =? q') (glob q')); auto. apply (con_size _ _ _ _ _ Hc). auto. }
        fold (st q (m1 q)).
        match goal with |- context [tab P ?f] => replace (tab P f) with (tab P (fun q0 => [qn (length (part q0))])) end.
        2:{ apply tab_ext. intros q' Hq'. fold (st q' (m1 q')). rewrite Hst by auto. symmetry. apply nth_upd_eq. destruct (H1 q' Hq'). lia. }
        rewrite (Hst q Hq). destruct (H1 q Hq) as (Hs & L2 & V). assert (shaped 1 (size q) (upd (m1 q) 1 [qn (length (part q))])) as Hs' by (apply shaped_other; auto).
        assert (2 <= length (upd (m1 q) 1 [qn (length (part q))])) as L2' by (rewrite upd_length; auto).
        assert (reg (upd (m1 q) 1 [qn (length (part q))]) 0 = reg (m1 q) 0) as V' by (apply nth_upd_neq; lia).
        unfold attempt. destruct (shaped_get _ _ _ 0 Hs') as (E & L); [lia|]. rewrite E. cbn [bind]. rewrite nth_upd_eq by lia.
        rewrite V' in L |- *.
        rewrite (number_own_ok size q (fun I => own I =? q) (glob q)); auto; [|apply (con_size _ _ _ _ _ Hc); auto]. cbn [bind].
        rewrite (shaped_aset 1 (size q)) by auto. split; [apply shaped_set; auto using tab_length|]. split; [unfold set_reg; rewrite upd_length; auto|].
        intros i Hi Ho. rewrite reg_eq by lia. rewrite vat_tab by auto. fold (at_ glob q i). rewrite Ho, Nat.eqb_refl. rewrite qn_add, qn_flat. f_equal.
        rewrite firstn_tab by lia. unfold tab. rewrite map_map. change (vat [qn (length (part q))] 0) with (qn (length (part q))).
        rewrite <- suml_tab. unfold tab. rewrite Nat.add_1_r, seq_S, map_app. cbn [map Nat.add]. change (fun x => vat [qn (length (part x))] 0) with (fun x => qn (length (part x))).
        rewrite suml_app. cbn. ring. }
      destruct (H2 p Hp) as (Hs & L2 & _). rewrite (unique_value Hc Ha p (fun q => reg (m2 q) 0)) by (auto; apply Hs; lia). rewrite reg_eq by lia.
      apply map_ext_in. intros I HI. assert (I < N) as HN by (eapply con_range; eauto). rewrite (global_index I HN). destruct (owner_ok Hc I HN) as (O1 & O2 & _). fold own in O1, O2 |- *.
      destruct (index_ok Hc (own I) I O1 O2) as (O3 & O4). destruct (H2 (own I) O1) as (_ & _ & H3). rewrite H3; auto; rewrite O4; auto.
  Qed.
End Consistent.
