(** The breadth-first search of the Cuthill-McKee ordering. *)
From Verif Require Import Util ReorderModel ReorderSpec ReorderProofs.
From Coq Require Import Permutation Sorted.
Set Default Proof Using "Type".

Section Search.
  Variables (n : nat) (ind ptr : list nat).
  Hypothesis gok : graph_ok n ind ptr.
  Variable argsort : list nat -> list nat.
  Hypothesis sorts : is_argsort argsort.
  Let adj := adjacent ind ptr.
  Let df := valence ind ptr.
  Let sg := sigma n ind ptr argsort.
  Let rh := rho n ind ptr argsort.
  Let dg := deg n ind ptr.

  Definition inv (P : nat) (os : list nat) : Prop :=
    good n os /\ P <= length os /\
    (forall q j, q < P -> adj (nth q os 0) j -> In j os) /\
    (forall p q, p < length os -> first_parent adj os p q -> q < P) /\
    (forall p p' q q', p < p' -> p' < length os -> first_parent adj os p q -> first_parent adj os p' q' -> q <= q' /\ (q = q' -> df (nth p os 0) <= df (nth p' os 0))) /\
    (forall p, p < length os -> (forall q, ~ first_parent adj os p q) ->
       p <= P /\ (forall v, v < n -> ~ In v (firstn p os) -> df (nth p os 0) <= df v) /\ (forall p' q, p < p' -> p' < length os -> first_parent adj os p' q -> p <= q)).

  Lemma parent_app os l p q : p < length os -> (first_parent adj (os ++ l) p q <-> first_parent adj os p q).
  Proof.
    intros Hp. unfold first_parent. rewrite (app_nth1 os l 0 Hp). split; intros (H1 & H2 & H3).
    - rewrite app_nth1 in H2 by lia. split; [auto|]. split; [auto|]. intros r Hr. specialize (H3 r Hr). rewrite app_nth1 in H3 by lia. auto.
    - rewrite app_nth1 by lia. split; [auto|]. split; [auto|]. intros r Hr. rewrite app_nth1 by lia. auto.
  Qed.

  Lemma parent_app1 os l p q : first_parent adj (os ++ l) p q -> p < length os -> first_parent adj os p q.
  Proof. intros H Hp. apply (parent_app os l); auto. Qed.
  Lemma inv_visit P os new : inv P os -> P < length os -> good n (os ++ new) -> (forall j, In j new -> adj (nth P os 0) j) -> (forall j, adj (nth P os 0) j -> In j (os ++ new)) -> StronglySorted (by_df ind ptr) new ->
    inv (S P) (os ++ new).
  Proof.
    intros (Hg & HP & HC & HF & HM & HS) HP' Hg' HA HA' HSort.
    assert (NI : forall p, p < length new -> ~ In (nth p new 0) os).
    { intros p Hp Q. destruct Hg' as [ND _]. assert (Q' : In (nth p new 0) new) by (apply nth_In; auto). apply in_split in Q'. destruct Q' as (l1 & l2 & E). rewrite E, app_assoc in ND. apply NoDup_remove_2 in ND. apply ND. apply in_or_app. left. apply in_or_app. auto. }
    assert (NP : forall p, length os <= p -> p < length (os ++ new) -> first_parent adj (os ++ new) p P).
    { intros p Hp Hp'. rewrite app_length in Hp'. split; [lia|]. rewrite (app_nth2 os new 0 Hp). rewrite (app_nth1 os new 0 HP'). split; [apply HA, nth_In; lia|]. intros r Hr Q. rewrite app_nth1 in Q by lia. apply HC in Q; auto. apply NI in Q; auto. lia. }
    assert (UP : forall p q, length os <= p -> p < length (os ++ new) -> first_parent adj (os ++ new) p q -> q = P).
    { intros p q Hp Hp' (H1 & H2 & H3). destruct (NP p Hp Hp') as (K1 & K2 & K3). destruct (Nat.lt_trichotomy q P) as [L|[E|L]]; auto; [destruct (K3 q L H2)|destruct (H3 P L K2)]. }
    split; [auto|]. split; [rewrite app_length; lia|]. split; [|split; [|split]].
    - intros q j Hq Hj. destruct (Nat.eq_dec q P) as [->|Ne]; [rewrite app_nth1 in Hj by auto; auto|]. rewrite app_nth1 in Hj by lia. apply in_or_app. left. apply (HC q); auto. lia.
    - intros p q Hp Hf. destruct (Nat.lt_ge_cases p (length os)) as [L|L]; [apply parent_app1 in Hf; auto; apply HF in Hf; auto|]. apply UP in Hf; auto. lia.
    - intros p p' q q' Hp Hp' Hf Hf'. destruct (Nat.lt_ge_cases p' (length os)) as [L|L].
      + apply parent_app1 in Hf; [|lia]. apply parent_app1 in Hf'; [|lia]. rewrite !app_nth1 by lia. apply HM; auto.
      + apply UP in Hf'; auto. subst q'. destruct (Nat.lt_ge_cases p (length os)) as [L'|L'].
        * apply parent_app1 in Hf; auto. apply HF in Hf; auto. lia.
        * pose proof (UP _ _ L' ltac:(lia) Hf) as ->. split; [auto|]. intros _. rewrite !app_nth2 by auto. rewrite app_length in Hp'.
          apply (sorted_app_l ind ptr (firstn (p' - length os) new) (skipn (p' - length os) new)).
          -- rewrite firstn_skipn. auto.
          -- rewrite <- (firstn_skipn (p' - length os) new) at 1. rewrite app_nth1 by (rewrite firstn_length; lia). apply nth_In. rewrite firstn_length. lia.
          -- rewrite <- (firstn_skipn (p' - length os) new) at 1. rewrite app_nth2 by (rewrite firstn_length; lia). apply nth_In. rewrite firstn_length, skipn_length. lia.
    - intros p Hp Hn. destruct (Nat.lt_ge_cases p (length os)) as [L|L]; [|destruct (Hn P); apply NP; auto].
      destruct (HS p L) as (S1 & S2 & S3). { intros q Q. apply (Hn q). apply parent_app; auto. }
      split; [auto|]. split; [intros v Hv Hi; rewrite app_nth1 by auto; apply S2; auto; rewrite firstn_app in Hi; intros Q; apply Hi; apply in_or_app; auto|].
      intros p' q Hpp Hp' Hf. destruct (Nat.lt_ge_cases p' (length os)) as [L'|L']; [apply parent_app1 in Hf; auto; apply (S3 p'); auto|]. apply UP in Hf; auto. lia.
  Qed.

  Lemma inv_seed os v : inv (length os) os -> v < n -> ~ In v os -> (forall w, w < n -> ~ In w os -> df v <= df w) -> inv (length os) (os ++ [v]).
  Proof.
    intros (Hg & HP & HC & HF & HM & HS) Hv Hn Hmin.
    assert (NF : forall q, ~ first_parent adj (os ++ [v]) (length os) q).
    { intros q (H1 & H2 & _). rewrite (app_nth2 os [v] 0 (le_n _)), Nat.sub_diag in H2. cbn [nth] in H2. rewrite app_nth1 in H2 by auto. apply HC in H2; auto. }
    split; [apply good_snoc; auto|]. rewrite app_length. cbn [length]. split; [lia|]. split; [|split; [|split]].
    - intros q j Hq Hj. rewrite app_nth1 in Hj by auto. apply in_or_app. left. apply (HC q); auto.
    - intros p q Hp Hf. destruct (Nat.eq_dec p (length os)) as [->|Ne]; [destruct (NF q Hf)|]. apply parent_app1 in Hf; [|lia]. apply HF in Hf; lia.
    - intros p p' q q' Hp Hp' Hf Hf'. destruct (Nat.eq_dec p' (length os)) as [->|Ne]; [destruct (NF q' Hf')|]. apply parent_app1 in Hf; [|lia]. apply parent_app1 in Hf'; [|lia]. rewrite !app_nth1 by lia. apply HM; auto. lia.
    - intros p Hp Hq. destruct (Nat.eq_dec p (length os)) as [->|Ne].
      + split; [auto|]. split; [|intros; lia]. intros w Hw Hi. rewrite app_nth2, Nat.sub_diag by lia. cbn [nth]. apply Hmin; auto. rewrite firstn_app, Nat.sub_diag, firstn_all in Hi. cbn in Hi. rewrite app_nil_r in Hi. auto.
      + destruct (HS p ltac:(lia)) as (S1 & S2 & S3). { intros q Q. apply (Hq q). apply parent_app; [lia|auto]. }
        split; [lia|]. split; [intros w Hw Hi; rewrite app_nth1 by lia; apply S2; auto; rewrite firstn_app in Hi; intros Q; apply Hi; apply in_or_app; auto|].
        intros p' q Hpp Hp' Hf. destruct (Nat.eq_dec p' (length os)) as [->|Ne']; [destruct (NF q Hf)|]. apply parent_app1 in Hf; [|lia]. apply (S3 p'); auto. lia.
  Qed.

  (** ** The program *)
  Variables (L m : nat).
  Hypothesis HL : n <= L.
  Hypothesis Hm : forall i, i < n -> df i <= m.
  Definition holds (os : list nat) (st : buf nat * list Z * nat * list nat) : Prop :=
    exists r inds temps, st = (map Some os ++ r, inds, length os, temps) /\ marked n ind ptr argsort inds os /\ length os + length r = L /\ length temps = m.

  Lemma visit_ok P os st : holds os st -> inv P os -> P < length os -> exists new st', visit ind ptr dg rh P st = Ok st' /\ holds (os ++ new) st' /\ inv (S P) (os ++ new).
  Proof using All.
    intros (r & inds & temps & -> & HM & LR & LT) HI HP. unfold visit. pose proof HI as (Hg & _).
    assert (Hi : nth P os 0 < n) by (apply Hg, nth_In; auto).
    rewrite (rd_ok _ P (nth P os 0)). 2: { rewrite nth_error_app1 by (rewrite map_length; auto). rewrite nth_error_map. rewrite (nth_error_nth' os 0) by auto. reflexivity. } rewrite bind_Ok.
    destruct (add_ok n ind ptr gok argsort sorts (nth P os 0) os r inds Hi Hg HM ltac:(lia)) as (new & r' & inds' & E & H1 & H2 & H3 & H4 & H5 & H6). unfold rh. rewrite E. rewrite bind_Ok.
    destruct (load_ok n ind ptr gok os new r' temps H3) as (t & EL & LT'); [specialize (Hm _ Hi); unfold df in Hm; lia|]. unfold dg. rewrite EL, bind_Ok.
    destruct (insertion_ok ind ptr os new t r') as (new' & -> & PE & SO). rewrite bind_Ok.
    assert (PE' : Permutation (os ++ new) (os ++ new')) by (apply Permutation_app_head; auto).
    exists new'. eexists. split; [reflexivity|]. split.
    - exists r', inds', (map (valence ind ptr) new' ++ t). split; [rewrite !app_length, (Permutation_length PE); reflexivity|]. split; [|split].
      + destruct H2 as [A1 A2]. split; auto. intros j Hj. rewrite A2 by auto. assert (Q : mem j (os ++ new) = mem j (os ++ new')); [|rewrite Q; reflexivity].
        apply eq_true_iff_eq. rewrite !mem_in. split; apply Permutation_in; auto. apply Permutation_sym; auto.
      + rewrite app_length, <- (Permutation_length PE). lia.
      + rewrite app_length, map_length, <- (Permutation_length PE). lia.
    - apply inv_visit; auto.
      + destruct H3 as [G1 G2]. split; [eapply Permutation_NoDup; eauto|]. intros j Hj. apply G2. eapply Permutation_in; [apply Permutation_sym; eauto|auto].
      + intros j Hj. apply H5. eapply Permutation_in; [apply Permutation_sym; eauto|auto].
      + intros j Hj. eapply Permutation_in; [eauto|]. auto.
  Qed.

  Lemma levels_ok fuel : forall P os st, n < fuel + P -> P <= length os -> holds os st -> inv P os ->
    exists new st', levels fuel ind ptr dg rh P (length os) st = Ok st' /\ holds (os ++ new) st' /\ inv (length (os ++ new)) (os ++ new).
  Proof using All.
    induction fuel as [|fuel IH]; intros P os st HF HP HH HI.
    { destruct HI as (Hg & _). pose proof (bounded n os (proj1 Hg) (proj2 Hg)). lia. }
    cbn [levels]. destruct (Nat.ltb_spec P (length os)) as [Hlt|Hge].
    - destruct (for_range_inv (fun q st => exists new, holds (os ++ new) st /\ inv q (os ++ new)) (visit ind ptr dg rh) P (length os) st) as (st1 & -> & new & HH1 & HI1).
      + lia.
      + exists []. rewrite app_nil_r. auto.
      + intros q st0 Hq (new & H1 & H2). destruct (visit_ok q (os ++ new) st0 H1 H2) as (new' & st' & E & H3 & H4); [rewrite app_length; lia|]. exists st'. split; auto. exists (new ++ new'). rewrite app_assoc. auto.
      + destruct HH1 as (r & inds & temps & -> & H1 & H2 & H3). rewrite bind_Ok.
        destruct (IH (length os) (os ++ new) (map Some (os ++ new) ++ r, inds, length (os ++ new), temps)) as (new' & st' & E & H4 & H5); auto.
        * lia.
        * rewrite app_length. lia.
        * exists r, inds, temps. auto.
        * exists (new ++ new'), st'. rewrite app_assoc. auto.
    - assert (P = length os) as -> by lia. exists [], st. rewrite app_nil_r. auto.
  Qed.

  Lemma sigma_all os : good n os -> (forall k, k < n -> In (nth k sg 0) os) -> Permutation os (seq 0 n).
  Proof using All.
    intros [H1 H2] H. apply NoDup_Permutation; auto using seq_NoDup. intros j. rewrite in_seq. split; [intros Hj; split; [lia|apply H2; auto]|]. intros [_ Hj].
    rewrite <- (sigma_rho n ind ptr argsort sorts j Hj). apply H. apply rho_lt; auto.
  Qed.

  Lemma components_ok k : forall zz os st, zz + k = n -> holds os st -> inv (length os) os -> (forall x, x < zz -> In (nth x sg 0) os) ->
    exists os' st', components k zz n ind ptr dg rh st = Ok st' /\ holds os' st' /\ inv (length os') os' /\ Permutation os' (seq 0 n).
  Proof using All.
    induction k as [|k IH]; intros zz os st Hz HH HI HZ; cbn [components].
    { exists os, st. split; [reflexivity|]. split; [auto|]. split; [auto|]. apply sigma_all; [apply HI|]. intros x Hx. apply HZ. lia. }
    destruct HH as (r & inds & temps & -> & HM & LR & LT). pose proof HI as (Hg & _). pose proof HM as [LI VI].
    rewrite (aget_nth inds zz 0%Z) by lia. rewrite bind_Ok.
    assert (Hs : nth zz sg 0 < n) by (apply (sigma_lt n ind ptr argsort sorts); lia).
    assert (EV : nth zz inds 0%Z = if mem (nth zz sg 0) os then (-1)%Z else Z.of_nat (nth zz sg 0)).
    { rewrite <- VI by auto. f_equal. symmetry. apply rho_sigma; auto. lia. }
    match goal with |- context [bind ?x _] => match x with (if _ then _ else _) => set (X := x) end end.
    assert (HX : exists os' st', X = Ok st' /\ holds os' st' /\ inv (length os') os' /\ forall x, x < S zz -> In (nth x sg 0) os').
    { unfold X. rewrite EV. destruct (mem (nth zz sg 0) os) eqn:EM.
      - rewrite Z.eqb_refl. exists os. eexists. split; [reflexivity|]. split; [exists r, inds, temps; auto|]. split; [auto|]. intros x Hx. destruct (Nat.eq_dec x zz) as [->|Ne]; [apply mem_in; auto|apply HZ; lia].
      - assert (EQ : (Z.of_nat (nth zz sg 0%nat) =? -1)%Z = false) by (apply Z.eqb_neq; lia). rewrite EQ. rewrite Nat2Z.id. set (v := nth zz sg 0) in *.
        assert (NV : ~ In v os) by (intros Q; apply mem_in in Q; congruence). pose proof (good_snoc n os v Hg Hs NV) as HG. pose proof (bounded n _ (proj1 HG) (proj2 HG)) as HB. rewrite app_length in HB. cbn in HB.
        destruct (wr_end os r v (length os) eq_refl) as (r' & -> & LR'); [intros ->; cbn in LR; lia|]. rewrite bind_Ok.
        unfold rh at 1. rewrite (aget_nth _ v 0) by (rewrite (rho_length n ind ptr argsort sorts); auto). rewrite bind_Ok. rewrite aset_ok by (rewrite LI; apply rho_lt; auto). rewrite bind_Ok.
        replace (S (length os) - 1) with (length os) by lia. replace (S (length os)) with (length (os ++ [v])) by (rewrite app_length; cbn; lia).
        destruct (levels_ok (S n) (length os) (os ++ [v]) (map Some (os ++ [v]) ++ r', upd inds (nth v rh 0) (-1)%Z, length (os ++ [v]), temps)) as (new & st' & E & H1 & H2).
        + lia.
        + rewrite app_length. lia.
        + exists r', (upd inds (nth v rh 0) (-1)%Z), temps. split; [reflexivity|]. split; [apply marked_add; auto|]. split; [rewrite app_length; cbn; lia|auto].
        + apply inv_seed; auto. intros w Hw Hnw. rewrite <- (sigma_rho n ind ptr argsort sorts w Hw). apply (sigma_sorted n ind ptr argsort sorts); [|apply rho_lt; auto].
          destruct (Nat.le_gt_cases zz (nth w rh 0)) as [Q|Q]; auto. exfalso. apply Hnw. rewrite <- (sigma_rho n ind ptr argsort sorts w Hw). apply HZ. exact Q.
        + exists ((os ++ [v]) ++ new), st'. split; [exact E|]. split; [auto|]. split; [auto|]. intros x Hx. apply in_or_app. left. apply in_or_app. destruct (Nat.eq_dec x zz) as [->|Ne]; [right; left; reflexivity|left; apply HZ; lia]. }
    clearbody X. destruct HX as (os' & st' & -> & HH' & HI' & HZ'). destruct HH' as (r' & inds' & temps' & -> & H1 & H2 & H3). rewrite bind_Ok.
    destruct (Nat.eqb_spec (length os') n) as [EN|NN].
    - exists os'. eexists. split; [reflexivity|]. split; [exists r', inds', temps'; auto|]. split; [auto|]. destruct HI' as ([G1 G2] & _). apply NoDup_Permutation_bis; auto; [rewrite seq_length; lia|]. intros x Hx. apply in_seq. split; [lia|]. apply G2; auto.
    - apply (IH (S zz) os'); auto; [lia|]. exists r', inds', temps'. auto.
  Qed.
End Search.

Lemma max_ge l x : x <= fold_left Nat.max l x /\ forall y, In y l -> y <= fold_left Nat.max l x.
Proof.
  revert x. induction l as [|a l IH]; intros x; cbn [fold_left]; [split; [auto|intros y []]|]. destruct (IH (Nat.max x a)) as [H1 H2]. split; [lia|]. intros y [->|Hy]; [lia|auto].
Qed.
Lemma reverse_ok os r : reverse_in_place (length os) (map Some os ++ r) = Ok (map Some (rev os) ++ r).
Proof.
  unfold reverse_in_place. set (n := length os).
  match goal with |- context [for_range 0 n ?f (alloc n)] => destruct (for_range_inv (fun i (b : buf nat) => length b = n /\ forall j, j < i -> nth_error b (n - 1 - j) = Some (Some (nth j os 0))) f 0 n (alloc n)) as (b & -> & LB & VB) end.
  - lia.
  - split; [apply alloc_length|]. intros. lia.
  - intros i b Hi (LB & VB). rewrite (rd_ok _ i (nth i os 0)). 2: { rewrite nth_error_app1 by (rewrite map_length; unfold n in *; lia). rewrite nth_error_map, (nth_error_nth' os 0) by (unfold n in *; lia). reflexivity. } rewrite bind_Ok.
    rewrite wr_ok by lia. eexists. split; [reflexivity|]. split; [rewrite upd_length; auto|]. intros j Hj. destruct (Nat.eq_dec j i) as [->|Ne]; [apply nth_error_upd_eq; lia|]. rewrite nth_error_upd_neq by lia. apply VB. lia.
  - rewrite bind_Ok.
    match goal with |- context [for_range 0 n ?f (map Some os ++ r)] => destruct (for_range_inv (fun i (o : buf nat) => i <= n /\ o = map Some (firstn i (rev os) ++ skipn i os) ++ r) f 0 n (map Some os ++ r)) as (o & -> & _ & ->) end.
    + lia.
    + split; [lia|]. reflexivity.
    + intros i o Hi (_ & ->). assert (ER : nth_error b i = Some (Some (nth i (rev os) 0))).
      { specialize (VB (n - 1 - i) ltac:(lia)). replace (n - 1 - (n - 1 - i)) with i in VB by lia. rewrite VB. rewrite rev_nth by (unfold n in *; lia). do 3 f_equal. unfold n. lia. }
      rewrite (rd_ok _ _ _ ER). rewrite bind_Ok. assert (EK : exists y, skipn i os = y :: skipn (S i) os).
      { assert (Q : i < length os) by (unfold n in *; lia). clear -Q. revert i Q. induction os as [|a os IH]; intros i Q; [cbn in Q; lia|]. destruct i as [|i]; [exists a; reflexivity|]. cbn [skipn]. apply IH. cbn in Q. lia. }
      destruct EK as (y & EK). rewrite EK. rewrite wr_app by (rewrite firstn_length, rev_length; unfold n in *; lia). eexists. split; [reflexivity|]. split; [lia|].
      assert (EF : firstn (S i) (rev os) = firstn i (rev os) ++ [nth i (rev os) 0]).
      { assert (Q : i < length (rev os)) by (rewrite rev_length; unfold n in *; lia). exact (firstn_skipn_snoc (rev os) 0 i Q). }
      rewrite EF, <- app_assoc. reflexivity.
    + unfold n. rewrite skipn_all, app_nil_r. rewrite firstn_all2 by (rewrite rev_length; auto). reflexivity.
Qed.

Lemma cuthill_mckee_ok argsort n ind ptr order reverse : is_argsort argsort -> graph_ok n ind ptr -> 0 < n -> n <= length order ->
  exists l r, cuthill_mckee argsort ind ptr n order reverse = Ok (map Some (if reverse then rev l else l) ++ r) /\ n + length r = length order /\ cuthill_mckee_order n (adjacent ind ptr) (valence ind ptr) l.
Proof.
  intros HS HG Hn HO. unfold cuthill_mckee. rewrite (node_degrees_ok n ind ptr HG). rewrite bind_Ok.
  assert (HM : exists m, np_max (deg n ind ptr) = Ok m /\ forall i, i < n -> valence ind ptr i <= m).
  { pose proof (deg_length n ind ptr) as LD. destruct (deg n ind ptr) as [|x l] eqn:ED; [cbn in LD; lia|]. cbn [np_max]. eexists. split; [reflexivity|]. intros i Hi. destruct (max_ge l x) as [M1 M2].
    rewrite <- (deg_nth n ind ptr i Hi), ED. destruct i as [|i]; [auto|]. cbn [nth]. apply M2, nth_In. cbn in LD. lia. }
  destruct HM as (m & -> & Hm). rewrite bind_Ok. fold (sigma n ind ptr argsort). fold (rho n ind ptr argsort).
  destruct (components_ok n ind ptr HG argsort HS (length order) m HO Hm n 0 [] (order, map Z.of_nat (sigma n ind ptr argsort), 0, repeat 0 m)) as (os & st & -> & (r & inds & temps & -> & H1 & H2 & H3) & HI & HP).
  - reflexivity.
  - exists order, (map Z.of_nat (sigma n ind ptr argsort)), (repeat 0 m). split; [reflexivity|]. split; [|split; [reflexivity|apply repeat_length]].
    split; [rewrite map_length; apply sigma_length; auto|]. intros j Hj. cbn [mem existsb]. rewrite (nth_indep _ 0%Z (Z.of_nat 0)) by (rewrite map_length, sigma_length by auto; apply rho_lt; auto). rewrite map_nth, sigma_rho by auto. reflexivity.
  - split; [split; [constructor|intros j []]|]. split; [auto|]. split; [cbn [length]; intros; lia|]. split; [intros p q Hp; cbn in Hp; lia|]. split; [intros p p' q q' Hp Hp'; cbn in Hp'; lia|]. intros p Hp; cbn in Hp; lia.
  - intros x Hx. lia.
  - rewrite bind_Ok. assert (LO : length os = n) by (rewrite (Permutation_length HP), seq_length; auto). exists os, r. split; [|split].
    + destruct reverse; [|reflexivity]. rewrite <- LO at 1. apply reverse_ok.
    + lia.
    + destruct HI as (Hg & _ & _ & _ & HMo & HSe). rewrite LO in *. split; [auto|]. split; [intros p p' q q' Hp; apply HMo; lia|]. intros p p' Hp Hno. destruct (HSe p ltac:(lia) Hno) as (_ & K2 & K3). split; [|intros q; apply K3; lia].
      apply K2; [apply Hg, nth_In; lia|]. intros Q. apply (In_nth _ _ 0) in Q. destruct Q as (a & Ha & Ea). rewrite firstn_length in Ha.
      assert (Ea' : nth a os 0 = nth p' os 0). { rewrite <- Ea. rewrite <- (firstn_skipn p os) at 1. rewrite app_nth1 by (rewrite firstn_length; lia). reflexivity. }
      destruct Hg as [ND _]. rewrite NoDup_nth in ND. apply ND in Ea'; lia.
Qed.

(** An argsort. *)
Fixpoint insert_by (v : nat -> nat) (x : nat) (l : list nat) : list nat :=
  match l with [] => [x] | y :: l => if v x <=? v y then x :: y :: l else y :: insert_by v x l end.
Definition ins_argsort (l : list nat) : list nat := fold_right (insert_by (fun k => nth k l 0)) [] (seq 0 (length l)).
Lemma insert_perm v x l : Permutation (insert_by v x l) (x :: l).
Proof. induction l as [|y l IH]; cbn [insert_by]; auto. destruct (v x <=? v y); auto. rewrite IH. apply perm_swap. Qed.
Lemma insert_sorted v x l : StronglySorted (fun a b => v a <= v b) l -> StronglySorted (fun a b => v a <= v b) (insert_by v x l).
Proof.
  induction l as [|y l IH]; intros H; cbn [insert_by]; [repeat constructor|]. inversion H as [|? ? HS HF]; subst. destruct (Nat.leb_spec (v x) (v y)) as [L|L].
  - constructor; auto. constructor; auto. eapply Forall_impl; [|exact HF]. cbn beta. intros. lia.
  - constructor; auto. rewrite Forall_forall in *. intros z Hz. pose proof (Permutation_in _ (insert_perm v x l) Hz) as Q. destruct Q as [<-|Q]; [lia|auto].
Qed.
Lemma ins_argsort_ok : is_argsort ins_argsort.
Proof.
  intros l. unfold ins_argsort. set (v := fun k => nth k l 0). assert (Q : forall s, Permutation (fold_right (insert_by v) [] s) s /\ StronglySorted (fun a b => v a <= v b) (fold_right (insert_by v) [] s)).
  { induction s as [|x s [IH1 IH2]]; cbn [fold_right]; [split; [auto|constructor]|]. split; [rewrite insert_perm; auto|apply insert_sorted; auto]. }
  destruct (Q (seq 0 (length l))) as [Q1 Q2]. split; [exact Q1|]. apply StronglySorted_Sorted. revert Q2. generalize (fold_right (insert_by v) [] (seq 0 (length l))). clear. induction l0 as [|x s IH]; intros H; cbn [map]; [constructor|].
  inversion H as [|? ? HS HF]; subst. constructor; auto. rewrite Forall_forall in *. intros y Hy. apply in_map_iff in Hy. destruct Hy as (z & <- & Hz). apply HF. auto.
Qed.
