(** Assembly with masks: the additions and their sums. *)
From Verif Require Import Util Lin MeshModel LocalSpec FormsProofs2 ReorderProofs AssemblyModel AssemblySpec AssemblyProofs AssemblyProofs2 AssemblyProofs7
  RestrictionProofs TupleDictModel TupleDictSpec
  NonlocalModel NonlocalSpec NonlocalProofs NonlocalModel2 NonlocalProofs2 NonlocalProofs3 ClusterAsmModel ClusterAsmSpec ClusterAsmProofs ClusterAsmProofs2 ClusterAsmProofs3.
From Coq Require Import Lia NArith.
Set Default Proof Using "Type".

Lemma tracks_list {M X} (add : M -> nat -> nat -> Qc -> res M) (f : X -> @work M -> res (@work M)) ev P l :
  (forall x, In x l -> tracks add (f x) (ev x) P P) -> tracks add (for_list l f) (flat_map ev l) P P.
Proof.
  induction l as [|x l IH]; intros H.
  - intros lm ld con HP. exists lm, ld, con. split; [exact HP|]. intros A. reflexivity.
  - cbn [for_list flat_map]. apply (tracks_bind add (f x) (for_list l f) _ _ P P P); [apply H; left; reflexivity|]. apply IH. intros; apply H; right; assumption.
Qed.
Lemma setCell1_good c lm : coherent lm -> coherent (setCell1 c lm) /\ l_c1 (setCell1 c lm) = Z.of_nat c.
Proof.
  intros [Ha Hb]. unfold setCell1, coherent. destruct (Z.eqb_spec (l_c1 lm) (Z.of_nat c)) as [E|E]; cbn [l_c1 l_c2 l_v1 l_v2]; repeat split; auto.
Qed.
Local Open Scope Qc_scope.
Lemma list_sum U nc (h : nat -> Qc) : NoDup U -> (forall K, In K U -> (K < nc)%nat) -> suml (map h U) = sumf nc (fun K => if mem U K then h K else 0).
Proof.
  induction 1 as [|x U Hx ND IH]; intros Hr.
  - cbn [map suml mem existsb]. rewrite sumf_0. reflexivity.
  - cbn [map]. change (suml (?a :: ?l)) with (a + suml l). rewrite IH by (intros; apply Hr; right; assumption).
    rewrite <- (sumf_delta nc h x) by (apply Hr; left; reflexivity). rewrite <- sumf_plus. apply sumf_ext. intros K HK.
    replace (mem (x :: U) K) with ((K =? x)%nat || mem U K) by reflexivity. destruct (Nat.eqb_spec K x) as [->|Hne]; cbn [orb].
    + replace (mem U x) with false; [ring|]. symmetry. apply not_true_is_false. intros E. apply mem_in in E. contradiction.
    + ring.
Qed.
Lemma keys_sum (ks : list (nat * nat)) nc (h : nat -> nat -> Qc) : NoDup ks -> (forall a b, In (a, b) ks -> (a < nc)%nat /\ (b < nc)%nat) ->
  (forall a b, (a < nc)%nat -> (b < nc)%nat -> ~ In (a, b) ks -> h a b = 0) -> suml (map (fun k => h (fst k) (snd k)) ks) = sumf nc (fun a => sumf nc (fun b => h a b)).
Proof.
  intros ND Hr Hz.
  assert (G : suml (map (fun k => h (fst k) (snd k)) ks) = sumf nc (fun a => sumf nc (fun b => if existsb (pair_eqb (a, b)) ks then h a b else 0))).
  { clear Hz. induction ND as [|[x y] ks Hx ND IH].
    - cbn [map suml existsb]. rewrite sumf_zero; [reflexivity|]. intros. apply sumf_0.
    - cbn [map fst snd]. change (suml (?a :: ?l)) with (a + suml l). rewrite IH by (intros; apply Hr; right; assumption). destruct (Hr x y (or_introl eq_refl)) as [H1 H2].
      transitivity (sumf nc (fun a => sumf nc (fun b => if (a =? x)%nat then if (b =? y)%nat then h a b else 0 else 0)) + sumf nc (fun a => sumf nc (fun b => if existsb (pair_eqb (a, b)) ks then h a b else 0))).
      + f_equal. rewrite (sumf_single nc _ x H1).
        * rewrite Nat.eqb_refl. rewrite sumf_delta by exact H2. reflexivity.
        * intros i Hi Hne. destruct (Nat.eqb_spec i x); [contradiction|]. apply sumf_0.
      + rewrite <- sumf_plus. apply sumf_ext. intros a Ha. rewrite <- sumf_plus. apply sumf_ext. intros b Hb. cbn [existsb]. unfold pair_eqb at 2. cbn [fst snd].
        destruct (Nat.eqb_spec a x) as [->|]; cbn [andb orb]; [|ring]. destruct (Nat.eqb_spec b y) as [->|]; cbn [orb]; [|ring].
        replace (existsb (pair_eqb (x, y)) ks) with false; [ring|]. symmetry. apply not_true_is_false. intros E. apply existsb_exists in E. destruct E as (k & Hk & E). apply pair_eqb_spec in E. subst. contradiction. }
  rewrite G. apply sumf_ext. intros a Ha. apply sumf_ext. intros b Hb. destruct (existsb (pair_eqb (a, b)) ks) eqn:E; [reflexivity|]. symmetry. apply Hz; auto.
  intros Hin. apply not_true_iff_false in E. apply E. apply existsb_exists. exists (a, b). split; [exact Hin|apply pair_eqb_spec; reflexivity].
Qed.

Definition disjoint_pairs (P : list npair) : Prop :=
  forall i j np np' I J, nth_error P i = Some np -> nth_error P j = Some np' -> covers np I J -> covers np' I J -> i = j.
Lemma zmem_covers np a b : zmem (np_dofs1 np) a = true -> zmem (np_dofs2 np) b = true -> covers np (Z.to_nat a) (Z.to_nat b).
Proof. unfold zmem. intros Ha Hb. apply andb_true_iff in Ha, Hb. destruct Ha as [_ Ha], Hb as [_ Hb]. split; apply mem_in; assumption. Qed.
Lemma vbit_pos sym dm np K1 K2 p q : vbit sym dm np K1 K2 p q = true ->
  (0 <= ldof (dm_dofs dm) (dm_dpe dm) K1 K2 p)%Z /\ (0 <= ldof (dm_dofs dm) (dm_dpe dm) K1 K2 q)%Z.
Proof.
  unfold vbit. cbv zeta. destruct sym; intros H; apply andb_true_iff in H; destruct H as [H1 H2]; apply zmem_pos in H1, H2; [|auto].
  destruct (Nat.le_ge_cases p q) as [Hl|Hl]; [rewrite Nat.min_l in H1 by exact Hl; rewrite Nat.max_r in H2 by exact Hl|rewrite Nat.min_r in H1 by exact Hl; rewrite Nat.max_l in H2 by exact Hl]; auto.
Qed.
Lemma ebit_app symCells sym dm P Q K1 K2 p q : ebit symCells sym dm (P ++ Q) K1 K2 p q = ebit symCells sym dm P K1 K2 p q || ebit symCells sym dm Q K1 K2 p q.
Proof. apply existsb_app. Qed.
Lemma ebit_once symCells sym dm P Q K1 K2 p q : disjoint_pairs (P ++ Q) -> ebit symCells sym dm P K1 K2 p q = true -> ebit symCells sym dm Q K1 K2 p q = true -> False.
Proof.
  intros D HP HQ. unfold ebit in *. apply existsb_exists in HP, HQ. destruct HP as (np & Hp & Ep), HQ as (nq & Hq & Eq). apply andb_true_iff in Ep, Eq. destruct Ep as [_ Ep], Eq as [_ Eq].
  apply In_nth_error in Hp, Hq. destruct Hp as (i & Hi), Hq as (j & Hj). assert (Hl : (i < length P)%nat) by (apply nth_error_Some; congruence).
  assert (i = length P + j)%nat; [|lia].
  assert (Hi' : nth_error (P ++ Q) i = Some np) by (rewrite nth_error_app1; assumption).
  assert (Hj' : nth_error (P ++ Q) (length P + j) = Some nq) by (rewrite nth_error_app2 by lia; replace (length P + j - length P)%nat with j by lia; exact Hj).
  unfold vbit in Ep, Eq. cbv zeta in Ep, Eq. destruct sym; apply andb_true_iff in Ep, Eq; eapply (D _ _ _ _ _ _ Hi' Hj'); apply zmem_covers; try apply Ep; apply Eq.
Qed.

Section Masked.
  Context {M : Type}.
  Variables (add : M -> nat -> nat -> Qc -> res M) (B W nc nb : nat) (dm : dofmap).
  Hypothesis ok : dofs_ok nc (dm_dpe dm) (dm_num dm) nb (dm_dofs dm).
  Notation dpe := (dm_dpe dm).
  Variables (L : double_local) (C : nat -> nat -> nat -> nat -> Qc).
  Hypothesis HL : interior_ok L dpe nc C.
  Hypothesis HB : (stored_size (dl_symLocal L) (2 * dpe) <= B)%nat.
  Hypothesis HW : (0 < W)%nat.
  Notation sym := (dl_symLocal L).
  Notation symCells := (dl_symCells L).
  Notation ld12 K1 K2 := (ldof (dm_dofs dm) dpe K1 K2).

  Definition masked_events (e : nat * Z * N) : list contribution :=
    let '(K1, z, mask) := e in let K2 := Z.to_nat z in
    if ignored L K1 K2 then [] else mev sym (2 * dpe) (ld12 K1 K2) (C K1 K2) (pair_fac L K1 K2) mask.
  Lemma masked_pair_ok K1 K2 mask : (K1 < nc)%nat -> (K2 < nc)%nat -> selects_inner sym (2 * dpe) (ld12 K1 K2) mask ->
    tracks add (masked_pair add dm L (K1, Z.of_nat K2, mask)) (masked_events (K1, Z.of_nat K2, mask)) (good dm L) (good dm L).
  Proof using ok HL HB.
    clear HW. intros H1 H2 Hs lm ld con (Hc & Hld & Hcon). unfold masked_pair, masked_events. rewrite !Nat2Z.id. cbn [w_lm w_ld w_con w_A].
    destruct (setCell1_good K1 lm Hc) as [Hc1 Hl1]. destruct (setCell2_good K1 K2 (setCell1 K1 lm) Hc1 Hl1) as (Hc' & Hl' & Hh).
    set (lm1 := setCell2 K2 (setCell1 K1 lm)) in *. clearbody lm1. rewrite (panel_has L lm1 K1 K2 Hh). destruct (ignored L K1 K2) eqn:Ei.
    { exists lm1, ld, con. split; [split; [exact Hc'|split; assumption]|]. intros A. reflexivity. }
    destruct (getDoFsElemElem_ok nc nb dm ok K1 K2 ld H1 H2 Hld) as (ld1 & skip & E1 & L1 & V1 & S1). rewrite E1. clear E1.
    destruct skip.
    { exists lm1, ld1, con. split; [split; [exact Hc'|split; assumption]|]. intros A. rewrite bind_Ok. rewrite mev_none; [reflexivity|].
      intros p q Hp Hq. apply not_true_is_false. intros E. destruct (Hs p q Hp Hq E) as [K _]. pose proof (proj1 S1 eq_refl p Hp). lia. }
    assert (Hp : getPanelType L lm1 <> IGNORED). { apply Z.eqb_neq. rewrite (panel_has L lm1 K1 K2 Hh). exact Ei. }
    destruct (proj1 HL K1 K2 lm1 con mask H1 H2 Hh Hcon (fun _ => Hp)) as (out & Eo & Lo & Vo).
    exists lm1, ld1, out. split; [split; [exact Hc'|split; assumption]|]. intros A. rewrite bind_Ok, Eo, bind_Ok.
    rewrite (add_masked_ok add (2 * dpe) ld1 (ld12 K1 K2) out (C K1 K2) (pair_fac L K1 K2) mask V1 sym A); [reflexivity|]. intros k Hk Hb. apply Vo; assumption.
  Qed.

  Definition bit_sum (P : list npair) (I J K1 K2 : nat) : Qc :=
    sumf (2 * dpe) (fun p => sumf (2 * dpe) (fun q => sel (ld12 K1 K2) I J (fun p q => if ebit symCells sym dm P K1 K2 p q then C K1 K2 p q else 0) p q)).
  Definition mask_sum (P : list npair) (I J : nat) : Qc := sumf nc (fun K1 => sumf nc (fun K2 => pair_fac L K1 K2 * bit_sum P I J K1 K2)).
  Lemma masked_events_sum pre K1 K2 v I J : (K1 < nc)%nat -> (K2 < nc)%nat -> (symCells = true -> (K1 <= K2)%nat) ->
    (forall p q, (p < 2 * dpe)%nat -> (q < 2 * dpe)%nat -> tb v (midx sym (2 * dpe) p q) = ebit symCells sym dm pre K1 K2 p q) ->
    suml (map (at_entry I J) (masked_events (K1, Z.of_nat K2, v))) = pair_fac L K1 K2 * bit_sum pre I J K1 K2.
  Proof using HL.
    clear ok HB HW. intros H1 H2 Ho Hb. destruct HL as (_ & Hi & Hsym & _). unfold masked_events. rewrite Nat2Z.id.
    assert (In1 : selects_inner sym (2 * dpe) (ld12 K1 K2) v).
    { intros p q Hp Hq E. rewrite Hb in E by assumption. unfold ebit in E. apply existsb_exists in E. destruct E as (np & _ & E). apply andb_true_iff in E. eapply vbit_pos. apply E. }
    destruct (ignored L K1 K2) eqn:Eg.
    - apply Z.eqb_eq in Eg. destruct (Hi K1 K2 H1 H2 Eg) as [[Es Hlt]|Hz]; [specialize (Ho Es); lia|]. unfold bit_sum. rewrite sumf_zero; [cbn [map suml]; ring|].
      intros p Hp. apply sumf_zero. intros q Hq. unfold sel. destruct (_ && _); [|reflexivity]. destruct (ebit _ _ _ _ _ _ _ _); [apply Hz; assumption|reflexivity].
    - rewrite mev_sum; [|intros Es p q Hp Hq; apply Hsym; assumption|exact In1]. f_equal. unfold bit_sum. apply sumf_ext. intros p Hp. apply sumf_ext. intros q Hq.
      unfold sel, msel. rewrite Hb by assumption. reflexivity.
  Qed.
  Lemma masked_events_in pre K1 K2 v a b x : (K1 < nc)%nat -> (K2 < nc)%nat ->
    (forall p q, (p < 2 * dpe)%nat -> (q < 2 * dpe)%nat -> tb v (midx sym (2 * dpe) p q) = ebit symCells sym dm pre K1 K2 p q) ->
    In (a, b, x) (masked_events (K1, Z.of_nat K2, v)) -> (a < dm_num dm)%nat /\ (b < dm_num dm)%nat.
  Proof using ok.
    clear HL HB HW. intros H1 H2 Hb Hin. unfold masked_events in Hin. rewrite Nat2Z.id in Hin. destruct (ignored L K1 K2); [destruct Hin|].
    eapply mev_in; [| |exact Hin].
    - intros p Hp. apply (ldof_lt nc nb dm ok); assumption.
    - intros p q Hp Hq E. rewrite Hb in E by assumption. unfold ebit in E. apply existsb_exists in E. destruct E as (np & _ & E). apply andb_true_iff in E. eapply vbit_pos. apply E.
  Qed.
  Lemma mask_sum_app P Q I J : disjoint_pairs (P ++ Q) -> mask_sum (P ++ Q) I J = mask_sum P I J + mask_sum Q I J.
  Proof using Type.
    clear ok HL HB HW. intros D. unfold mask_sum. rewrite <- sumf_plus. apply sumf_ext. intros K1 _. rewrite <- sumf_plus. apply sumf_ext. intros K2 _. rewrite <- Qcmult_plus_distr_r. f_equal.
    unfold bit_sum. rewrite <- sumf_plus. apply sumf_ext. intros p _. rewrite <- sumf_plus. apply sumf_ext. intros q _. unfold sel. destruct (_ && _); [|ring]. rewrite ebit_app.
    pose proof (ebit_once symCells sym dm P Q K1 K2 p q D) as O. destruct (ebit symCells sym dm P K1 K2 p q), (ebit symCells sym dm Q K1 K2 p q); cbn [orb]; try ring. exfalso. exact (O eq_refl eq_refl).
  Qed.
  Definition adds_up (evs : list contribution) (S : nat -> nat -> Qc) : Prop :=
    (forall a b v, In (a, b, v) evs -> (a < dm_num dm)%nat /\ (b < dm_num dm)%nat) /\ forall I J, suml (map (at_entry I J) evs) = S I J.
  Lemma chunk_sum pre l : NoDup (map fst l) ->
    (forall K1 z v, In (K1, z, v) l -> exists K2, z = Z.of_nat K2 /\ (K1 < nc)%nat /\ (K2 < nc)%nat /\ (symCells = true -> (K1 <= K2)%nat) /\
       forall p q, (p < 2 * dpe)%nat -> (q < 2 * dpe)%nat -> tb v (midx sym (2 * dpe) p q) = ebit symCells sym dm pre K1 K2 p q) ->
    (forall K1 K2 p q, (p < 2 * dpe)%nat -> (q < 2 * dpe)%nat -> ebit symCells sym dm pre K1 K2 p q = true -> exists v, In (K1, Z.of_nat K2, v) l) ->
    adds_up (flat_map masked_events l) (mask_sum pre).
  Proof using ok HL.
    clear HB HW. intros ND Hl He. split.
    - intros a b x Hin. apply in_flat_map in Hin. destruct Hin as ([[K1 z] v] & Hin & H). destruct (Hl _ _ _ Hin) as (K2 & -> & H1 & H2 & _ & Hb). exact (masked_events_in pre K1 K2 v a b x H1 H2 Hb H).
    - intros I J. rewrite suml_flat.
      set (h := fun K1 K2 => pair_fac L K1 K2 * bit_sum pre I J K1 K2).
      transitivity (suml (map (fun k => h (fst k) (snd k)) (map (fun e => (fst (fst e), Z.to_nat (snd (fst e)))) l))).
      + rewrite map_map. apply suml_ext. intros [[K1 z] v] Hin. destruct (Hl _ _ _ Hin) as (K2 & -> & H1 & H2 & Ho & Hb). cbn [fst snd]. rewrite Nat2Z.id. apply masked_events_sum; assumption.
      + rewrite (keys_sum _ nc h); [reflexivity| | |].
        * clear He ok HL h. induction l as [|[[K1 z] v] l IH]; [constructor|]. cbn [map fst snd] in *. inversion ND as [|x y Hx ND']; subst. constructor.
          -- intros Hin. apply in_map_iff in Hin. destruct Hin as ([[k1 z'] v'] & Ek & Hin). cbn [fst snd] in Ek. injection Ek as -> Ez. apply Hx. apply in_map_iff. exists (K1, z', v'). split; [|exact Hin].
             cbn [fst]. f_equal. destruct (Hl _ _ _ (or_introl eq_refl)) as (a & -> & _). destruct (Hl _ _ _ (or_intror Hin)) as (b & -> & _). rewrite !Nat2Z.id in Ez. congruence.
          -- apply IH; [exact ND'|]. intros; eapply Hl; right; eassumption.
        * intros a b Hin. apply in_map_iff in Hin. destruct Hin as ([[K1 z] v] & Ek & Hin). cbn [fst snd] in Ek. destruct (Hl _ _ _ Hin) as (K2 & -> & H1 & H2 & _). rewrite Nat2Z.id in Ek. injection Ek as -> ->. auto.
        * intros a b Ha Hb' Hn. unfold h, bit_sum. rewrite sumf_zero; [ring|]. intros p Hp. apply sumf_zero. intros q Hq. unfold sel. destruct (_ && _); [|reflexivity].
          destruct (ebit symCells sym dm pre a b p q) eqn:E; [|reflexivity]. exfalso. apply Hn. destruct (He a b p q Hp Hq E) as (v & Hin). apply in_map_iff. exists (a, Z.of_nat b, v). cbn [fst snd]. rewrite Nat2Z.id. auto.
  Qed.
  Lemma adds_up_app e1 e2 S1 S2 S : adds_up e1 S1 -> adds_up e2 S2 -> (forall I J, S I J = S1 I J + S2 I J) -> adds_up (e1 ++ e2) S.
  Proof using Type.
    clear. intros [A1 B1] [A2 B2] H. split.
    - intros a b v Hin. apply in_app_or in Hin. destruct Hin; [eapply A1|eapply A2]; eassumption.
    - intros I J. rewrite map_app, suml_app, B1, B2, H. reflexivity.
  Qed.
  Lemma masked_loop_ok maxNNZ : forall fuel P, (length P <= fuel)%nat -> (forall np, In np P -> np_ok nc np) -> few W P -> disjoint_pairs P ->
    exists evs, tracks add (masked_loop add B W dm nc L fuel maxNNZ P) evs (good dm L) (good dm L) /\ adds_up evs (mask_sum P).
  Proof using ok HL HB HW.
    induction fuel as [|fuel IH]; intros P Hlen Hok Hf D.
    - destruct P as [|np P]; [|cbn in Hlen; lia]. exists []. split; [intros lm ld con H; exists lm, ld, con; split; [exact H|]; intros A; reflexivity|]. split; [intros a b v []|].
      intros I J. cbn [map suml]. unfold mask_sum. symmetry. apply sumf_zero. intros K1 _. apply sumf_zero. intros K2 _. unfold bit_sum. rewrite sumf_zero; [ring|]. intros p _. apply sumf_zero. intros q _.
      unfold sel. cbn [ebit existsb]. destruct (_ && _); reflexivity.
    - destruct P as [|np P].
      { destruct (IH [] ltac:(cbn; lia) Hok Hf D) as (evs & T & S). exists evs. split; [|exact S]. destruct fuel; exact T. }
      destruct (masks_ok B W nc nb dm symCells sym ok HB HW maxNNZ (np :: P) Hok Hf) as (pre & rest & d & l & EP & Hne & Eb & El & ND & Hl & He).
      pose proof (chunk_sum pre l ND Hl He) as Sl.
      assert (Hpre : (length rest <= fuel)%nat). { specialize (Hne ltac:(discriminate)). apply (f_equal (@length npair)) in EP. rewrite app_length in EP. destruct pre; [congruence|]. cbn [length] in *. lia. }
      assert (Hsub : forall x, In x rest -> In x (np :: P)) by (intros x Hx; rewrite EP; apply in_or_app; right; exact Hx).
      assert (D' : disjoint_pairs rest).
      { intros i j a b I J Hi Hj Ca Cb. assert (length pre + i = length pre + j)%nat; [|lia]. apply (D _ _ a b I J); auto; rewrite EP, nth_error_app2 by lia.
        - replace (length pre + i - length pre)%nat with i by lia. exact Hi.
        - replace (length pre + j - length pre)%nat with j by lia. exact Hj. }
      destruct (IH rest Hpre) as (evs & T & S); [intros; apply Hok; auto| |exact D'|].
      { intros K1 Ks NDK HK. apply (Hf K1 Ks NDK). intros K2 H2. destruct (HK K2 H2) as (x & Hx & H). exists x. auto. }
      exists (flat_map masked_events l ++ evs). split.
      + cbn [masked_loop]. intros lm ld con HG. rewrite Eb. cbn [bind]. rewrite El. cbn [bind].
        refine (tracks_bind add (for_list l (masked_pair add dm L)) (masked_loop add B W dm nc L fuel maxNNZ rest) (flat_map masked_events l) evs (good dm L) (good dm L) (good dm L) _ T lm ld con HG).
        apply tracks_list. intros [[K1 z] v] Hin. destruct (Hl _ _ _ Hin) as (K2 & -> & H1 & H2 & _ & Hb). apply masked_pair_ok; [exact H1|exact H2|].
        intros p q Hp Hq E. rewrite Hb in E by assumption. unfold ebit in E. apply existsb_exists in E. destruct E as (x & _ & E). apply andb_true_iff in E. eapply vbit_pos. apply E.
      + eapply adds_up_app; [exact Sl|exact S|]. intros I J. rewrite EP. apply mask_sum_app. rewrite <- EP. exact D.
  Qed.
End Masked.
