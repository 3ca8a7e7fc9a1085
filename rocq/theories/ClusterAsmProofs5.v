(** The sums over the cells of clusters; assembly without masks. *)
From Verif Require Import Util Lin MeshModel LocalSpec FormsProofs2 ReorderProofs AssemblyModel AssemblySpec AssemblyProofs AssemblyProofs2 AssemblyProofs7
  RestrictionProofs TupleDictModel TupleDictSpec
  NonlocalModel NonlocalSpec NonlocalProofs NonlocalModel2 NonlocalProofs2 NonlocalProofs3 ClusterAsmModel ClusterAsmSpec ClusterAsmProofs ClusterAsmProofs2 ClusterAsmProofs3 ClusterAsmProofs4.
From Coq Require Import Lia NArith.
Set Default Proof Using "Type".
Local Open Scope Qc_scope.

Lemma half_sum n (g : nat -> nat -> Qc) : (forall a b, (a < n)%nat -> (b < n)%nat -> g a b = g b a) ->
  sumf n (fun a => sumf n (fun b => if (a <=? b)%nat then (if (a =? b)%nat then 1 else 1 + 1) * g a b else 0)) = sumf n (fun a => sumf n (fun b => g a b)).
Proof.
  intros Hs. set (lt := sumf n (fun a => sumf n (fun b => if (a <? b)%nat then g a b else 0))). set (dg := sumf n (fun a => sumf n (fun b => if (a =? b)%nat then g a b else 0))).
  set (gt := sumf n (fun a => sumf n (fun b => if (b <? a)%nat then g a b else 0))).
  assert (E : gt = lt). { unfold gt, lt. rewrite sumf_swap. apply sumf_ext. intros a Ha. apply sumf_ext. intros b Hb. destruct (a <? b)%nat; [apply Hs; assumption|reflexivity]. }
  transitivity (dg + lt + lt).
  - unfold dg, lt. rewrite <- !sumf_plus. apply sumf_ext. intros a Ha. rewrite <- !sumf_plus. apply sumf_ext. intros b Hb.
    destruct (Nat.leb_spec a b), (Nat.eqb_spec a b), (Nat.ltb_spec a b); try lia; ring.
  - transitivity (dg + lt + gt); [rewrite E; reflexivity|]. unfold dg, lt, gt. rewrite <- !sumf_plus. apply sumf_ext. intros a Ha. rewrite <- !sumf_plus. apply sumf_ext. intros b Hb.
    destruct (Nat.eqb_spec a b), (Nat.ltb_spec a b), (Nat.ltb_spec b a); try lia; ring.
Qed.

Definition cov (np : npair) (I J : nat) : bool := mem (np_dofs1 np) I && mem (np_dofs2 np) J.
Lemma cov_covers np I J : cov np I J = true <-> covers np I J.
Proof. unfold cov, covers. rewrite andb_true_iff, !mem_in. reflexivity. Qed.
Lemma mirror_covers np np' I J : mirror np np' -> covers np I J -> covers np' J I.
Proof. intros (H1 & H2 & _) [C1 C2]. split; [apply H2|apply H1]; assumption. Qed.
Lemma disjoint_same P np np' I J : disjoint_pairs P -> In np P -> In np' P -> covers np I J -> covers np' I J -> np = np'.
Proof.
  intros D H H' C1 C2. apply In_nth_error in H, H'. destruct H as (i & Hi), H' as (j & Hj). pose proof (D i j np np' I J Hi Hj C1 C2). subst j. congruence.
Qed.
Lemma disjoint_tail np P : disjoint_pairs (np :: P) -> disjoint_pairs P.
Proof. intros D i j a b I J Hi Hj Ca Cb. assert (S i = S j); [|lia]. apply (D _ _ a b I J); assumption. Qed.
Lemma pick_none {h : npair -> Qc} P I J : (forall np, In np P -> ~ covers np I J) -> suml (map (fun np => if cov np I J then h np else 0) P) = 0.
Proof.
  intros H. apply suml_map_zero. intros np Hn. destruct (cov np I J) eqn:E; [|reflexivity]. apply cov_covers in E. exfalso. exact (H np Hn E).
Qed.
Lemma pick_one (h : npair -> Qc) P np I J : disjoint_pairs P -> In np P -> covers np I J -> suml (map (fun np => if cov np I J then h np else 0) P) = h np.
Proof.
  induction P as [|a P IH]; intros D Hin Hc; [destruct Hin|]. cbn [map]. change (suml (?x :: ?l)) with (x + suml l). destruct (cov a I J) eqn:E.
  - apply cov_covers in E. rewrite (disjoint_same _ a np I J D (or_introl eq_refl) Hin E Hc). rewrite pick_none; [ring|]. intros b Hb Cb.
    apply In_nth_error in Hb. destruct Hb as (j & Hj). pose proof (D 0%nat (S j) a b I J eq_refl Hj E Cb). discriminate.
  - destruct Hin as [->|Hin]; [apply cov_covers in Hc; congruence|]. rewrite (IH (disjoint_tail _ _ D) Hin Hc). ring.
Qed.

Section Values.
  Variables (nc : nat) (dm : dofmap) (L : double_local) (C : nat -> nat -> nat -> nat -> Qc).
  Notation dpe := (dm_dpe dm).
  Notation sym := (dl_symLocal L).
  Notation symCells := (dl_symCells L).
  Hypothesis HL : interior_ok L dpe nc C.
  Variables I J : nat.
  Notation h K1 K2 := (pair_entry (dm_dofs dm) (dm_dofs dm) dpe C K1 K2 I J).
  Definition in_union (np : npair) (K1 K2 : nat) : Qc := if mem (np_union np) K1 && mem (np_union np) K2 then h K1 K2 else 0.
  Lemma union_total np : NoDup (np_union np) -> (forall K, In K (np_union np) -> (K < nc)%nat) ->
    sumf nc (fun K1 => sumf nc (fun K2 => in_union np K1 K2)) = cluster_entry (dm_dofs dm) dpe C (np_union np) I J.
  Proof using Type.
    clear HL. intros ND Hr. unfold cluster_entry. rewrite (list_sum _ nc _ ND Hr). apply sumf_ext. intros K1 _. unfold in_union. destruct (mem (np_union np) K1); cbn [andb].
    - rewrite (list_sum _ nc _ ND Hr). reflexivity.
    - apply sumf_0.
  Qed.
  (** What is added for the pair of cells if each pair is visited in one order only, or in both. *)
  Definition weighted (np : npair) (K1 K2 : nat) : Qc :=
    if symCells then if (K1 <=? K2)%nat then (if (K1 =? K2)%nat then 1 else 1 + 1) * in_union np K1 K2 else 0 else in_union np K1 K2.
  Lemma weighted_total np : NoDup (np_union np) -> (forall K, In K (np_union np) -> (K < nc)%nat) ->
    sumf nc (fun K1 => sumf nc (fun K2 => weighted np K1 K2)) = cluster_entry (dm_dofs dm) dpe C (np_union np) I J.
  Proof using HL.
    intros ND Hr. rewrite <- (union_total np ND Hr). unfold weighted. destruct symCells eqn:Es; [|reflexivity]. apply half_sum. intros a b Ha Hb. unfold in_union. rewrite andb_comm.
    destruct (_ && _); [|reflexivity]. apply pair_entry_swap. intros p q Hp Hq. destruct HL as (_ & _ & _ & Hs). apply Hs; assumption.
  Qed.

  Section Cover.
    Variable P : list npair.
    Hypothesis D : disjoint_pairs P.
    Hypothesis Hm : sym = true -> mirrored P.
    Lemma zmem_nat l z k : z = Z.of_nat k -> zmem l z = mem l k.
    Proof using Type. clear. intros ->. unfold zmem. rewrite Nat2Z.id. destruct (Z.leb_spec 0 (Z.of_nat k)); [reflexivity|lia]. Qed.
    Lemma ebit_free K1 K2 p q : (forall np, In np P -> ~ covers np I J) ->
      ldof (dm_dofs dm) dpe K1 K2 p = Z.of_nat I -> ldof (dm_dofs dm) dpe K1 K2 q = Z.of_nat J -> ebit symCells sym dm P K1 K2 p q = false.
    Proof using Hm.
      clear HL D. intros Hn Ep Eq. apply not_true_is_false. intros E. unfold ebit in E. apply existsb_exists in E. destruct E as (np & Hin & E). apply andb_true_iff in E. destruct E as [_ E].
      unfold vbit in E. cbv zeta in E. destruct sym eqn:Es.
      - destruct (Nat.le_ge_cases p q) as [Hl|Hl]; [rewrite Nat.min_l, Nat.max_r in E by exact Hl|rewrite Nat.min_r, Nat.max_l in E by exact Hl]; rewrite !(zmem_nat _ _ _ Ep), !(zmem_nat _ _ _ Eq) in E.
        + apply (Hn np Hin), cov_covers, E.
        + destruct (Hm eq_refl np Hin) as (np' & Hin' & Mr). apply (Hn np' Hin'). apply (mirror_covers np np' J I Mr). apply cov_covers. exact E.
      - rewrite (zmem_nat _ _ _ Ep), (zmem_nat _ _ _ Eq) in E. apply (Hn np Hin), cov_covers, E.
    Qed.
    Lemma visits_mirror np np' K1 K2 : (forall K, In K (np_union np) <-> In K (np_cells1 np) \/ In K (np_cells2 np)) ->
      (forall K, In K (np_union np') <-> In K (np_cells1 np') \/ In K (np_cells2 np')) -> mirror np np' -> visits symCells np K1 K2 = visits symCells np' K1 K2.
    Proof using nc C.
      clear HL D Hm. intros U U' (_ & _ & M1 & M2). apply eq_true_iff_eq. rewrite !visits_in, !cell_pairs_in. destruct symCells.
      - pose proof (M1 K1). pose proof (M1 K2). pose proof (M2 K1). pose proof (M2 K2). tauto.
      - rewrite !U, !U'. pose proof (M1 K1). pose proof (M1 K2). pose proof (M2 K1). pose proof (M2 K2). tauto.
    Qed.
    Lemma ebit_at np K1 K2 p q : In np P -> covers np I J -> (forall np K, In np P -> In K (np_union np) <-> In K (np_cells1 np) \/ In K (np_cells2 np)) ->
      ldof (dm_dofs dm) dpe K1 K2 p = Z.of_nat I -> ldof (dm_dofs dm) dpe K1 K2 q = Z.of_nat J -> ebit symCells sym dm P K1 K2 p q = visits symCells np K1 K2.
    Proof using nc C D Hm.
      clear HL. intros Hin Hc HU Ep Eq.
      assert (G : forall np1 a b, In np1 P -> covers np1 a b -> existsb (fun np => visits symCells np K1 K2 && cov np a b) P = visits symCells np1 K1 K2).
      { intros np1 a b H1 C1. apply eq_true_iff_eq. rewrite existsb_exists. split.
        - intros (np2 & H2 & E). apply andb_true_iff in E. destruct E as [V C2]. apply cov_covers in C2. rewrite (disjoint_same P np1 np2 a b D H1 H2 C1 C2). exact V.
        - intros V. exists np1. split; [exact H1|]. rewrite V. apply cov_covers. exact C1. }
      unfold ebit, vbit. cbv zeta. destruct sym eqn:Es.
      - destruct (Nat.le_ge_cases p q) as [Hl|Hl].
        + rewrite Nat.min_l, Nat.max_r by exact Hl. rewrite <- (G np I J Hin Hc). apply existsb_ext_in. intros x _. rewrite (zmem_nat _ _ _ Ep), (zmem_nat _ _ _ Eq). reflexivity.
        + rewrite Nat.min_r, Nat.max_l by exact Hl. destruct (Hm eq_refl np Hin) as (np' & Hin' & Mr). pose proof (mirror_covers np np' I J Mr Hc) as Hc'.
          rewrite (visits_mirror np np' K1 K2 (fun K => HU np K Hin) (fun K => HU np' K Hin') Mr). rewrite <- (G np' J I Hin' Hc'). apply existsb_ext_in. intros x _. rewrite (zmem_nat _ _ _ Ep), (zmem_nat _ _ _ Eq). reflexivity.
      - rewrite <- (G np I J Hin Hc). apply existsb_ext_in. intros x _. rewrite (zmem_nat _ _ _ Ep), (zmem_nat _ _ _ Eq). reflexivity.
    Qed.
    Lemma mask_sum_free : (forall np, In np P -> ~ covers np I J) -> mask_sum nc dm L C P I J = 0.
    Proof using Hm.
      clear HL D. intros Hn. unfold mask_sum. apply sumf_zero. intros K1 _. apply sumf_zero. intros K2 _. unfold bit_sum. rewrite sumf_zero; [ring|]. intros p _. apply sumf_zero. intros q _. unfold sel.
      destruct (Z.eqb_spec (ldof (dm_dofs dm) dpe K1 K2 p) (Z.of_nat I)) as [Ep|]; [|reflexivity]. destruct (Z.eqb_spec (ldof (dm_dofs dm) dpe K1 K2 q) (Z.of_nat J)) as [Eq|]; [|reflexivity].
      rewrite (ebit_free K1 K2 p q Hn Ep Eq). reflexivity.
    Qed.
    Lemma mask_sum_at np : In np P -> covers np I J -> (forall np K, In np P -> In K (np_union np) <-> In K (np_cells1 np) \/ In K (np_cells2 np)) ->
      NoDup (np_union np) -> (forall K, In K (np_union np) -> (K < nc)%nat) -> (symCells = true -> supported (dm_dofs dm) dpe nc P) ->
      mask_sum nc dm L C P I J = cluster_entry (dm_dofs dm) dpe C (np_union np) I J.
    Proof using HL D Hm.
      intros Hin Hc HU ND Hr Hsup. rewrite <- (weighted_total np ND Hr). unfold mask_sum. apply sumf_ext. intros K1 H1. apply sumf_ext. intros K2 H2.
      assert (E : bit_sum dm L C P I J K1 K2 = if visits symCells np K1 K2 then h K1 K2 else 0).
      { transitivity (sumf (2 * dpe) (fun p => sumf (2 * dpe) (fun q => if visits symCells np K1 K2 then if (ldof (dm_dofs dm) dpe K1 K2 p =? Z.of_nat I)%Z && (ldof (dm_dofs dm) dpe K1 K2 q =? Z.of_nat J)%Z then C K1 K2 p q else 0 else 0))).
        - unfold bit_sum. apply sumf_ext. intros p _. apply sumf_ext. intros q _. unfold sel.
          destruct (Z.eqb_spec (ldof (dm_dofs dm) dpe K1 K2 p) (Z.of_nat I)) as [Ep|]; cbn [andb]; [|destruct (visits _ _ _ _); reflexivity].
          destruct (Z.eqb_spec (ldof (dm_dofs dm) dpe K1 K2 q) (Z.of_nat J)) as [Eq|]; [|destruct (visits _ _ _ _); reflexivity].
          rewrite (ebit_at np K1 K2 p q Hin Hc HU Ep Eq). reflexivity.
        - destruct (visits symCells np K1 K2); [reflexivity|]. apply sumf_zero. intros. apply sumf_0. }
      rewrite E. clear E. unfold weighted, in_union, pair_fac. destruct symCells eqn:Es; cbn [andb].
      - destruct (Nat.leb_spec K1 K2) as [Hle|Hgt].
        + transitivity ((if (K1 =? K2)%nat then 1 else 1 + 1) * (if visits true np K1 K2 then h K1 K2 else 0)); [destruct (K1 =? K2)%nat; reflexivity|]. f_equal.
          destruct (visits true np K1 K2) eqn:V.
          * apply visits_in, cell_pairs_in in V. destruct V as [_ V].
            assert (In K1 (np_union np) /\ In K2 (np_union np)) as [U1 U2] by (rewrite !(HU np) by exact Hin; tauto). apply mem_in in U1, U2. rewrite U1, U2. reflexivity.
          * destruct (mem (np_union np) K1 && mem (np_union np) K2) eqn:U; [|reflexivity]. apply andb_true_iff in U. destruct U as [U1 U2]. apply mem_in in U1, U2. rewrite (HU np) in U1, U2 by exact Hin.
            assert (NV : ~ (In K1 (np_cells1 np) /\ In K2 (np_cells2 np) \/ In K2 (np_cells1 np) /\ In K1 (np_cells2 np))).
            { intros K. apply not_true_iff_false in V. apply V. apply visits_in, cell_pairs_in. auto. }
            symmetry. unfold pair_entry. apply sumf_zero. intros p Hp. apply sumf_zero. intros q Hq.
            destruct (Z.eqb_spec (ldof (dm_dofs dm) dpe K1 K2 p) (Z.of_nat I)) as [Ep|]; [|reflexivity]. destruct (Z.eqb_spec (ldof (dm_dofs dm) dpe K1 K2 q) (Z.of_nat J)) as [Eq|]; [|reflexivity].
            exfalso. destruct Hc as [C1 C2]. specialize (Hsup eq_refl).
            assert (Hd : forall r X, (r < 2 * dpe)%nat -> ldof (dm_dofs dm) dpe K1 K2 r = Z.of_nat X -> exists K, (K = K1 \/ K = K2) /\ (In X (np_dofs1 np) -> In K (np_cells1 np)) /\ (In X (np_dofs2 np) -> In K (np_cells2 np))).
            { intros r X Hr' Er. unfold ldof in Er. destruct (Nat.ltb_spec r dpe) as [Hlt|Hge].
              - exists K1. split; [auto|]. exact (Hsup np K1 r X Hin H1 Hlt Er).
              - exists K2. split; [auto|]. exact (Hsup np K2 (r - dpe)%nat X Hin H2 ltac:(lia) Er). }
            destruct (Hd p I Hp Ep) as (Ka & Oa & Sa & _). destruct (Hd q J Hq Eq) as (Kb & Ob & _ & Sb). specialize (Sa C1). specialize (Sb C2). destruct Oa as [->| ->], Ob as [->| ->]; tauto.
        + replace (visits true np K1 K2) with false; [ring|]. symmetry. apply not_true_is_false. intros V. apply visits_in, cell_pairs_in in V. lia.
      - rewrite Qcmult_1_l. replace (visits false np K1 K2) with (mem (np_union np) K1 && mem (np_union np) K2); [reflexivity|]. apply eq_true_iff_eq.
        rewrite visits_in, cell_pairs_in, andb_true_iff, !mem_in. reflexivity.
    Qed.
  End Cover.
End Values.

(** ** Assembly without masks *)
Lemma filtered_adds {M} (add : M -> nat -> nat -> Qc -> res M) np evs : forall A,
  for_list evs (do_add (filtered add np)) A = for_list (filter (fun e => cov np (fst (fst e)) (snd (fst e))) evs) (do_add add) A.
Proof.
  induction evs as [|[[a b] v] evs IH]; intros A; [reflexivity|]. cbn [for_list filter fst snd do_add]. unfold filtered at 1. fold (cov np a b). destruct (cov np a b).
  - cbn [for_list do_add]. apply bind_ext. exact IH.
  - rewrite bind_Ok. apply IH.
Qed.
Lemma tracks_filtered {M} (add : M -> nat -> nat -> Qc -> res M) np f evs P Q : tracks (filtered add np) f evs P Q ->
  tracks add f (filter (fun e => cov np (fst (fst e)) (snd (fst e))) evs) P Q.
Proof.
  intros T lm ld con HP. destruct (T lm ld con HP) as (lm' & ld' & con' & HQ & E). exists lm', ld', con'. split; [exact HQ|]. intros A. rewrite E, filtered_adds. reflexivity.
Qed.
Lemma filtered_sum np evs I J : suml (map (at_entry I J) (filter (fun e => cov np (fst (fst e)) (snd (fst e))) evs)) = if cov np I J then suml (map (at_entry I J) evs) else 0.
Proof.
  induction evs as [|[[a b] v] evs IH]; [destruct (cov np I J); reflexivity|]. cbn [filter fst snd]. destruct (cov np a b) eqn:E; cbn [map]; rewrite ?IH.
  - change (suml (?x :: ?l)) with (x + suml l). rewrite IH. destruct (cov np I J) eqn:E'; [reflexivity|]. cbn [at_entry]. destruct (Nat.eqb_spec a I) as [->|]; cbn [andb]; [|ring]. destruct (Nat.eqb_spec b J) as [->|]; [congruence|ring].
  - change (suml (?x :: ?l)) with (x + suml l). destruct (cov np I J) eqn:E'; [|reflexivity]. cbn [at_entry]. destruct (Nat.eqb_spec a I) as [->|]; cbn [andb]; [|ring]. destruct (Nat.eqb_spec b J) as [->|]; [congruence|ring].
Qed.

Section Filtered.
  Context {M : Type}.
  Variables (add : M -> nat -> nat -> Qc -> res M) (B nc nb : nat) (dm : dofmap).
  Hypothesis ok : dofs_ok nc (dm_dpe dm) (dm_num dm) nb (dm_dofs dm).
  Notation dpe := (dm_dpe dm).
  Variables (L : double_local) (C : nat -> nat -> nat -> nat -> Qc).
  Hypothesis HL : interior_ok L dpe nc C.
  Hypothesis HB : (stored_size (dl_symLocal L) (2 * dpe) <= B)%nat.
  Definition plain_events (K1 K2 : nat) : list contribution := if ignored L K1 K2 then [] else once dm L C K1 K2 (pair_fac L K1 K2).
  Definition near_events (np : npair) : list contribution :=
    filter (fun e => cov np (fst (fst e)) (snd (fst e))) (flat_map (fun K1 => flat_map (plain_events K1) (np_union np)) (np_union np)).

  Lemma filtered_pair_ok np c1 c2 : (c1 < nc)%nat -> (c2 < nc)%nat ->
    tracks (filtered add np) (filtered_pair add B dm L np c1 c2) (plain_events c1 c2) (good_at dm L c1) (good_at dm L c1).
  Proof using ok HL HB.
    intros H1 H2 lm ld con ((Hc & Hld & Hcon) & Hl). unfold filtered_pair, plain_events. cbn [w_lm w_ld w_con w_A].
    destruct (setCell2_good c1 c2 lm Hc Hl) as (Hc' & Hl' & Hh). set (lm1 := setCell2 c2 lm) in *. clearbody lm1. rewrite (panel_has L lm1 c1 c2 Hh).
    destruct (ignored L c1 c2) eqn:Ei.
    { exists lm1, ld, con. split; [split; [split; [exact Hc'|split; assumption]|exact Hl']|]. intros A. reflexivity. }
    destruct (getDoFsElemElem_ok nc nb dm ok c1 c2 ld H1 H2 Hld) as (ld1 & skip & E1 & L1 & V1 & S1). rewrite E1. clear E1. destruct skip.
    { exists lm1, ld1, con. split; [split; [split; [exact Hc'|split; assumption]|exact Hl']|]. intros A. rewrite bind_Ok. rewrite once_skip by (apply S1; reflexivity). reflexivity. }
    assert (Hp : getPanelType L lm1 <> IGNORED). { apply Z.eqb_neq. rewrite (panel_has L lm1 c1 c2 Hh). exact Ei. }
    destruct (eval_add_ok (filtered add np) B nc dm L C (proj1 HL) HB (pair_fac L c1 c2) c1 c2 lm1 ld1 con H1 H2 Hh Hcon Hp V1) as (con' & Lc & E).
    exists lm1, ld1, con'. split; [split; [split; [exact Hc'|split; assumption]|exact Hl']|]. intros A. rewrite bind_Ok. apply E.
  Qed.
  Lemma filtered_loop_ok P : (forall np K, In np P -> In K (np_union np) -> (K < nc)%nat) ->
    tracks add (filtered_loop add B dm L P) (flat_map near_events P) (good dm L) (good dm L).
  Proof using ok HL HB.
    intros Hr. unfold filtered_loop. apply tracks_list. intros np Hn. unfold near_events. apply tracks_filtered.
    intros lm ld con (Hc & Hld & Hcon). cbn [w_lm w_ld w_con w_A].
    refine (tracks_list (filtered add np) _ (fun K1 => flat_map (plain_events K1) (np_union np)) (good dm L) (np_union np) _ lm (alloc (2 * dpe)) con _).
    2:{ split; [exact Hc|]. split; [apply alloc_length|exact Hcon]. }
    clear lm ld con Hc Hld Hcon. intros c1 Hc1 lm ld con (Hc & Hld & Hcon). cbn [w_lm w_ld w_con w_A].
    destruct (setCell1_good c1 lm Hc) as [Hc' Hl']. 
    destruct (tracks_list (filtered add np) (filtered_pair add B dm L np c1) (plain_events c1) (good_at dm L c1) (np_union np)) with (lm := setCell1 c1 lm) (ld := ld) (con := con) as (lm' & ld' & con' & G & E).
    - intros c2 Hc2. apply filtered_pair_ok; eapply Hr; eassumption.
    - split; [split; [exact Hc'|split; assumption]|exact Hl'].
    - exists lm', ld', con'. split; [exact (proj1 G)|]. exact E.
  Qed.
  Lemma near_events_in np a b v : (forall K, In K (np_union np) -> (K < nc)%nat) -> In (a, b, v) (near_events np) -> (a < dm_num dm)%nat /\ (b < dm_num dm)%nat.
  Proof using ok.
    clear HL HB. intros Hr Hin. unfold near_events in Hin. apply filter_In in Hin. destruct Hin as [Hin _]. apply in_flat_map in Hin. destruct Hin as (K1 & H1 & Hin). apply in_flat_map in Hin. destruct Hin as (K2 & H2 & Hin).
    unfold plain_events in Hin. destruct (ignored L K1 K2); [destruct Hin|]. unfold once in Hin. eapply loc_events_in; [|exact Hin]. intros p Hp. apply (ldof_lt nc nb dm ok); auto.
  Qed.
  Lemma near_events_sum np I J : NoDup (np_union np) -> (forall K, In K (np_union np) -> (K < nc)%nat) -> (dl_symCells L = true -> skips_lower L nc) ->
    suml (map (at_entry I J) (near_events np)) = if cov np I J then cluster_entry (dm_dofs dm) dpe C (np_union np) I J else 0.
  Proof using HL.
    clear ok HB. intros ND Hr Hsk. unfold near_events. rewrite filtered_sum. destruct (cov np I J); [|reflexivity]. rewrite <- (weighted_total nc dm L C HL I J np ND Hr).
    rewrite suml_flat, (list_sum _ nc _ ND Hr). apply sumf_ext. intros K1 H1. destruct (mem (np_union np) K1) eqn:M1.
    - rewrite suml_flat, (list_sum _ nc _ ND Hr). apply sumf_ext. intros K2 H2. unfold weighted, in_union. rewrite M1. cbn [andb]. destruct (mem (np_union np) K2).
      + unfold plain_events, pair_fac. destruct (dl_symCells L) eqn:Es; cbn [andb].
        * destruct (Nat.leb_spec K1 K2) as [Hle|Hgt].
          -- rewrite (maybe_sum nc dm L C HL) by auto. destruct (K1 =? K2)%nat; reflexivity.
          -- unfold ignored. rewrite (Hsk eq_refl K1 K2 Hgt H1). reflexivity.
        * rewrite (maybe_sum nc dm L C HL) by (auto; congruence). ring.
      + destruct (dl_symCells L); [|reflexivity]. destruct (K1 <=? K2)%nat; ring.
    - symmetry. apply sumf_zero. intros K2 _. unfold weighted, in_union. rewrite M1. cbn [andb]. destruct (dl_symCells L); [|reflexivity]. destruct (K1 <=? K2)%nat; ring.
  Qed.
End Filtered.
