(** The dictionary of masks of pairs of cells. *)
From Verif Require Import Util Lin MeshModel LocalSpec FormsProofs2 ReorderProofs AssemblyModel AssemblySpec AssemblyProofs AssemblyProofs2 AssemblyProofs7
  RestrictionProofs TupleDictModel TupleDictSpec TupleDictProofs TupleDictProofs2 TupleDictProofs3 TupleDictProofs4
  NonlocalModel NonlocalSpec NonlocalProofs NonlocalModel2 NonlocalProofs2 NonlocalProofs3 ClusterAsmModel ClusterAsmProofs ClusterAsmProofs2.
From Coq Require Import Lia NArith Sorted.
Set Default Proof Using "Type".

Notation trun := (TupleDictModel.run N N.lor 0%N).
Definition dict_enters (W : nat) (es : list (nat * Z * N)) (d : tdict N) : res (tdict N) := bind (trun W d (map enter_of es)) (fun p => Ok (fst p)).
Lemma dict_enters_nil W d : dict_enters W [] d = Ok d.
Proof. reflexivity. Qed.
Lemma dict_enters_one W K z v d : dict_enters W [(K, z, v)] d = bind (enterValue N N.lor W d K z v) (fun p => Ok (fst p)).
Proof. unfold dict_enters. cbn [map TupleDictModel.run enter_of step fst snd]. destruct (enterValue N N.lor W d K z v) as [[d1 v1]|e]; reflexivity. Qed.
Lemma dict_enters_app W a b d : dict_enters W (a ++ b) d = bind (dict_enters W a d) (dict_enters W b).
Proof.
  unfold dict_enters. rewrite map_app, run_app. destruct (trun W d (map enter_of a)) as [[d1 o1]|]; [|reflexivity]. cbn [bind fst snd].
  destruct (trun W d1 (map enter_of b)) as [[d2 o2]|]; reflexivity.
Qed.
Lemma dict_enters_flat {X} W (g : X -> list (nat * Z * N)) l : forall d, dict_enters W (flat_map g l) d = for_list l (fun x d => dict_enters W (g x) d) d.
Proof. induction l as [|x l IH]; intros d; [reflexivity|]. cbn [flat_map for_list]. rewrite dict_enters_app. apply bind_ext. intros. apply IH. Qed.

Lemma fold_lor_bits t : forall w i, tb (fold_left N.lor t w) i = existsb (fun v => tb v i) (w :: t).
Proof.
  induction t as [|x t IH]; intros w i; cbn [fold_left existsb]; [rewrite orb_false_r; reflexivity|]. rewrite IH. cbn [existsb]. rewrite N.lor_spec.
  destruct (tb w i), (tb x i); reflexivity.
Qed.
Lemma existsb_ext_in {X} (f g : X -> bool) l : (forall x, In x l -> f x = g x) -> existsb f l = existsb g l.
Proof. induction l as [|x l IH]; intros H; [reflexivity|]. cbn [existsb]. rewrite H by (left; reflexivity). rewrite IH; [reflexivity|]. intros; apply H; right; assumption. Qed.
Lemma values_bits K z (es : list (nat * Z * N)) i : existsb (fun v => tb v i) (values_of K z es) = existsb (fun e => (fst (fst e) =? K) && (snd (fst e) =? z)%Z && tb (snd e) i) es.
Proof.
  unfold values_of. induction es as [|e es IH]; [reflexivity|]. cbn [filter existsb]. destruct ((fst (fst e) =? K) && (snd (fst e) =? z)%Z); cbn [map existsb]; rewrite IH; reflexivity.
Qed.
Lemma sorted_nodup (l : list (nat * Z)) : StronglySorted key_lt l -> NoDup l.
Proof.
  induction 1 as [|x l _ IH H]; constructor; [|exact IH]. intros Hin. rewrite Forall_forall in H. specialize (H x Hin). destruct H as [H|[_ H]]; lia.
Qed.
Lemma mem_in l i : mem l i = true <-> In i l.
Proof. unfold mem. rewrite existsb_exists. split; [intros (x & H & E); apply Nat.eqb_eq in E; subst; exact H|]. intros H. exists i. split; [exact H|apply Nat.eqb_refl]. Qed.
Lemma zmem_in l (i : nat) : zmem l (Z.of_nat i) = mem l i.
Proof. unfold zmem. destruct (Z.leb_spec 0 (Z.of_nat i)); [|lia]. rewrite Nat2Z.id. reflexivity. Qed.
Lemma zmem_pos l d : zmem l d = true -> (0 <= d)%Z.
Proof. unfold zmem. intros H. apply andb_true_iff in H. destruct H as [H _]. apply Z.leb_le in H. exact H. Qed.

(** The pairs of cells that are visited for a pair of clusters. *)
Definition order (symCells : bool) (c1 c2 : nat) : nat * nat := if symCells && (c2 <? c1) then (c2, c1) else (c1, c2).
Definition cell_pairs (symCells : bool) (np : npair) : list (nat * nat) :=
  flat_map (fun c1 => map (order symCells c1) (if symCells then np_cells2 np else np_union np)) (if symCells then np_cells1 np else np_union np).
(** The entries of the local matrix of (K1, K2) that belong to the pair of clusters. *)
Definition vbit (sym : bool) (dm : dofmap) (np : npair) (K1 K2 p q : nat) : bool :=
  let d := ldof (dm_dofs dm) (dm_dpe dm) K1 K2 in
  if sym then zmem (np_dofs1 np) (d (Nat.min p q)) && zmem (np_dofs2 np) (d (Nat.max p q)) else zmem (np_dofs1 np) (d p) && zmem (np_dofs2 np) (d q).
Definition pair_eqb (a b : nat * nat) : bool := (fst a =? fst b) && (snd a =? snd b).
Lemma pair_eqb_spec a b : pair_eqb a b = true <-> a = b.
Proof. unfold pair_eqb. rewrite andb_true_iff, !Nat.eqb_eq. destruct a, b; cbn. split; [intros [-> ->]; reflexivity|intros E; injection E as -> ->; auto]. Qed.
Definition visits (symCells : bool) (np : npair) (K1 K2 : nat) : bool := existsb (pair_eqb (K1, K2)) (cell_pairs symCells np).
Lemma visits_in symCells np K1 K2 : visits symCells np K1 K2 = true <-> In (K1, K2) (cell_pairs symCells np).
Proof.
  unfold visits. rewrite existsb_exists. split; [intros (x & H & E); apply pair_eqb_spec in E; subst; exact H|]. intros H. exists (K1, K2). split; [exact H|apply pair_eqb_spec; reflexivity].
Qed.
Lemma cell_pairs_in symCells np K1 K2 : In (K1, K2) (cell_pairs symCells np) <->
  if symCells then K1 <= K2 /\ (In K1 (np_cells1 np) /\ In K2 (np_cells2 np) \/ In K2 (np_cells1 np) /\ In K1 (np_cells2 np)) else In K1 (np_union np) /\ In K2 (np_union np).
Proof.
  unfold cell_pairs. rewrite in_flat_map. destruct symCells.
  - split.
    + intros (c1 & H1 & H). apply in_map_iff in H. destruct H as (c2 & E & H2). unfold order in E. cbn [andb] in E. destruct (Nat.ltb_spec c2 c1); injection E as <- <-; (split; [lia|]); tauto.
    + intros [Hle [[H1 H2]|[H1 H2]]].
      * exists K1. split; [exact H1|]. apply in_map_iff. exists K2. split; [|exact H2]. unfold order. cbn [andb]. destruct (Nat.ltb_spec K2 K1); [lia|reflexivity].
      * exists K2. split; [exact H1|]. apply in_map_iff. exists K1. split; [|exact H2]. unfold order. cbn [andb]. destruct (Nat.ltb_spec K1 K2); [reflexivity|]. f_equal; lia.
  - split.
    + intros (c1 & H1 & H). apply in_map_iff in H. destruct H as (c2 & E & H2). injection E as <- <-. auto.
    + intros [H1 H2]. exists K1. split; [exact H1|]. apply in_map_iff. exists K2. auto.
Qed.
Definition ebit (symCells sym : bool) (dm : dofmap) (P : list npair) (K1 K2 p q : nat) : bool :=
  existsb (fun np => visits symCells np K1 K2 && vbit sym dm np K1 K2 p q) P.

Section Dict.
  Variables (B W nc nb : nat) (dm : dofmap) (symCells sym : bool).
  Notation dpe := (dm_dpe dm).
  Hypothesis ok : dofs_ok nc dpe (dm_num dm) nb (dm_dofs dm).
  Hypothesis HB : stored_size sym (2 * dpe) <= B.
  Definition np_ok (np : npair) : Prop := (forall K, In K (np_union np) -> K < nc) /\ forall K, In K (np_cells1 np) \/ In K (np_cells2 np) -> In K (np_union np).

  Lemma size_B : 2 * dpe <= B.
  Proof using HB. pose proof (size_ge sym (2 * dpe)). lia. Qed.
  Definition entry_of (cm : cmap * cmap) (c1 c2 : nat) : list (nat * Z * N) :=
    let m1 := N.lor (fst cm c1) (shl B (fst cm c2) dpe) in
    let m2 := N.lor (snd cm c1) (shl B (snd cm c2) dpe) in
    if (m1 =? 0)%N || (m2 =? 0)%N then []
    else [(c1, Z.of_nat c2, if sym then getElemElemSymMask B (2 * dpe) m1 m2 else getElemElemMask B (2 * dpe) m1 m2)].
  Definition entries_of (cm : cmap * cmap) (np : npair) : list (nat * Z * N) := flat_map (fun x => entry_of cm (fst x) (snd x)) (cell_pairs symCells np).
  Lemma enter_masks_run cm c1 c2 d : enter_masks B W dm sym (fst cm c1) (snd cm c1) (fst cm c2) (snd cm c2) c1 c2 d = dict_enters W (entry_of cm c1 c2) d.
  Proof using Type.
    clear ok HB. unfold enter_masks, entry_of. cbv zeta. destruct (_ || _); [reflexivity|]. rewrite dict_enters_one.
    destruct (enterValue _ _ _ _ _ _ _) as [[d1 v1]|]; reflexivity.
  Qed.
  Lemma flat_flat {X Y Z'} (g : Y -> list Z') (h : X -> list Y) l : flat_map g (flat_map h l) = flat_map (fun x => flat_map g (h x)) l.
  Proof using Type. clear. induction l as [|x l IH]; [reflexivity|]. cbn [flat_map]. rewrite flat_map_app, IH. reflexivity. Qed.
  Lemma flat_mapped {X Y Z'} (g : Y -> list Z') (h : X -> Y) l : flat_map g (map h l) = flat_map (fun x => g (h x)) l.
  Proof using Type. clear. induction l as [|x l IH]; [reflexivity|]. cbn [map flat_map]. rewrite IH. reflexivity. Qed.
  Lemma enter_cluster_run np cm d : enter_cluster B W dm symCells sym np cm d = dict_enters W (entries_of cm np) d.
  Proof using Type.
    clear ok HB. unfold enter_cluster, entries_of, cell_pairs. destruct cm as [cm1 cm2]. rewrite flat_flat, dict_enters_flat. destruct symCells; cbn [negb].
    - apply for_list_ext. intros c1 d1 _. rewrite flat_mapped, dict_enters_flat. apply for_list_ext. intros c2 d2 _. unfold order. cbn [andb].
      destruct (c2 <? c1); cbn [fst snd]; apply (enter_masks_run (cm1, cm2)).
    - apply for_list_ext. intros c1 d1 _. rewrite flat_mapped, dict_enters_flat. apply for_list_ext. intros c2 d2 _. unfold order. cbn [andb fst snd]. apply (enter_masks_run (cm1, cm2)).
  Qed.

  (** What is entered for a pair of clusters. *)
  Definition entered (np : npair) (es : list (nat * Z * N)) : Prop :=
    (forall K1 z v, In (K1, z, v) es -> exists K2, z = Z.of_nat K2 /\ visits symCells np K1 K2 = true /\ K1 < nc /\ K2 < nc /\
       forall p q, p < 2 * dpe -> q < 2 * dpe -> tb v (midx sym (2 * dpe) p q) = vbit sym dm np K1 K2 p q) /\
    (forall K1 K2 p q, visits symCells np K1 K2 = true -> p < 2 * dpe -> q < 2 * dpe -> vbit sym dm np K1 K2 p q = true -> exists v, In (K1, Z.of_nat K2, v) es).
  Lemma visits_union np K1 K2 : np_ok np -> visits symCells np K1 K2 = true -> In K1 (np_union np) /\ In K2 (np_union np).
  Proof using Type.
    intros [_ H] Hv. apply visits_in, cell_pairs_in in Hv. destruct symCells; [|exact Hv]. destruct Hv as [_ [[H1 H2]|[H1 H2]]]; split; apply H; auto.
  Qed.
  Lemma entered_ok np cm : np_ok np -> exists cm', record_cells B dm np cm = Ok cm' /\ entered np (entries_of cm' np).
  Proof using ok HB.
    intros Hok. destruct (record_cells_ok B nc nb dm ok np (proj1 Hok) cm) as (cm1 & cm2 & E & V). exists (cm1, cm2). split; [exact E|].
    assert (Bits : forall K1 K2 i, In K1 (np_union np) -> In K2 (np_union np) -> i < 2 * dpe ->
      N.testbit_nat (N.lor (cm1 K1) (shl B (cm1 K2) dpe)) i = zmem (np_dofs1 np) (ldof (dm_dofs dm) dpe K1 K2 i) /\
      N.testbit_nat (N.lor (cm2 K1) (shl B (cm2 K2) dpe)) i = zmem (np_dofs2 np) (ldof (dm_dofs dm) dpe K1 K2 i)).
    { intros K1 K2 i H1 H2 Hi. split; apply (both_bits B dm size_B); auto; intros j Hj; apply V; assumption. }
    split.
    - intros K1 z v Hin. unfold entries_of in Hin. apply in_flat_map in Hin. destruct Hin as ([k1 k2] & Hp & Hin). cbn [fst snd] in Hin.
      apply visits_in in Hp. destruct (visits_union np k1 k2 Hok Hp) as [U1 U2]. unfold entry_of in Hin. cbn [fst snd] in Hin. cbv zeta in Hin. destruct (_ || _); [destruct Hin|].
      destruct Hin as [Eq|[]]. injection Eq as <- <- <-. exists k2. split; [reflexivity|]. split; [exact Hp|]. split; [apply (proj1 Hok); exact U1|]. split; [apply (proj1 Hok); exact U2|].
      intros p q Hpp Hq. unfold vbit. cbv zeta. pose proof HB as HB'. destruct sym.
      + replace (midx true (2 * dpe) p q) with (midx true (2 * dpe) (Nat.min p q) (Nat.max p q)).
        2:{ unfold midx. rewrite (Nat.min_l (Nat.min p q)), (Nat.max_r (Nat.min p q)) by lia. reflexivity. }
        unfold getElemElemSymMask. rewrite symMask_bits by (try exact HB'; lia). f_equal; apply (Bits k1 k2); auto; lia.
      + unfold getElemElemMask. rewrite fullMask_bits by (try exact HB'; lia). f_equal; apply (Bits k1 k2); auto; lia.
    - intros K1 K2 p q Hv Hp Hq Hb. destruct (visits_union np K1 K2 Hok Hv) as [U1 U2]. unfold entries_of.
      assert (Ex : exists i j, i < 2 * dpe /\ j < 2 * dpe /\ zmem (np_dofs1 np) (ldof (dm_dofs dm) dpe K1 K2 i) = true /\ zmem (np_dofs2 np) (ldof (dm_dofs dm) dpe K1 K2 j) = true).
      { unfold vbit in Hb. cbv zeta in Hb. destruct sym; apply andb_true_iff in Hb; destruct Hb as [Ha Hb]; [exists (Nat.min p q), (Nat.max p q)|exists p, q]; repeat split; auto; lia. }
      destruct Ex as (i & j & Hi & Hj & Zi & Zj).
      destruct (Bits K1 K2 i U1 U2 Hi) as [B1 _]. destruct (Bits K1 K2 j U1 U2 Hj) as [_ B2]. rewrite Zi in B1. rewrite Zj in B2.
      assert (N1 : (N.lor (cm1 K1) (shl B (cm1 K2) dpe) =? 0)%N = false). { apply N.eqb_neq. intros K0. rewrite K0, tbn, N.bits_0 in B1. discriminate. }
      assert (N2 : (N.lor (cm2 K1) (shl B (cm2 K2) dpe) =? 0)%N = false). { apply N.eqb_neq. intros K0. rewrite K0, tbn, N.bits_0 in B2. discriminate. }
      eexists. apply in_flat_map. exists (K1, K2). split; [apply visits_in; exact Hv|]. unfold entry_of. cbn [fst snd]. cbv zeta. rewrite N1, N2. cbn [orb]. left. reflexivity.
  Qed.

  Lemma build_loop_run maxNNZ : forall P cm, (forall np, In np P -> np_ok np) -> exists ess, Forall2 entered P ess /\
    forall d dl, dict_enters W (concat ess) d = Ok dl -> exists pre rest es, P = pre ++ rest /\ (P <> [] -> pre <> []) /\ Forall2 entered pre es /\
      exists d', build_loop B W dm symCells sym maxNNZ P cm d = Ok (rest, d') /\ dict_enters W (concat es) d = Ok d'.
  Proof using ok HB.
    induction P as [|np P IH]; intros cm Hok.
    - exists []. split; [constructor|]. intros d dl _. exists [], [], []. split; [reflexivity|]. split; [auto|]. split; [constructor|]. exists d. split; reflexivity.
    - destruct (entered_ok np cm (Hok np (or_introl eq_refl))) as (cm' & Er & He). destruct (IH cm') as (ess & Hf & Hr); [intros; apply Hok; right; assumption|].
      exists (entries_of cm' np :: ess). split; [constructor; assumption|]. intros d dl Hd. cbn [concat] in Hd. rewrite dict_enters_app in Hd.
      destruct (dict_enters W (entries_of cm' np) d) as [d1|] eqn:E1; [|discriminate]. cbn [bind] in Hd. cbn [build_loop]. rewrite Er, bind_Ok, enter_cluster_run, E1, bind_Ok.
      destruct (maxNNZ <? nnz d1)%Z.
      + exists [np], P, [entries_of cm' np]. split; [reflexivity|]. split; [discriminate|]. split; [repeat constructor; apply He|]. exists d1. split; [reflexivity|]. cbn [concat]. rewrite app_nil_r. exact E1.
      + destruct (Hr d1 dl Hd) as (pre & rest & es & -> & _ & Hf2 & d' & Eb & Ed). exists (np :: pre), rest, (entries_of cm' np :: es). split; [reflexivity|]. split; [discriminate|].
        split; [constructor; assumption|]. exists d'. split; [exact Eb|]. cbn [concat]. rewrite dict_enters_app, E1. exact Ed.
  Qed.

  Lemma entered_keys P ess : Forall2 entered P ess -> forall K1 z v, In (K1, z, v) (concat ess) -> exists np K2, In np P /\ z = Z.of_nat K2 /\
    visits symCells np K1 K2 = true /\ K1 < nc /\ K2 < nc.
  Proof using Type.
    induction 1 as [|np es P ess He Hf IH]; intros K1 z v Hin; [destruct Hin|]. cbn [concat] in Hin. apply in_app_or in Hin. destruct Hin as [Hin|Hin].
    - destruct (proj1 He _ _ _ Hin) as (K2 & Ez & Hv & H1 & H2 & _). exists np, K2. split; [left; reflexivity|]. auto.
    - destruct (IH _ _ _ Hin) as (np' & K2 & Hp & H). exists np', K2. split; [right; exact Hp|exact H].
  Qed.
  Lemma entered_bits P ess K1 K2 p q : Forall2 entered P ess -> p < 2 * dpe -> q < 2 * dpe ->
    existsb (fun e => (fst (fst e) =? K1) && (snd (fst e) =? Z.of_nat K2)%Z && tb (snd e) (midx sym (2 * dpe) p q)) (concat ess) = ebit symCells sym dm P K1 K2 p q.
  Proof using Type.
    intros HF Hp Hq. induction HF as [|np es P ess [Ha Hb] Hf IH]; [reflexivity|]. cbn [concat]. unfold ebit in *. cbn [existsb]. rewrite existsb_app, IH. f_equal.
    destruct (visits symCells np K1 K2 && vbit sym dm np K1 K2 p q) eqn:E.
    - apply andb_true_iff in E. destruct E as [Ev Eb]. destruct (Hb K1 K2 p q Ev Hp Hq Eb) as (v & Hin). apply existsb_exists. exists (K1, Z.of_nat K2, v). split; [exact Hin|].
      cbn [fst snd]. rewrite Nat.eqb_refl, Z.eqb_refl. cbn [andb]. destruct (Ha _ _ _ Hin) as (K & Ez & _ & _ & _ & V). apply Nat2Z.inj in Ez. subst K. rewrite V by assumption. exact Eb.
    - apply not_true_is_false. intros K. apply existsb_exists in K. destruct K as ([[k1 z] v] & Hin & Ht). cbn [fst snd] in Ht. apply andb_true_iff in Ht. destruct Ht as [Ht Hm].
      apply andb_true_iff in Ht. destruct Ht as [H1 H2]. apply Nat.eqb_eq in H1. apply Z.eqb_eq in H2. subst. destruct (Ha _ _ _ Hin) as (K & Ez & Hv & _ & _ & V). apply Nat2Z.inj in Ez. subst K.
      rewrite V in Hm by assumption. rewrite Hv, Hm in E. discriminate.
  Qed.

  Hypothesis HW : 0 < W.
  (** Few pairs of cells for each cell. *)
  Definition few (P : list npair) : Prop := forall K1 Ks, NoDup Ks -> (forall K2, In K2 Ks -> exists np, In np P /\ In K1 (np_union np) /\ In K2 (np_union np)) -> length Ks <= max_row W 0 20.
  Lemma few_rows P ess K : (forall np, In np P -> np_ok np) -> few P -> Forall2 entered P ess -> distinct_in_row K (concat ess) <= max_row W 0 20.
  Proof using Type.
    intros Hok Hf HF. unfold distinct_in_row. set (l := nodup _ _). assert (ND : NoDup l) by apply NoDup_nodup.
    assert (Hl : forall z, In z l -> exists np K2, In np P /\ z = Z.of_nat K2 /\ In K (np_union np) /\ In K2 (np_union np)).
    { intros z Hz. apply nodup_In in Hz. apply in_map_iff in Hz. destruct Hz as ([[k z'] v] & Ez & Hz). cbn [fst snd] in Ez. subst z'. apply filter_In in Hz. destruct Hz as [Hz Ek].
      cbn [fst snd] in Ek. apply Nat.eqb_eq in Ek. subst k. destruct (entered_keys P ess HF _ _ _ Hz) as (np & K2 & Hp & Ez & Hv & _). exists np, K2. split; [exact Hp|]. split; [exact Ez|].
      apply (visits_union np K K2 (Hok np Hp) Hv). }
    clearbody l. rewrite <- (map_length Z.to_nat). apply (Hf K).
    - clear -ND Hl. induction ND as [|z l Hz ND IH]; [constructor|]. cbn [map]. constructor; [|apply IH; intros; apply Hl; right; assumption].
      intros K0. apply in_map_iff in K0. destruct K0 as (y & Ey & Hy). apply Hz. destruct (Hl z (or_introl eq_refl)) as (_ & a & _ & -> & _). destruct (Hl y (or_intror Hy)) as (_ & b & _ & -> & _).
      rewrite !Nat2Z.id in Ey. subst. exact Hy.
    - intros K2 H2. apply in_map_iff in H2. destruct H2 as (z & <- & Hz). destruct (Hl z Hz) as (np & k2 & Hp & -> & H1 & H2). exists np. rewrite Nat2Z.id. auto.
  Qed.
  Lemma masks_ok maxNNZ P : (forall np, In np P -> np_ok np) -> few P -> exists pre rest d l, P = pre ++ rest /\ (P <> [] -> pre <> []) /\
    buildMasksForClusters B W dm nc symCells sym maxNNZ P = Ok (rest, d) /\ toDict N d = Ok l /\ NoDup (map fst l) /\
    (forall K1 z v, In (K1, z, v) l -> exists K2, z = Z.of_nat K2 /\ K1 < nc /\ K2 < nc /\ (symCells = true -> K1 <= K2) /\
       forall p q, p < 2 * dpe -> q < 2 * dpe -> tb v (midx sym (2 * dpe) p q) = ebit symCells sym dm pre K1 K2 p q) /\
    (forall K1 K2 p q, p < 2 * dpe -> q < 2 * dpe -> ebit symCells sym dm pre K1 K2 p q = true -> exists v, In (K1, Z.of_nat K2, v) l).
  Proof using ok HB HW.
    intros Hok Hfew. destruct (build_loop_run maxNNZ P (fun _ => 0%N, fun _ => 0%N) Hok) as (ess & HF & Hrun).
    assert (Keys : forall Q es e, Forall2 entered Q es -> In e (concat es) -> fst (fst e) < nc).
    { intros Q es [[k z] v] HQ Hin. destruct (entered_keys Q es HQ _ _ _ Hin) as (np & K2 & _ & _ & _ & H & _). exact H. }
    destruct (enters_enumerate N N.lor 0%N W nc 0 20 false true (concat ess) ltac:(lia) HW (fun e => Keys P ess e HF) (fun I => few_rows P ess I Hok Hfew HF)) as (d0 & o0 & l0 & E0 & _).
    destruct (Hrun (td_init N nc 0 20 false true) d0) as (pre & rest & es & EP & Hne & HF2 & d & Eb & Ed).
    { unfold dict_enters. rewrite E0. reflexivity. }
    assert (Hsub : forall np, In np pre -> In np P) by (intros np Hn; rewrite EP; apply in_or_app; left; exact Hn).
    destruct (enters_enumerate N N.lor 0%N W nc 0 20 false true (concat es) ltac:(lia) HW (fun e => Keys pre es e HF2)) as (d1 & o1 & l & E1 & El & Hs & Hin).
    { intros I. apply (few_rows pre); [intros; apply Hok; auto| |exact HF2]. intros K1 Ks ND HK. apply (Hfew K1 Ks ND). intros K2 H2. destruct (HK K2 H2) as (np & Hn & H). exists np. auto. }
    assert (d1 = d). { unfold dict_enters in Ed. rewrite E1 in Ed. cbn in Ed. congruence. } subst d1.
    exists pre, rest, d, l. split; [exact EP|]. split; [exact Hne|]. split; [exact Eb|]. split; [exact El|]. split; [apply sorted_nodup; exact Hs|]. split.
    - intros K1 z v Hl. apply Hin in Hl. destruct Hl as (w & t & Ev & ->).
      assert (In w (values_of K1 z (concat es))) as Hw by (rewrite Ev; left; reflexivity). unfold values_of in Hw. apply in_map_iff in Hw. destruct Hw as ([[k1 z1] v1] & Ew & Hw).
      apply filter_In in Hw. destruct Hw as [Hw Ek]. cbn [fst snd] in Ek. apply andb_true_iff in Ek. destruct Ek as [Ek1 Ek2]. apply Nat.eqb_eq in Ek1. apply Z.eqb_eq in Ek2. subst k1 z1.
      destruct (entered_keys pre es HF2 _ _ _ Hw) as (np & K2 & Hp & -> & Hv & H1 & H2). exists K2. split; [reflexivity|]. split; [exact H1|]. split; [exact H2|]. split.
      + intros Esc. apply visits_in, cell_pairs_in in Hv. rewrite Esc in Hv. tauto.
      + intros p q Hpp Hq. rewrite fold_lor_bits, <- Ev, values_bits. apply entered_bits; assumption.
    - intros K1 K2 p q Hp Hq He. rewrite <- (entered_bits pre es K1 K2 p q HF2 Hp Hq), <- values_bits in He.
      destruct (values_of K1 (Z.of_nat K2) (concat es)) as [|w t] eqn:Ev; [discriminate|]. exists (fold_left N.lor t w). apply Hin. exists w, t. auto.
  Qed.
End Dict.
