(** Refinement with the edge dictionary, with sorting, and in 1D. *)
From Coq Require Import Permutation Sorted.
From Verif Require Import Util Lin TupleDictModel TupleDictSpec TupleDictProofs TupleDictProofs2 TupleDictProofs3 MeshModel MeshSpec MeshProofs MeshProofs2.

(** ** The edge dictionary *)
Definition numbers (nv : nat) (E : list edge) (m : amap Z) : Prop :=
  forall I J v, m I J = Some v <-> exists k b, nth_error E k = Some (I, b) /\ J = Z.of_nat b /\ v = Z.of_nat (nv + k).

Definition holds (nv : nat) (E : list edge) (d : tdict Z) : Prop :=
  NoDup E /\ num_dofs d = nv /\ length_inc d = 3 /\ deleteHits d = false /\ logicalAndHits d = false /\
  exists rows, Rep 256 (fun _ => 0) d rows /\ numbers nv E (abs rows).

(** At most 255 second entries for each first one. *)
Definition few (E : list edge) : Prop := forall a bs, NoDup bs -> (forall b, In b bs -> In (a, b) E) -> length bs <= 255.
Lemma few_incl E F : few F -> (forall e, In e E -> In e F) -> few E.
Proof. intros H HI a bs Hn Hb. apply (H a bs Hn). auto. Qed.

Lemma few_card nv E m I : few E -> numbers nv E m -> row_card_le m I 255.
Proof.
  intros Hf Hm js Hn Hj. rewrite <- (map_length Z.to_nat js). apply (Hf I).
  - assert (Hp : forall j, In j js -> (0 <= j)%Z).
    { intros j H. specialize (Hj j H). destruct (m I j) as [v|] eqn:Ev; [|congruence]. apply Hm in Ev as (k & b & _ & -> & _). lia. }
    clear Hj Hm Hf. induction js as [|j js IH]; cbn; constructor.
    + intros H. apply in_map_iff in H as (j' & Ej & Hj'). inversion Hn; subst. apply Z2Nat.inj in Ej; [subst; auto| |]; apply Hp; cbn; auto.
    + inversion Hn; subst. apply IH; auto. intros x Hx. apply Hp. right; auto.
  - intros b Hb. apply in_map_iff in Hb as (j & <- & Hj'). specialize (Hj j Hj').
    destruct (m I j) as [v|] eqn:Ev; [|congruence]. apply Hm in Ev as (k & b & Hk & -> & _). rewrite Nat2Z.id. eapply nth_error_In; eauto.
Qed.

Lemma NoDup_pos {A} (l : list A) i j x : NoDup l -> nth_error l i = Some x -> nth_error l j = Some x -> i = j.
Proof. intros Hn Hi Hj. apply (proj1 (NoDup_nth_error l) Hn); [apply nth_error_Some; congruence|congruence]. Qed.

Lemma eV_step nv E d e : holds nv E d -> fst e < nv -> few (addE E e) ->
  exists s', eV_new e (d, nv + length E) = Ok s' /\ holds nv (addE E e) (fst s') /\ snd s' = nv + length (addE E e).
Proof.
  intros (HN & Hd & Hi & Hdel & Hor & rows & HR & Hm) He Hf. destruct e as [I b]. cbn [fst] in He.
  unfold eV_new, eV_enter. cbn [fst snd].
  assert (Hmode : mode_d d = KeepFirst) by (unfold mode_d; rewrite Hdel, Hor; reflexivity).
  destruct (abs rows I (Z.of_nat b)) as [w|] eqn:Ew.
  - (* present *)
    assert (Hin := Ew). apply Hm in Hin as (k & b' & Hk & Hb' & Hw). apply Nat2Z.inj in Hb'. subst b'.
    assert (Hlt : k < length E) by (apply nth_error_Some; congruence).
    rewrite (addE_in E (I, b)) in * by (eapply nth_error_In; eauto).
    destruct (enterValue_ok Z Z.lor 256 (fun _ => 0) d rows I (Z.of_nat b) (Z.of_nat (nv + length E))) as (d' & rows' & E1 & (A1 & A2 & A3 & A4) & HR' & Hm'); auto.
    + lia.
    + lia.
    + rewrite Hmode. unfold spec_enter. rewrite Ew. cbn [fst]. rewrite Hi. change (max_row 256 0 3) with 255. eapply few_card; eauto.
    + rewrite E1. cbn [bind]. rewrite Hmode in *. unfold spec_enter in *. rewrite Ew in *. cbn [fst snd] in *.
      eexists. split; [reflexivity|]. cbn [fst snd]. split.
      * split; [auto|]. rewrite A1, A2, A3, A4. repeat split; auto. exists rows'. split; auto.
        intros x y v. rewrite Hm'. apply Hm.
      * subst w. destruct (Z.eqb_spec (Z.of_nat (nv + k)) (Z.of_nat (nv + length E))); auto. lia.
  - (* absent *)
    assert (Hni : ~ In (I, b) E).
    { intros H. apply In_nth_error in H as [k Hk]. assert (X : abs rows I (Z.of_nat b) = Some (Z.of_nat (nv + k))) by (apply Hm; eauto). congruence. }
    rewrite (addE_notin E (I, b)) in * by auto.
    assert (Hput : numbers nv (E ++ [(I, b)]) (put (abs rows) I (Z.of_nat b) (Some (Z.of_nat (nv + length E))))).
    { intros x y v. unfold put. destruct (Nat.eqb_spec x I) as [->|Hx]; cbn [andb].
      - destruct (Z.eqb_spec y (Z.of_nat b)) as [->|Hy].
        + split.
          * intros Hv. inversion Hv; subst. exists (length E), b. split; auto. rewrite nth_error_app2, Nat.sub_diag by lia. reflexivity.
          * intros (k & b' & Hk & Hb' & ->). apply Nat2Z.inj in Hb'. subst b'. do 2 f_equal.
            destruct (Nat.lt_ge_cases k (length E)) as [Hl|Hl].
            -- rewrite nth_error_app1 in Hk by auto. exfalso. apply Hni. eapply nth_error_In; eauto.
            -- assert (k < length (E ++ [(I, b)])) by (apply nth_error_Some; congruence). rewrite app_length in *. cbn in *. lia.
        + rewrite (Hm I y v). split; intros (k & b' & Hk & Hb' & Hv); exists k, b'; repeat split; auto.
          * rewrite nth_error_app1; auto. apply nth_error_Some. congruence.
          * destruct (Nat.lt_ge_cases k (length E)) as [Hl|Hl]; [rewrite nth_error_app1 in Hk by auto; auto|].
            rewrite nth_error_app2 in Hk by auto. destruct (k - length E) as [|[|?]]; cbn in Hk; try discriminate. inversion Hk; subst. congruence.
      - rewrite (Hm x y v). split; intros (k & b' & Hk & Hb' & Hv); exists k, b'; repeat split; auto.
        + rewrite nth_error_app1; auto. apply nth_error_Some. congruence.
        + destruct (Nat.lt_ge_cases k (length E)) as [Hl|Hl]; [rewrite nth_error_app1 in Hk by auto; auto|].
          rewrite nth_error_app2 in Hk by auto. destruct (k - length E) as [|[|?]]; cbn in Hk; try discriminate. inversion Hk; subst. congruence. }
    destruct (enterValue_ok Z Z.lor 256 (fun _ => 0) d rows I (Z.of_nat b) (Z.of_nat (nv + length E))) as (d' & rows' & E1 & (A1 & A2 & A3 & A4) & HR' & Hm'); auto.
    + lia.
    + lia.
    + rewrite Hmode. unfold spec_enter. rewrite Ew. cbn [fst]. rewrite Hi. change (max_row 256 0 3) with 255. eapply few_card; eauto.
    + rewrite E1. cbn [bind]. rewrite Hmode in *. unfold spec_enter in *. rewrite Ew in *. cbn [fst snd] in *.
      eexists. split; [reflexivity|]. cbn [fst snd]. split.
      * split. { rewrite <- (addE_notin E (I, b)) by auto. apply addE_nodup; auto. }
        rewrite A1, A2, A3, A4. repeat split; auto. exists rows'. split; auto.
        intros x y v. rewrite Hm'. apply Hput.
      * rewrite Z.eqb_refl, app_length. cbn. lia.
Qed.

Lemma eV_init_holds nv : holds nv [] (eV_init nv).
Proof.
  split; [constructor|]. cbn. repeat split; auto. exists (repeat [] nv). split; [apply init_rep; lia|].
  intros I J v. rewrite (abs_init Z nv I J). unfold amap_empty. split; [discriminate|]. intros (k & b & H & _). destruct k; discriminate.
Qed.

Lemma eV_get_ok nv E d e k : holds nv E d -> fst e < nv -> nth_error E k = Some e -> eV_get d e = Ok (nv + k).
Proof.
  intros (HN & Hd & Hi & Hdel & Hor & rows & HR & Hm) He Hk. unfold eV_get.
  rewrite (getValue_ok Z 2147483647%Z 256 (fun _ => 0) d rows) by (auto; lia). cbn [bind]. unfold spec_get.
  assert (X : abs rows (fst e) (Z.of_nat (snd e)) = Some (Z.of_nat (nv + k))).
  { apply Hm. exists k, (snd e). rewrite <- surjective_pairing. auto. }
  rewrite X, Nat2Z.id. reflexivity.
Qed.

Lemma NoDup_map_inj {A B} (f : A -> B) l : (forall x y, In x l -> In y l -> f x = f y -> x = y) -> NoDup l -> NoDup (map f l).
Proof.
  intros Hi. induction l as [|x l IH]; intros Hn; cbn; constructor; inversion Hn; subst.
  - intros H. apply in_map_iff in H as (y & Ey & Hy). apply Hi in Ey; cbn; auto. subst. auto.
  - apply IH; auto. intros a b Ha Hb. apply Hi; right; auto.
Qed.

(** *** Enumeration *)
Definition conv (x : nat * Z * Z) : edge * nat := let '(i, j, v) := x in ((i, Z.to_nat j), Z.to_nat v).

Lemma while_next_ok {S} rows (f : edge * nat -> S -> res S) rem : forall fuel d s, at_pos Z 256 (fun _ => 0) d rows rem -> length rem < fuel ->
  while_next fuel d f s = for_list (map conv rem) f s.
Proof.
  induction rem as [|e rem IH]; intros fuel d s Hp Hf; destruct fuel as [|fuel]; try (cbn in Hf; lia).
  - pose proof (next_ok _ _ _ _ _ _ Hp) as E. cbn in E. cbn [while_next]. rewrite E. reflexivity.
  - destruct (next_ok _ _ _ _ _ _ Hp) as (d' & E & Hp'). cbn [while_next]. rewrite E. cbn [bind].
    destruct e as [[i j] v]. cbn [map conv for_list]. destruct (f (i, Z.to_nat j, Z.to_nat v) s); cbn [bind]; auto.
    apply IH; auto. cbn in Hf. lia.
Qed.

Lemma entries_items nv E rows : (forall r, In r rows -> rows_sorted r) -> NoDup E -> numbers nv E (abs rows) ->
  Permutation (map conv (entries_from Z 0 rows)) (items nv E).
Proof.
  intros Hs HN Hm.
  assert (Hin : forall i j v, In (i, j, v) (entries_from Z 0 rows) <-> abs rows i j = Some v).
  { intros i j v. rewrite entries_in by auto. rewrite Nat.sub_0_r. split; [intros [_ H]; auto|]. intros H. split; auto. lia. }
  apply NoDup_Permutation.
  - apply NoDup_map_inj.
    + intros [[i j] v] [[i' j'] v'] H1 H2 E1. apply Hin in H1, H2. apply Hm in H1 as (k & b & K1 & -> & ->). apply Hm in H2 as (k' & b' & K1' & -> & ->).
      cbn in E1. rewrite !Nat2Z.id in E1. inversion E1; subst; repeat f_equal; lia.
    + apply (NoDup_map_inv fst). rewrite entries_keys. apply keys_from_nodup; auto.
  - apply items_nodup.
  - intros [[i b] n]. rewrite items_in. rewrite in_map_iff. split.
    + intros ([[i' j] v] & E1 & H). apply Hin in H. apply Hm in H as (k & b' & K & -> & ->). cbn in E1. rewrite !Nat2Z.id in E1. inversion E1; subst. eauto.
    + intros (k & K & ->). exists (i, Z.of_nat b, Z.of_nat (nv + k)). cbn. rewrite !Nat2Z.id. split; auto. apply Hin. apply Hm. eauto.
Qed.

Lemma for_list_pair {A S T} (f : A -> S -> res S) (g : A -> T -> T) l : forall a b,
  for_list l (fun x st => n <- f x (fst st) ;; Ok (n, g x (snd st))) (a, b) = (n <- for_list l f a ;; Ok (n, fold_left (fun t x => g x t) l b)).
Proof.
  induction l as [|x l IH]; intros a b; cbn [for_list fold_left]; [reflexivity|]. cbn [fst snd].
  destruct (f x a); cbn [bind]; auto.
Qed.

Lemma lookup_built l : forall d, NoDup (map fst d ++ map enc (map fst l)) ->
  fold_left (fun t ej => dset Z.eqb t (enc (fst ej)) (snd ej)) l d = d ++ enc_items l.
Proof.
  induction l as [|[e j] l IH]; intros d Hn; cbn [fold_left enc_items map fst snd]; [rewrite app_nil_r; auto|].
  cbn [map fst] in Hn. rewrite (dset_notin Z.eqb Zeqb_spec).
  - rewrite IH.
    + rewrite <- app_assoc. reflexivity.
    + rewrite map_app, <- app_assoc. exact Hn.
  - apply NoDup_remove_2 in Hn. intros H. apply Hn. apply in_or_app; auto.
Qed.

Lemma insert_midpoints_ok dim V E d : (forall p, In p V -> length p = dim) ->
  (forall e, In e E -> fst e < length V /\ snd e < length V) -> smallE E -> holds (length V) E d ->
  exists lookup, insert_midpoints dim V d (map (map Some) V ++ alloc2 (length E) dim) = Ok (map (map Some) (refined_vertices V E), lookup) /\
    Permutation lookup (enc_items (items (length V) E)).
Proof.
  intros HV HE Hs (HN & Hd & Hi & Hdel & Hor & rows & HR & Hm). unfold insert_midpoints.
  destruct (startIter_ok Z 256 (fun _ => 0) d rows HR) as (d' & E1 & Hp). rewrite E1. cbn [bind].
  assert (Hsort : forall r, In r rows -> rows_sorted r).
  { intros r Hr. apply In_nth_error in Hr as [i Hr]. eapply Rep_sorted; eauto. }
  assert (HP := entries_items _ _ _ Hsort HN Hm).
  rewrite (while_next_ok rows _ _ _ _ _ Hp).
  2: { destruct Hp as [HR' _]. rewrite (rp_nnz _ _ _ _ _ HR'), Nat2Z.id, entries_length. lia. }
  set (l := map conv (entries_from Z 0 rows)) in *.
  rewrite (for_list_pair (fun ej new => set_midpoint dim V (fst ej) (snd ej) new) (fun ej t => dset Z.eqb t (enc (fst ej)) (snd ej))).
  assert (X := vertices_ok dim V E l HV HE HP). unfold edge in X |- *. rewrite X. cbn [bind].
  eexists. split; [reflexivity|]. rewrite lookup_built; cbn [app].
  - apply Permutation_map. exact HP.
  - cbn [map app]. apply (Permutation_NoDup (l := map enc E)).
    + apply Permutation_map. apply Permutation_sym. assert (Y := Permutation_map fst HP). rewrite items_fst in Y. exact Y.
    + apply enc_nodup; auto.
Qed.

Lemma few_neighbours_few C E : few_neighbours C -> edge_list C E -> few E.
Proof. intros H [_ HE] a bs Hn Hb. apply (H a bs Hn). intros b Hb'. apply HE. auto. Qed.

Lemma refine2_edgeVals dim V C : mesh_ok dim 3 V C -> fits_index V -> few_neighbours C ->
  exists E C' lookup, refineCy2DedgeVals dim V C = Ok (refined_vertices V E, C', lookup) /\
    edge_list C E /\ children_of 4 C C' (quarters V E) /\ Permutation lookup (enc_items (items (length V) E)).
Proof.
  intros HM HF Hfew. set (E := uniq (flat_map edges2 C)).
  assert (HE : edge_list C E).
  { apply edge_list_uniq. intros c Hc e. destruct HM as [_ HM]. destruct (HM c Hc) as [Lc _].
    destruct (length2 c Lc) as (a & b & d & ->). apply edges2_joins. }
  assert (HE' := HE). destruct HE' as [HEn HEi].
  assert (Hr : forall e, In e E -> fst e < length V /\ snd e < length V) by (intros e He; eapply edge_range; eauto; apply HEi; auto).
  unfold refineCy2DedgeVals.
  destruct (enter_cells (fun E s => holds (length V) E (fst s) /\ snd s = length V + length E) eV_new E) with
    (C := C) (ce := edges2) (s0 := (eV_init (length V), length V))
    (body := fun i st => c0 <- get2 C i 0 ;; c1 <- get2 C i 1 ;; c2 <- get2 C i 2 ;; for_list [sortE c0 c1; sortE c0 c2; sortE c1 c2] eV_new st)
    as ([d n] & Es & Hd & Hn).
  - intros E0 [d n] e [Hd Hn] He Hall. cbn [fst snd] in *. subst n.
    apply (eV_step (length V) E0 d e Hd); [apply Hr; auto|]. apply (few_incl _ E); auto. eapply few_neighbours_few; eauto.
  - intros i c s Hc. destruct (mesh_cell _ _ _ _ _ _ HM Hc) as [Lc _]. destruct (length2 c Lc) as (a & b & d & ->).
    read_cell Hc. reflexivity.
  - split; [apply eV_init_holds|cbn; lia].
  - intros e He. apply uniq_in. auto.
  - rewrite Es. cbn [bind]. fold E in Hn, Hd. cbn [fst snd] in Hn, Hd. subst n. rewrite copy_vertices_ok by apply HM. cbn [bind].
    assert (Hs : smallE E) by (eapply edge_small; eauto; intros e He; apply HEi; auto).
    destruct (insert_midpoints_ok dim V E d) as (lookup & El & Hl); auto; [apply HM|]. unfold edge in El |- *.  rewrite El. cbn [bind].
    destruct (quarters_ok dim V C E (fun e => eV_get d e) (fun i nc => c0 <- get2 C i 0 ;; c1 <- get2 C i 1 ;; c2 <- get2 C i 2 ;;
       nv0 <- eV_get d (sortE c0 c1) ;; nv1 <- eV_get d (sortE c1 c2) ;;
       nv2 <- eV_get d (sortE c0 c2) ;; put_children2 i c0 c1 c2 nv0 nv1 nv2 nc) HM HE) as (C' & EC & HC).
    + intros e k Hk. eapply eV_get_ok; eauto. apply Hr. eapply nth_error_In; eauto.
    + intros i a b c nc Hc. read_cell Hc. reflexivity.
    + rewrite EC. cbn [bind]. rewrite !all_init2_some. cbn [bind]. exists E, C', lookup. split; [reflexivity|]. split; auto.
Qed.

