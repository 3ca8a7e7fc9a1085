(** Every expression: products and residuals. *)
From Verif Require Import Util Lin CSRModel CSRSpec CSRProofs DenseModel DenseSpec DenseProofs SmootherModel CompModel CompSpec CompProofs CompProofs2 CompProofs3 CompProofs4 CompProofs5 CompProofs6.
Local Open Scope Qc_scope.

Lemma kernel_assign x y xs h : v_buf x <> v_buf y -> inside h x -> inside h y -> contents h x = map Some xs -> v_len x = v_len y ->
  exists h', kernel (fun xs ys => assign ys xs) x y h = Ok h' /\ contents h' y = map Some xs /\ only h h' (touches y).
Proof.
  intros N Ix Iy Cx Hl. assert (L : length xs = v_len x) by (rewrite <- (contents_length h x Ix), Cx, map_length; reflexivity).
  apply kernel_ok with (xs := xs); auto.
  - apply assign_ok. rewrite contents_length by auto. lia.
  - rewrite map_length. lia.
Qed.
Lemma as_tab (l : list Qc) n : length l = n -> l = tab n (vat l).
Proof. intros <-. apply list_eq_tab. Qed.

Lemma base_residual_ok lens T n m A mv0 : performs lens T n m A false mv0 -> computes_residual lens T n m A (base_residual mv0).
Proof.
  intros P x rhs r xs bs h simple Ar Hl Ib Cb Nb Nbr. pose proof Ar as (HT & Hx & Hy & Ix & Iy & Cx & Cy & Nx & Ny & Nxy).
  assert (L : length bs = n) by (rewrite <- Hl, <- (contents_length h rhs Ib), Cb, map_length; reflexivity).
  unfold base_residual. destruct simple.
  - destruct (kernel_assign rhs r bs h Nbr Ib Iy Cb ltac:(lia)) as (h' & E & C & O). exists h'. split; [exact E|]. split; [rewrite C; f_equal; apply as_tab; auto|].
    eapply only_weaken; [exact O|auto].
  - destruct (P x r xs [] h Ar) as (h1 & E1 & C1 & O1). rewrite E1, bind_Ok.
    destruct (v_assign3_ok r (-(1)) rhs 1 _ bs h1 (only_inside _ _ _ _ O1 Iy) (only_inside _ _ _ _ O1 Ib) C1) as (h2 & E2 & C2 & O2).
    + rewrite <- Cb. eapply only_contents; [exact O1|]. intros k _ [H|(H & _)]; auto.
    + lia.
    + exists h2. split; [exact E2|]. split; [|eapply only_trans; [exact O1|eapply only_weaken; [exact O2|auto]]].
      rewrite C2, Hy. apply some_tab. intros i Hi. rewrite vat_tab by auto. ring.
Qed.
Lemma csr_residual_ok' lens n m A : wf_csr n m A -> computes_residual lens [] n m (matrix A) (l_res (csr_op A)).
Proof.
  intros wf x rhs r xs bs h simple Ar Hl Ib Cb Nb Nbr. pose proof (args_inlen _ _ _ _ _ _ _ _ _ _ Ar) as Lx. pose proof Ar as (HT & Hx & Hy & Ix & Iy & Cx & Cy & Nx & Ny & Nxy).
  assert (L : length bs = n) by (rewrite <- Hl, <- (contents_length h rhs Ib), Cb, map_length; reflexivity).
  cbn [l_res csr_op]. destruct simple.
  - destruct (kernel_assign rhs r bs h Nbr Ib Iy Cb ltac:(lia)) as (h' & E & C & O). exists h'. split; [exact E|]. split; [rewrite C; f_equal; apply as_tab; auto|].
    eapply only_weaken; [exact O|auto].
  - pose proof Nxy as Nxy'. apply Nat.eqb_neq in Nxy'. rewrite Nxy'. cbn [negb guard]. rewrite bind_Ok, (vread_ok h x Ix), bind_Ok, Cx, all_init_some, bind_Ok.
    destruct (csr_kernels_ok n m A false xs wf Lx) as (_ & _ & R).
    destruct (kernel_ok (fun b ys => spres A xs b ys) rhs r bs h (map Some (tab n (fun i => vat bs i - mv m (matrix A) (vat xs) i))) Nbr Ib Iy Cb) as (h' & E & C & O).
    + apply (R bs (contents h r)); auto. rewrite contents_length; auto.
    + rewrite map_length, tab_length. auto.
    + exists h'. split; [exact E|]. split; [exact C|]. eapply only_weaken; [exact O|auto].
Qed.
Lemma residual_weaken lens T T2 n m A f : computes_residual lens T2 n m A f -> incl T2 T -> computes_residual lens T n m A f.
Proof.
  intros P Hi x rhs r xs bs h simple Ar Hl Ib Cb Nb Nbr.
  destruct (P x rhs r xs bs h simple (args_weaken _ _ _ _ _ _ _ _ _ _ _ Ar Hi) Hl Ib Cb) as (h' & E & C & O); auto.
  exists h'. split; [auto|]. split; [auto|]. eapply only_weaken; [exact O|]. intros id k [H|H]; auto.
Qed.

Lemma mv_mm n m A B x i : mv m (mm n A B) x i = mv n A (mv m B x) i.
Proof.
  unfold mv, mm. transitivity (sumf m (fun j => sumf n (fun l => A i l * (B l j * x j)))).
  - apply sumf_ext. intros j _. rewrite <- sumf_scal_r. apply sumf_ext. intros; ring.
  - rewrite sumf_swap. apply sumf_ext. intros l _. rewrite sumf_scal. reflexivity.
Qed.

(** The residual of a product *)
Lemma product_residual_ok lens TA TB A B n k m MA MB o t :
  l_cols A = k -> l_rows B = k -> l_cols B = m ->
  performs lens TB k m MB false (l_mv B false false) -> computes_residual lens TA n k MA (l_res A) ->
  ~ In t (TA ++ TB) -> (k <= lens t)%nat -> new_product A B t = Ok o ->
  computes_residual lens (t :: TA ++ TB) n m (mm k MA MB) (l_res o).
Proof.
  intros Am Bn Bm P R Nt Lt Eo x rhs r xs bs h simple Ar Hl Ib Cb Nb Nbr.
  assert (IA : incl TA (t :: TA ++ TB)) by (intros u Hu; right; apply in_or_app; auto).
  assert (IB : incl TB (t :: TA ++ TB)) by (intros u Hu; right; apply in_or_app; auto).
  assert (NA : ~ In t TA) by (intros H; apply Nt, in_or_app; auto).
  assert (NB : ~ In t TB) by (intros H; apply Nt, in_or_app; auto).
  assert (It : In t (t :: TA ++ TB)) by (left; auto).
  unfold new_product in Eo. rewrite Am, Bn, Nat.eqb_refl in Eo. cbn [guard] in Eo. rewrite bind_Ok in Eo. injection Eo as <-. cbn [l_res].
  set (tv := View t 0 k). pose proof Ar as (HT & Hx & Hy & Ix & Iy & Cx & Cy & Nx & Ny & Nxy).
  assert (Ar' : arguments lens TB k m false x tv xs [] h) by (eapply args_scratch; eauto).
  destruct (P x tv xs [] h Ar') as (h1 & E1 & C1 & O1).
  unfold call. rewrite Bm, Hx, Nat.eqb_refl. cbn [guard]. rewrite bind_Ok, Bn. cbn [v_len tv]. rewrite Nat.eqb_refl. cbn [guard]. rewrite bind_Ok. fold tv. rewrite E1, bind_Ok.
  assert (O1' : only h h1 (fun id _ => In id (t :: TA ++ TB))) by (eapply only_weaken; [exact O1|intros id c [H|(-> & _)]; auto]).
  assert (Ar1 : arguments lens TA n k false tv r (tab k (fun i => 0 + mv m MB (vat xs) i)) [] h1).
  { split; [intros id Hid; rewrite (proj1 O1'); auto|]. split; [auto|]. split; [auto|].
    split; [unfold inside; rewrite (proj1 O1'); cbn; specialize (HT _ It); lia|]. split; [eapply only_inside; eauto|]. split; [exact C1|]. split; [discriminate|].
    split; [auto|]. split; [auto|]. cbn [v_buf tv]. intros E. apply Ny. rewrite <- E. auto. }
  destruct (R tv rhs r _ bs h1 simple Ar1 Hl) as (h2 & E2 & C2 & O2); auto.
  - eapply only_inside; eauto.
  - rewrite <- Cb. eapply only_contents; [exact O1'|]. auto.
  - exists h2. split; [exact E2|]. split.
    + rewrite C2. apply some_tab. intros i Hi. destruct simple; [reflexivity|]. f_equal. rewrite mv_mm. unfold mv at 1 3. apply sumf_ext. intros j Hj. rewrite vat_tab by auto. ring.
    + eapply only_trans; [eapply only_weaken; [exact O1'|auto]|eapply only_weaken; [exact O2|intros id c [H|H]; auto]].
Qed.

Definition sound (lens : nat -> nat) (e : expr) : Prop :=
  exists o, build e = Ok o /\ stands lens e o /\
    (offers e false false = true -> computes_residual lens (scratch e) (fst (dims e)) (snd (dims e)) (meaning e) (l_res o)).

Lemma plain_sound lens e o : build e = Ok o -> stands lens e o -> l_res o = base_residual (l_mv o false false) -> sound lens e.
Proof.
  intros E S R. exists o. split; [exact E|]. split; [exact S|]. intros H. rewrite R. apply base_residual_ok. apply (proj2 (proj2 S) false false H).
Qed.

Theorem build_sound lens e : ok lens e -> sound lens e.
Proof.
  induction e as [A|A|A|d|n m|n a|M K fS fM z IHM IHK|A f IH|A B t IHA IHB|A IH|rows t IH|ops cs z IH] using expr_all; cbn [ok]; intros H.
  - exists (csr_op A). split; [reflexivity|]. split.
    + split; [reflexivity|]. split; [apply H|]. intros tr a _. apply csr_performs, H.
    + intros _. apply csr_residual_ok', H.
  - eapply plain_sound; [reflexivity| |reflexivity]. pose proof H as (wfr & _). cbn [fst dims] in wfr. 
    split; [cbn [l_rows sss_op plain dims fst]; unfold s_nrows; destruct wfr as (-> & _); lia|].
    split; [cbn [l_cols sss_op plain dims snd]; unfold s_nrows; destruct wfr as (-> & _); lia|].
    intros tr a _. pose proof (sss_performs lens (length (s_diag A)) A tr a H) as P. destruct tr; exact P.
  - eapply plain_sound; [reflexivity| |reflexivity]. split; [reflexivity|]. split; [reflexivity|].
    intros tr a Ha. apply dense_performs; [exact H|]. intros Hta. cbn [offers] in Ha. rewrite Hta in Ha. cbn in Ha. apply Nat.eqb_eq, Ha.
  - eapply plain_sound; [reflexivity| |reflexivity]. split; [reflexivity|]. split; [reflexivity|].
    intros tr a Ha. destruct tr; [discriminate|]. apply diag_performs.
  - eapply plain_sound; [reflexivity| |reflexivity]. split; [reflexivity|]. split; [reflexivity|].
    intros tr a Ha. destruct tr; [discriminate|]. apply null_performs.
  - eapply plain_sound; [reflexivity| |reflexivity]. split; [reflexivity|]. split; [reflexivity|].
    intros tr b Ha. destruct tr; [discriminate|]. apply identity_performs.
  - destruct H as (HM & HK & Hd & Lz & Nz). destruct (IHM HM) as (oM & EM & SM & _). destruct (IHK HK) as (oK & EK & SK & _).
    unfold stands in SK. rewrite Hd in SK.
    destruct (step_represents lens _ oM oK _ _ _ _ _ _ fS fM z _ _ SM SK Nz Lz eq_refl) as (o & Eo & S).
    eapply plain_sound; [cbn [build]; rewrite EM, bind_Ok, EK, bind_Ok; exact Eo|exact S|].
    unfold new_timestepper in Eo. destruct (_ =? _)%nat in Eo; [|discriminate]. cbn [guard] in Eo. rewrite bind_Ok in Eo. destruct (_ =? _)%nat in Eo; [|discriminate].
    cbn [guard] in Eo. rewrite bind_Ok in Eo. injection Eo as <-. reflexivity.
  - destruct (IH H) as (o & E & S & _). eapply plain_sound; [cbn [build]; rewrite E; reflexivity| |reflexivity]. apply (multiply_represents lens _ _ _ _ _ _ f S).
  - destruct H as (HA & HB & Hd & Lt & Nt). destruct (IHA HA) as (oA & EA & SA & RA). destruct (IHB HB) as (oB & EB & SB & RB).
    pose proof SB as SB'. unfold stands in SB'. rewrite <- Hd in SB'.
    destruct (product_represents lens _ _ _ oA oB _ _ _ _ _ _ _ t SA SB' Nt Lt eq_refl) as (o & Eo & S).
    exists o. split; [cbn [build]; rewrite EA, bind_Ok, EB, bind_Ok; exact Eo|]. split; [exact S|]. cbn [offers]. intros Hav. apply andb_prop in Hav. destruct Hav as (HvB & HvA).
    cbn [scratch dims fst snd meaning]. destruct SA as (An & Am & PA). destruct SB' as (Bn & Bm & PB).
    eapply product_residual_ok; eauto. apply (PB false false HvB).
  - destruct (IH H) as (o & E & S & _). eapply plain_sound; [cbn [build]; rewrite E; reflexivity| |reflexivity]. apply (transpose_represents lens _ _ _ _ _ _ S).
  - destruct H as (Hall & Hne & Hne' & Hw & Hh & Lt & Nt).
    destruct (sequence_ok (fun row => sequence (map build row)) (Forall2 (stands lens)) rows) as (ops & E & F).
    { intros row Hr. apply sequence_ok. intros e He. rewrite Forall_forall in IH. specialize (IH row Hr). rewrite Forall_forall in IH. destruct (IH e He) as (o & Eo & S & _).
      - pose proof (all_In _ (all (map (ok lens) row)) Hall (in_map _ _ _ Hr)) as Hr'. apply (all_In _ _ Hr'), in_map, He.
      - exists o. auto. }
    destruct (block_represents lens rows ops t F Hne Hne' Hw Hh Lt Nt) as (o & Eo & S & R).
    eapply plain_sound; [cbn [build]; rewrite E, bind_Ok; exact Eo|exact S|exact R].
  - destruct H as (Hall & Hne & Hc & Hd & Lz & Nz).
    destruct (sequence_ok build (stands lens) ops) as (os & E & F).
    { intros e He. rewrite Forall_forall in IH. destruct (IH e He) as (o & Eo & S & _); [apply (all_In _ _ Hall), in_map, He|]. exists o. auto. }
    destruct (sum_represents lens ops os cs z (fst (dims (ESum ops cs z))) (snd (dims (ESum ops cs z))) F Hne Hc) as (o & Eo & S); auto.
    { intros e He. rewrite (Hd e He). apply surjective_pairing. }
    eapply plain_sound; [cbn [build]; rewrite E, bind_Ok; exact Eo|exact S|].
    unfold new_sum in Eo. destruct os as [|o0 rest]; [discriminate|]. destruct (_ =? _)%nat in Eo; [|discriminate]. cbn [guard] in Eo. rewrite bind_Ok in Eo.
    destruct (for_list _ _ _) in Eo; [|discriminate]. rewrite bind_Ok in Eo. injection Eo as <-. reflexivity.
Qed.
