(** Statements about expressions. *)
From Verif Require Import Util Lin CSRModel CSRSpec DenseModel DenseSpec SmootherModel CompModel CompSpec CompProofs CompProofs2 CompProofs3 CompProofs4 CompProofs5 CompProofs6 CompProofs7 CompProofs8 CompProofs9.
Local Open Scope Qc_scope.
Set Default Proof Using "Type".

Lemma call_performs lens T n m A o (tr a : bool) : (if tr then l_cols o else l_rows o) = n -> (if tr then l_rows o else l_cols o) = m ->
  performs lens T n m A a (l_mv o tr a) -> performs lens T n m A a (call o a tr).
Proof.
  intros Hn Hm P x y xs ys h Ha. pose proof Ha as (_ & Lx & Ly & _). unfold call. destruct tr; rewrite Hn, Hm, Lx, Ly, !Nat.eqb_refl; cbn [guard]; rewrite !bind_Ok; apply (P x y xs ys h Ha).
Qed.
Lemma products_ok lens e : ok lens e -> exists o, build e = Ok o /\ l_rows o = fst (dims e) /\ l_cols o = snd (dims e) /\
  forall tr a : bool, offers e tr a = true ->
  performs lens (scratch e) (if tr then snd (dims e) else fst (dims e)) (if tr then fst (dims e) else snd (dims e)) (if tr then mt (meaning e) else meaning e) a (call o a tr).
Proof.
  intros H. destruct (build_sound lens e H) as (o & E & (Rn & Rm & P) & _). exists o. split; [exact E|]. split; [exact Rn|]. split; [exact Rm|].
  intros tr a Hv. apply call_performs; [destruct tr; auto|destruct tr; auto|exact (P tr a Hv)].
Qed.
Lemma residual_ok lens e : ok lens e -> offers e false false = true -> exists o, build e = Ok o /\
  computes_residual lens (scratch e) (fst (dims e)) (snd (dims e)) (meaning e) (l_res o).
Proof. intros H Hv. destruct (build_sound lens e H) as (o & E & _ & R). exists o. auto. Qed.
Lemma dense_ok lens e : ok lens e -> offers e false false = true -> exists o, build e = Ok o /\
  forall x B h, ~ In x (scratch e) -> ~ In B (scratch e) -> x <> B ->
  (forall id, In id (scratch e) -> (lens id <= length (nth id h []))%nat) -> (snd (dims e) <= length (nth x h []))%nat -> (fst (dims e) * snd (dims e) <= length (nth B h []))%nat ->
  exists h', getDenseOpFromApply o x B h = Ok h' /\
    forall i j, (i < fst (dims e))%nat -> (j < snd (dims e))%nat -> nth_error (nth B h' []) (j * fst (dims e) + i) = Some (Some (meaning e i j)).
Proof.
  intros H Hv. destruct (build_sound lens e H) as (o & E & (Rn & Rm & P) & _). exists o. split; [exact E|]. intros x B h Nx NB NxB HT Hx HB.
  destruct (dense_copy lens (scratch e) _ _ (meaning e) o x B Rn Rm (P false false Hv) Nx NB NxB h HT Hx HB) as (h' & E' & C & _).
  exists h'. split; [exact E'|]. intros i j Hi Hj. pose proof (nth_error_contents h' (View B 0 (fst (dims e) * snd (dims e))) (j * fst (dims e) + i)) as N.
  rewrite C, nth_error_map in N. cbn [v_len v_off v_buf Nat.add] in N.
  assert (Hb : (j * fst (dims e) + i < fst (dims e) * snd (dims e))%nat) by nia.
  rewrite nth_error_tab in N by exact Hb. destruct (Nat.ltb_spec (j * fst (dims e) + i) (fst (dims e) * snd (dims e))); [|lia]. cbn [option_map] in N. rewrite <- N. do 3 f_equal.
  - symmetry. apply (Nat.mod_unique _ _ j i); lia.
  - symmetry. apply (Nat.div_unique _ _ j i); lia.
Qed.

(** A product A B used as preconditioned operator: A (b - B x). *)
Lemma preconditioned_ok lens A B t : ok lens (EProduct A B t) -> offers A false false = true -> offers B false false = true ->
  exists oA oB, build A = Ok oA /\ build B = Ok oB /\
  forall x rhs r xs bs h simple, arguments lens (scratch (EProduct A B t)) (fst (dims A)) (snd (dims B)) false x r xs [] h ->
  v_len rhs = fst (dims B) -> inside h rhs -> contents h rhs = map Some bs -> ~ In (v_buf rhs) (scratch (EProduct A B t)) ->
  exists h', product_preconditionedResidual oA oB t x rhs r simple h = Ok h' /\
    contents h' r = map Some (tab (fst (dims A)) (mv (snd (dims A)) (meaning A) (fun i => if simple then vat bs i else vat bs i - mv (snd (dims B)) (meaning B) (vat xs) i))) /\
    only h h' (fun id k => In id (scratch (EProduct A B t)) \/ touches r id k).
Proof.
  intros (HA & HB & Hd & Lt & Nt) VA VB. destruct (products_ok lens A HA) as (oA & EA & RA & CA & PA). destruct (residual_ok lens B HB VB) as (oB & EB & PB).
  specialize (PA false false VA). cbv iota in PA. exists oA, oB. split; [exact EA|]. split; [exact EB|].
  intros x rhs r xs bs h simple (HT & Lx & Lr & Ix & Ir & Cx & _ & Nx & Nr & Nxr) Lb Ib Cb Nb. cbn [scratch] in *.
  unfold product_preconditionedResidual. rewrite CA. cbv zeta. set (tv := View t 0 (snd (dims A))).
  assert (sub : forall id, In id (scratch B) -> In id (t :: scratch A ++ scratch B)) by (intros; right; apply in_or_app; auto).
  assert (sua : forall id, In id (scratch A) -> In id (t :: scratch A ++ scratch B)) by (intros; right; apply in_or_app; auto).
  destruct (PB x rhs tv xs bs h simple) as (h1 & E1 & C1 & O1); auto.
  { split; [auto|]. split; [auto|]. split; [cbn; auto|]. split; [auto|]. split; [unfold inside; cbn; transitivity (lens t); [auto|apply HT; left; auto]|].
    split; [auto|]. split; [discriminate|]. split; [auto|]. split; [cbn; intros H; apply Nt, in_or_app; auto|]. cbn. intros H. apply Nx. left. auto. }
  { cbn. intros H. apply Nb. left. auto. }
  rewrite E1, bind_Ok.
  destruct (PA tv r (tab (fst (dims B)) (fun i => if simple then vat bs i else vat bs i - mv (snd (dims B)) (meaning B) (vat xs) i)) [] h1) as (h2 & E2 & C2 & O2).
  { split; [intros id Hid; rewrite (proj1 O1); auto|]. split; [reflexivity|]. split; [auto|].
    split; [unfold inside; rewrite (proj1 O1); cbn; transitivity (lens t); [auto|apply HT; left; auto]|]. split; [unfold inside; rewrite (proj1 O1); auto|].
    split; [exact C1|]. split; [discriminate|]. split; [cbn; intros H; apply Nt, in_or_app; auto|]. split; [auto|]. cbn. intros H. apply Nr. left. auto. }
  exists h2. split; [exact E2|]. split.
  - rewrite C2. f_equal. apply tab_ext. intros i Hi. rewrite Qcplus_0_l. unfold mv at 1 4. apply sumf_ext. intros j Hj. rewrite Hd in Hj. rewrite vat_tab by auto. reflexivity.
  - eapply only_trans; [eapply only_weaken; [exact O1|]|eapply only_weaken; [exact O2|]].
    + intros id k [H|(H & _)]; left; [auto|left; auto].
    + intros id k [H|H]; auto.
Qed.
