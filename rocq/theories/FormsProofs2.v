(** Mass and stiffness matrices. *)
From Verif Require Import Util Lin CSRModel CSRSpec MeshModel MeshSpec BaryModel BarySpec LocalModel LocalTables LocalSpec LocalProofs LocalProofs2 LocalProofs5 LocalProofs6 LocalProofs7
  ReorderModel ReorderSpec AssemblyModel AssemblySpec AssemblyProofs2 AssemblyProofs6 FormsModel FormsSpec FormsProofs.
Set Default Proof Using "Type".
Local Open Scope Qc_scope.

Lemma read_rows_ok vs : read_rows (map (map Some) vs) = Ok vs.
Proof. induction vs as [|v vs IH]; [reflexivity|]. cbn [map read_rows]. rewrite all_init_some. cbn [bind]. rewrite IH. reflexivity. Qed.
Lemma space_shape n m : shape n m (space n m).
Proof. split; [apply repeat_length|]. intros r H. apply repeat_spec in H as ->. apply alloc_length. Qed.

Lemma functions_length d fs ps : functions d fs ps -> length fs = length ps.
Proof. unfold functions. induction 1; cbn; congruence. Qed.

Lemma triangle_length {A B} (f : A -> A -> B) l : length (upper_triangle f l) = (length l * (length l + 1) / 2)%nat.
Proof.
  assert (E : (length (upper_triangle f l) * 2 = length l * (length l + 1))%nat).
  { induction l as [|a l IH]; [reflexivity|]. cbn [upper_triangle]. rewrite app_length, map_length, Nat.mul_add_distr_r, IH. cbn [length]. ring. }
  rewrite <- E, Nat.div_mul by lia. reflexivity.
Qed.

(** A local matrix that puts together the values of a form at the functions. *)
Definition local_form (lm : local_matrix) (d : nat) (V : list (list Qc)) (C : list (list nat)) (ps : list (poly d)) (B : nat -> poly d -> poly d -> Qc) : Prop :=
  lm_needsCellInfo lm = false /\
  evaluates (lm_eval lm) (lm_dim lm) false (length ps * (length ps + 1) / 2) V C (fun i => upper_triangle (B i) ps).

Lemma mass_local d V C el lm ps Js : (1 <= d <= 3)%nat -> solid d V C -> determinants d V C Js -> el <> N1e -> functions d (shapes el d) ps -> mass_local_matrix el d = Some lm ->
  local_form lm d V C ps (fun i => mass_entry d (Js i)).
Proof.
  intros Hd HS HJ He HF HL. assert (Hps : length (shapes el d) = length ps) by (eapply functions_length; eauto).
  assert (K : lm_needsCellInfo lm = false /\ forall i c cell contrib, nth_error C i = Some c -> length contrib = (length ps * (length ps + 1) / 2)%nat ->
    exists m, lm_eval lm cell (map (map Some) (corners V c)) contrib = Ok (map Some m) /\ is_mass_matrix d (Js i) (shapes el d) m).
  { rewrite <- Hps. assert (d = 1 \/ d = 2 \/ d = 3)%nat as [-> | [-> | ->]] by lia.
    - destruct el; try congruence; cbn [mass_local_matrix] in HL; injection HL as <-; (split; [reflexivity|]);
        intros i c cell contrib Hc Hn; pose proof (HS c (nth_error_In _ _ Hc)) as H1; pose proof (HJ i c Hc) as H2;
        pose proof (mass1 _ _ contrib H1 H2) as (M0 & M1 & M2 & M3); cbn [lm_eval simplex_matrix]; rewrite read_rows_ok; cbn [bind shapes];
        [apply M0|apply M1|apply M2|apply M3]; rewrite Hn; reflexivity.
    - destruct el; try congruence; cbn [mass_local_matrix] in HL; injection HL as <-; (split; [reflexivity|]);
        intros i c cell contrib Hc Hn; pose proof (HS c (nth_error_In _ _ Hc)) as H1; pose proof (HJ i c Hc) as H2;
        pose proof (mass2 _ _ (space 3 2) contrib H1 H2 (space_shape 3 2)) as (M0 & M1 & M2 & M3); cbn [lm_eval simplex_matrix]; rewrite read_rows_ok; cbn [bind shapes];
        [apply M0|apply M1|apply M2|apply M3]; rewrite Hn; reflexivity.
    - destruct el; try congruence; cbn [mass_local_matrix] in HL; injection HL as <-; (split; [reflexivity|]);
        intros i c cell contrib Hc Hn; pose proof (HS c (nth_error_In _ _ Hc)) as H1; pose proof (HJ i c Hc) as H2;
        pose proof (mass3 _ _ (space 4 3) contrib H1 H2 (space_shape 4 3)) as (M0 & M1 & M2 & M3); cbn [lm_eval simplex_matrix]; rewrite read_rows_ok; cbn [bind shapes];
        [apply M0|apply M1|apply M2|apply M3]; rewrite Hn; reflexivity. }
  destruct K as [K1 K2]. split; [exact K1|]. intros i c cell contrib Hc _ _ Hn. destruct (K2 i c cell contrib Hc Hn) as (m & E & _ & HM).
  exists []. rewrite E, (HM ps HF), app_nil_r. split; [reflexivity|]. cbn [length]. rewrite triangle_length. lia.
Qed.

Lemma stiffness_local d V C el lm ps Js gs : (1 <= d <= 3)%nat -> solid d V C -> determinants d V C Js -> gradients d V C gs -> functions d (shapes el d) ps -> stiffness_local_matrix el d = Some lm ->
  local_form lm d V C ps (fun i => stiffness_entry d (Js i) (gs i)).
Proof.
  intros Hd HS HJ HG HF HL. assert (Hps : length (shapes el d) = length ps) by (eapply functions_length; eauto).
  assert (K : lm_needsCellInfo lm = false /\ forall i c cell contrib, nth_error C i = Some c -> length contrib = (length ps * (length ps + 1) / 2)%nat ->
    exists m, lm_eval lm cell (map (map Some) (corners V c)) contrib = Ok (map Some m) /\ is_stiffness_matrix d (Js i) (corners V c) (shapes el d) m).
  { rewrite <- Hps. assert (d = 1 \/ d = 2 \/ d = 3)%nat as [-> | [-> | ->]] by lia.
    - destruct el; try discriminate HL; cbn [stiffness_local_matrix] in HL; injection HL as <-; (split; [reflexivity|]);
        intros i c cell contrib Hc Hn; pose proof (HS c (nth_error_In _ _ Hc)) as H1; pose proof (HJ i c Hc) as H2;
        pose proof (stiffness1 _ _ contrib H1 H2) as (M1 & M2 & M3); cbn [lm_eval simplex_matrix]; rewrite read_rows_ok; cbn [bind shapes];
        [apply M1|apply M2|apply M3]; rewrite Hn; reflexivity.
    - destruct el; try discriminate HL; cbn [stiffness_local_matrix] in HL; injection HL as <-; (split; [reflexivity|]);
        intros i c cell contrib Hc Hn; pose proof (HS c (nth_error_In _ _ Hc)) as H1; pose proof (HJ i c Hc) as H2;
        pose proof (stiffness2 _ _ (alloc 6) (space 3 2) contrib H1 H2 (space_shape 3 2) eq_refl) as (M1 & M2 & M3); cbn [lm_eval simplex_matrix]; rewrite read_rows_ok; cbn [bind shapes];
        [apply M1|apply M2|apply M3]; rewrite Hn; reflexivity.
    - destruct el; try discriminate HL; cbn [stiffness_local_matrix] in HL; injection HL as <-; (split; [reflexivity|]);
        intros i c cell contrib Hc Hn; pose proof (HS c (nth_error_In _ _ Hc)) as H1; pose proof (HJ i c Hc) as H2;
        pose proof (stiffness3 _ _ (alloc 10) (space 10 3) contrib H1 H2 (space_shape 10 3) eq_refl) as (M1 & M2 & M3); cbn [lm_eval simplex_matrix]; rewrite read_rows_ok; cbn [bind shapes];
        [apply M1|apply M2|apply M3]; rewrite Hn; reflexivity. }
  destruct K as [K1 K2]. split; [exact K1|]. intros i c cell contrib Hc _ _ Hn. destruct (K2 i c cell contrib Hc Hn) as (m & E & _ & HM).
  exists []. rewrite E, (HM ps (gs i) HF (HG i c Hc)), app_nil_r. split; [reflexivity|]. cbn [length]. rewrite triangle_length. lia.
Qed.

(** What is asked of the arguments, and what the result is. *)
Section Forms.
  Variables (argsort : list nat -> list nat) (d : nat) (V : list (list Qc)) (C : list (list nat)) (nb : nat) (dm : dofmap) (ps : list (poly d)).
  Variables (st en : option nat) (bd rhs : option (list Qc)) (A : option operator) (sss_format reorder : bool) (ci : option (list nat)).
  Let n := dm_num dm.
  Let range := cell_range (length C) st en.
  Let cs := match ci with Some l => l | None => range end.
  Let fmt := match A with Some op => op_sss op | None => sss_format end.
  Hypothesis Hsort : is_argsort argsort.
  Hypothesis mok : mesh_ok d (d + 1) V C.
  Hypothesis Hdpe : dm_dpe dm = length ps.
  Hypothesis ok : dofs_ok (length C) (dm_dpe dm) n nb (dm_dofs dm).
  Hypothesis dis : dofs_distinct (dm_dpe dm) (dm_dofs dm).
  Hypothesis fit : range_fits (length C) en.
  Hypothesis few : A = None -> few_coupled (dm_dofs dm) (dm_dofs dm) (dm_dpe dm) (dm_dpe dm) range.
  Hypothesis Hn : A = None -> reorder = true -> (0 < n)%nat.
  Hypothesis Hbd : forall g, bd = Some g -> (nb <= length g)%nat.
  Hypothesis Hrhs : forall r, rhs = Some r -> length r = n.
  Hypothesis HA : forall op, A = Some op -> op_ok n op /\ forall I J, coupled (dm_dofs dm) (dm_dofs dm) (dm_dpe dm) (dm_dpe dm) range I J -> op_stores op I J.
  Hypothesis Hci : forall l, ci = Some l -> bd = None /\ fmt = false /\ forall i, In i l -> In i range.

  Variables (lm : local_matrix) (B : nat -> poly d -> poly d -> Qc).
  Hypothesis HB : forall i, bilinear d (B i).
  Hypothesis HL : local_form lm d V C ps B.

  Lemma forms_all : exists op dm' r, assembleMatrix d d V C argsort lm dm bd rhs A st en sss_format reorder ci = Ok (op, dm', r) /\
    renumbered dm dm' /\ ((A <> None \/ reorder = false \/ dm_reordered dm = true) -> dm' = dm) /\
    op_sss op = fmt /\ op_ok n op /\
    (forall v u, form n (op_matrix op) v u = (match A with Some op0 => form n (op_matrix op0) v u | None => 0 end) +
      suml (map (fun i => B i (on_cell d ps (dm_dofs dm') (interior v) i) (on_cell d ps (dm_dofs dm') (interior u) i)) cs)) /\
    match bd with
    | Some g => exists r', r = Some r' /\ length r' = n /\ forall v, sumf n (fun I => v I * vat r' I) =
        (match rhs with Some r0 => sumf n (fun I => v I * vat r0 I) | None => 0 end) -
        suml (map (fun i => B i (on_cell d ps (dm_dofs dm') (interior v) i) (on_cell d ps (dm_dofs dm') (lifting g) i)) cs)
    | None => r = rhs
    end.
  Proof using All.
    destruct HL as [HL1 HL2]. set (loc := fun i j k => B i (nth j ps (pconst d 0)) (nth k ps (pconst d 0))).
    destruct (assembleMatrix_ok argsort d d V C Hsort mok nb dm ok dis lm false loc) with (st := st) (en := en) (bd := bd) (rhs := rhs) (A := A) (sss_format := sss_format) (reorder := reorder) (ci := ci)
      as (op & dm' & r & E & HR & Hid & Hf & Hop & _ & HM & Hr); auto.
    - rewrite Hdpe. intros i c cell contrib Hc Hl Hi Hk. destruct (HL2 i c cell contrib Hc Hl Hi Hk) as (rest & E & Hs). exists rest. unfold loc. rewrite triangle_nth. auto.
    - rewrite HL1. discriminate.
    - intros i j k _ _ _. unfold loc. apply (bl_sym d _ (HB i)).
    - discriminate.
    - destruct (renumbered_facts _ _ _ _ ok dis HR) as (E1 & E2 & ok' & _).
      exists op, dm', r. split; [exact E|]. split; [exact HR|]. split; [exact Hid|]. split; [exact Hf|]. split; [exact Hop|]. split.
      + intros v u. rewrite (form_ext n _ _ v u HM), form_plus. f_equal; [destruct A; [reflexivity|unfold form; apply sumf_zero; intros; apply sumf_zero; intros; ring]|].
        fold range. fold cs. rewrite E2 in ok'. rewrite E1 in ok'. etransitivity; [apply (assembled_form _ _ _ _ _ cs loc v u ok')|]. apply f_equal. apply map_ext. intros i. rewrite (bl_on_cell d (B i)) by auto.
        rewrite Hdpe. reflexivity.
      + destruct bd as [g|]; [|exact Hr]. destruct Hr as (r' & Er & Hlr & HV). exists r'. split; [exact Er|]. split; [exact Hlr|]. intros v.
        rewrite (sumf_ext n _ (fun I => v I * (match rhs with Some r0 => vat r0 I | None => 0 end) - v I * boundary_action (dm_dofs dm') (dm_dpe dm) cs loc g I)).
        * rewrite sumf_minus. f_equal; [destruct rhs; [reflexivity|apply sumf_zero; intros; ring]|].
          rewrite E2 in ok'. rewrite E1 in ok'. etransitivity; [apply (boundary_form _ _ _ _ _ cs loc g v ok')|]. apply f_equal. apply map_ext. intros i. rewrite (bl_on_cell d (B i)) by auto. rewrite Hdpe. reflexivity.
        * intros I HI. rewrite (HV I HI). fold range. fold cs. ring.
  Qed.
End Forms.
