(** The assembled forms: statements, and what follows for constants. *)
From Verif Require Import Util Lin CSRModel CSRSpec MeshModel MeshSpec BaryModel BarySpec LocalModel LocalTables LocalSpec LocalProofs LocalProofs2 LocalProofs4 LocalProofs5 LocalProofs6 LocalProofs7
  ReorderModel ReorderSpec AssemblyModel AssemblySpec AssemblyProofs2 AssemblyProofs6 FormsModel FormsSpec FormsProofs FormsProofs2.
Set Default Proof Using "Type".
Local Open Scope Qc_scope.

Lemma mass_has d el : (1 <= d <= 3)%nat -> el <> N1e -> exists lm, mass_local_matrix el d = Some lm.
Proof. intros H He. destruct d as [|[|[|[|d]]]]; try lia; destruct el; try congruence; eexists; reflexivity. Qed.
Lemma stiffness_has d el : (1 <= d <= 3)%nat -> el <> N1e -> el <> P0 -> exists lm, stiffness_local_matrix el d = Some lm.
Proof. intros H He He'. destruct d as [|[|[|[|d]]]]; try lia; destruct el; try congruence; eexists; reflexivity. Qed.

Lemma mass_form argsort d el V C nb dm bd rhs A st en sss_format reorder ci ps Js : (1 <= d <= 3)%nat -> el <> N1e ->
  arguments_ok argsort d V C (length (shapes el d)) nb dm bd rhs A st en sss_format reorder ci ->
  solid d V C -> determinants d V C Js -> functions d (shapes el d) ps ->
  exists op dm' r, assembleMass d V C argsort el dm bd rhs A st en sss_format reorder ci = Ok (op, dm', r) /\
    represents_form d C (fun i p q => Js i * integral d (pmul d p q)) (on_cell d ps) dm bd rhs A st en sss_format reorder ci op dm' r.
Proof.
  intros Hd He (H1 & H2 & H3 & H4 & H5 & H6 & H7 & H8 & H9 & H10 & H11 & H12) HS HJ HF. unfold assembleMass.
  destruct (mass_has d el Hd He) as (lm & EL). rewrite EL. pose proof (mass_local d V C el lm ps Js Hd HS HJ He HF EL) as HL.
  pose proof (functions_length _ _ _ HF) as Hps. rewrite <- H3 in H4, H5, H7, H11. rewrite Hps in H3.
  exact (forms_all argsort d V C nb dm ps st en bd rhs A sss_format reorder ci H1 H2 H3 H4 H5 H6 H7 H8 H9 H10 H11 H12 lm _ (fun i => bilinear_mass d (Js i)) HL).
Qed.
Lemma stiffness_form argsort d el V C nb dm bd rhs A st en sss_format reorder ci ps Js gs : (1 <= d <= 3)%nat -> el <> N1e -> el <> P0 ->
  arguments_ok argsort d V C (length (shapes el d)) nb dm bd rhs A st en sss_format reorder ci ->
  solid d V C -> determinants d V C Js -> gradients d V C gs -> functions d (shapes el d) ps ->
  exists op dm' r, assembleStiffness d V C argsort el dm bd rhs A st en sss_format reorder ci = Ok (op, dm', r) /\
    represents_form d C (fun i => stiffness_entry d (Js i) (gs i)) (on_cell d ps) dm bd rhs A st en sss_format reorder ci op dm' r.
Proof.
  intros Hd He He' (H1 & H2 & H3 & H4 & H5 & H6 & H7 & H8 & H9 & H10 & H11 & H12) HS HJ HG HF. unfold assembleStiffness.
  destruct (stiffness_has d el Hd He He') as (lm & EL). rewrite EL. pose proof (stiffness_local d V C el lm ps Js gs Hd HS HJ HG HF EL) as HL.
  pose proof (functions_length _ _ _ HF) as Hps. rewrite <- H3 in H4, H5, H7, H11. rewrite Hps in H3.
  exact (forms_all argsort d V C nb dm ps st en bd rhs A sss_format reorder ci H1 H2 H3 H4 H5 H6 H7 H8 H9 H10 H11 H12 lm _ (fun i => bilinear_stiffness d (Js i) (gs i)) HL).
Qed.

(** ** Edge elements *)
Lemma integral_psum d n m f g (a b : nat -> Qc) :
  integral d (pmul d (psum d n (fun e => pscale d (a e) (f e))) (psum d m (fun e => pscale d (b e) (g e)))) =
  sumf n (fun e => sumf m (fun e' => a e * b e' * integral d (pmul d (f e) (g e')))).
Proof.
  assert (E : forall p q, integral d (pmul d p q) = mass_entry d 1 p q) by (intros; unfold mass_entry; ring).
  rewrite E, (bl_psum d _ n) by apply bilinear_mass. apply sumf_ext. intros e _. rewrite (bl_sym _ _ (bilinear_mass d 1)), (bl_psum d _ m) by apply bilinear_mass.
  apply sumf_ext. intros e' _. rewrite (bl_scale _ _ (bilinear_mass d 1)), (bl_sym _ _ (bilinear_mass d 1)), (bl_scale _ _ (bilinear_mass d 1)), E. ring.
Qed.
Lemma field_sum J gs C dofs cf cf' i :
  field_product 2 J gs (field_on_cell C dofs cf i) (field_on_cell C dofs cf' i) =
  sumf 3 (fun e => sumf 3 (fun e' => cf (dof dofs i e) * field_product 2 J gs (nth e (edge_fields (nth i C [])) []) (nth e' (edge_fields (nth i C [])) []) * cf' (dof dofs i e'))).
Proof.
  unfold field_product.
  assert (N : forall cf k, (k < 3)%nat -> nth k (field_on_cell C dofs cf i) (pconst 2 0) =
    psum 2 3 (fun e => pscale 2 (cf (dof dofs i e)) (nth k (nth e (edge_fields (nth i C [])) []) (pconst 2 0)))).
  { intros c k Hk. unfold field_on_cell. destruct k as [|[|[|k]]]; [reflexivity|reflexivity|reflexivity|lia]. }
  transitivity (J * sumf 3 (fun k => sumf 3 (fun m => sumf 3 (fun e => sumf 3 (fun e' =>
    vdot 2 (nth k (all_gradients 2 gs) []) (nth m (all_gradients 2 gs) []) * (cf (dof dofs i e) * cf' (dof dofs i e') *
    integral 2 (pmul 2 (nth k (nth e (edge_fields (nth i C [])) []) (pconst 2 0)) (nth m (nth e' (edge_fields (nth i C [])) []) (pconst 2 0))))))))).
  { f_equal. apply sumf_ext. intros k Hk. apply sumf_ext. intros m Hm. rewrite !N by auto. rewrite integral_psum, <- sumf_scal. apply sumf_ext. intros e _. rewrite <- sumf_scal. reflexivity. }
  cbn [sumf]. ring.
Qed.

Lemma edge_mass_form argsort V C nb dm rhs A st en reorder Js gs :
  arguments_ok argsort 2 V C 3 nb dm None rhs A st en false reorder None -> (forall op, A = Some op -> op_sss op = false) ->
  solid 2 V C -> determinants 2 V C Js -> gradients 2 V C gs ->
  exists op dm' r, assembleMass 2 V C argsort N1e dm None rhs A st en false reorder None = Ok (op, dm', r) /\
    represents_form 2 C (fun i => field_product 2 (Js i) (gs i)) (field_on_cell C) dm None rhs A st en false reorder None op dm' r.
Proof.
  intros (H1 & H2 & H3 & H4 & H5 & H6 & H7 & H8 & H9 & H10 & H11 & H12) Hfmt HS HJ HG. unfold assembleMass. cbn [mass_local_matrix].
  set (lm := cell_matrix true _). set (loc := fun i j k => field_product 2 (Js i) (gs i) (nth j (edge_fields (nth i C [])) []) (nth k (edge_fields (nth i C [])) [])).
  assert (Hlen : forall c, length (edge_fields c) = 3%nat) by reflexivity.
  destruct (assembleMatrix_ok argsort 2 2 V C H1 H2 nb dm) with (lm := lm) (informed := true) (loc := loc) (st := st) (en := en) (bd := @None (list Qc)) (rhs := rhs) (A := A) (sss_format := false) (reorder := reorder) (ci := @None (list nat))
    as (op & dm' & r & E & HR & Hid & Hf & Hop & _ & HM & Hr); rewrite ?H3; auto.
  - intros i c cell contrib Hc Hl Hi Hk. specialize (Hi eq_refl). subst cell. exists []. rewrite app_nil_r.
    pose proof (nth_error_In _ _ Hc) as Hin. destruct (proj2 H2 c Hin) as [Hcl _].
    cbn [lm lm_eval cell_matrix]. rewrite all_init_some. cbn [bind]. rewrite read_rows_ok. cbn [bind].
    rewrite (mass_N1e (corners V c) (Js i) (gs i) c (alloc 6) (space 3 2) contrib (HS c Hin) (HJ i c Hc) (HG i c Hc) Hcl (space_shape 3 2) eq_refl Hk).
    assert (ET : upper_triangle (loc i) (seq 0 3) = upper_triangle (field_product 2 (Js i) (gs i)) (edge_fields c)).
    { unfold loc. rewrite (nth_error_nth C i [] Hc). rewrite <- (Hlen c) at 1. apply triangle_nth. }
    rewrite ET. split; [reflexivity|]. rewrite triangle_length. reflexivity.
  - intros i j k _ _ _. unfold loc, field_product. f_equal. rewrite sumf_swap. apply sumf_ext. intros a _. apply sumf_ext. intros b _. rewrite vdot_sym. f_equal. apply integral_same. intros x. rewrite !value_pmul. ring.
  - intros _. split; [reflexivity|]. split; [reflexivity|]. split; [reflexivity|]. destruct A as [op|]; [apply Hfmt; reflexivity|reflexivity].
  - exists op, dm', r. split; [exact E|]. unfold represents_form. split; [exact HR|]. split; [exact Hid|]. split; [exact Hf|]. split; [exact Hop|]. split; [|exact Hr].
    rewrite <- H3 in H4, H5. destruct (renumbered_facts _ _ _ _ H4 H5 HR) as (E1 & E2 & ok' & _). rewrite E1, E2, H3 in ok'.
    intros v u. rewrite (form_ext _ _ _ v u HM), form_plus. f_equal; [destruct A; [reflexivity|unfold form; apply sumf_zero; intros; apply sumf_zero; intros; ring]|].
    etransitivity; [rewrite H3; apply (assembled_form _ _ _ _ _ _ loc v u ok')|]. apply f_equal. unfold chosen_cells. apply map_ext. intros i. symmetry. apply field_sum.
Qed.

(** ** Constants *)
Lemma pzero_value n p x : pzero n p = true -> value n p x = 0.
Proof.
  revert p. induction n as [|n IH]; intros p H; cbn [pzero value] in *.
  - apply Qc_eq_bool_correct in H. exact H.
  - induction p as [|c p IHp]; [reflexivity|]. cbn [forallb fold_right] in *. apply andb_prop in H as [Ha Hb]. rewrite IH, IHp by auto. ring.
Qed.
Lemma value_psum d n f x : value d (psum d n f) x = sumf n (fun j => value d (f j) x).
Proof.
  unfold psum. assert (E : forall m k, value d (fold_right (padd d) (pconst d 0) (map f (seq k m))) x = sumf m (fun j => value d (f (k + j)%nat) x)).
  { induction m as [|m IH]; intros k; [apply value_pconst|]. cbn [seq map fold_right]. rewrite value_padd, IH, sumf_first, Nat.add_0_r. f_equal.
    apply sumf_ext. intros j _. replace (k + S j)%nat with (S k + j)%nat by lia. reflexivity. }
  apply E.
Qed.
Definition polys (el : element) (d : nat) : list (poly d) :=
  match el with P0 => [pconst d 1] | P1 => polysP1 d | P2 => polysP2 d | P3 => polysP3 d | N1e => [] end.
Lemma functions_el d el : (1 <= d <= 3)%nat -> el <> N1e -> functions d (shapes el d) (polys el d).
Proof. intros H He. destruct el; cbn [shapes polys]; [apply functions_P0|apply functions_P1|apply functions_P2; auto|apply functions_P3; auto|congruence]. Qed.
Lemma unity_check d el : (1 <= d <= 3)%nat -> el <> N1e ->
  pzero d (padd d (psum d (length (polys el d)) (fun j => nth j (polys el d) (pconst d 0))) (pconst d (- (1)))) = true.
Proof. intros H He. destruct d as [|[|[|[|d]]]]; try lia; destruct el; try congruence; vm_compute; reflexivity. Qed.
Lemma unity d el ps x : (1 <= d <= 3)%nat -> el <> N1e -> functions d (shapes el d) ps -> sumf (length ps) (fun j => value d (nth j ps (pconst d 0)) x) = 1.
Proof.
  intros Hd He HF. pose proof (functions_same d _ _ _ HF (functions_el d el Hd He)) as HS.
  assert (E : forall j, value d (nth j ps (pconst d 0)) x = value d (nth j (polys el d) (pconst d 0)) x).
  { clear -HS. induction HS as [|p q l l' H HS IH]; intros [|j]; cbn [nth]; auto. }
  assert (EL : length ps = length (polys el d)) by (clear -HS; induction HS; cbn; congruence).
  pose proof (pzero_value d _ x (unity_check d el Hd He)) as H. rewrite value_padd, value_psum, value_pconst in H. rewrite EL. rewrite (sumf_ext _ _ (fun j => value d (nth j (polys el d) (pconst d 0)) x)) by (intros; apply E).
  set (s := sumf _ _) in *. replace s with (s + - (1) + 1) by ring. rewrite H. ring.
Qed.

Lemma constant_on_cell nc d el ps dofs n i : (1 <= d <= 3)%nat -> el <> N1e -> functions d (shapes el d) ps -> dofs_ok nc (length ps) n 0 dofs -> (i < nc)%nat ->
  same_function d (on_cell d ps dofs (interior (fun _ => 1)) i) (pconst d 1).
Proof.
  intros Hd He HF (H1 & H2 & H3) Hi x. unfold on_cell. rewrite value_psum, value_pconst. etransitivity; [|exact (unity d el ps x Hd He HF)]. apply sumf_ext. intros j Hj. rewrite value_pscale.
  unfold interior. destruct (Z.ltb_spec (dof dofs i j) 0) as [L|L]; [|apply Qcmult_1_l]. exfalso. assert (Hin : In (nth i dofs []) dofs) by (apply nth_In; lia).
  assert (In (dof dofs i j) (nth i dofs [])) by (unfold dof; apply nth_In; rewrite (H2 _ Hin); auto). specialize (H3 _ _ Hin H). lia.
Qed.

Definition factorial (d : nat) : Qc := qz (Z.of_nat (fact d)).
Lemma integral_one d : (1 <= d <= 3)%nat -> integral d (pmul d (pconst d 1) (pconst d 1)) = / factorial d.
Proof. intros H. destruct d as [|[|[|[|d]]]]; try lia; apply Qc_is_canon; vm_compute; reflexivity. Qed.
Lemma suml_ext {A} (f g : A -> Qc) l : (forall x, In x l -> f x = g x) -> suml (map f l) = suml (map g l).
Proof. intros H. f_equal. apply map_ext_in. auto. Qed.

Section Constants.
  Variables (argsort : list nat -> list nat) (d : nat) (el : element) (V : list (list Qc)) (C : list (list nat)) (dm : dofmap) (rhs : option (list Qc)).
  Variables (st en : option nat) (sss_format reorder : bool) (ci : option (list nat)).
  Hypothesis Hd : (1 <= d <= 3)%nat.
  Hypothesis He : el <> N1e.
  Hypothesis HA : arguments_ok argsort d V C (length (shapes el d)) 0 dm None rhs None st en sss_format reorder ci.
  Hypothesis HS : solid d V C.

  Lemma chosen_lt i : In i (chosen_cells C st en ci) -> (i < length C)%nat.
  Proof using HA.
    destruct HA as (H1 & H2 & H3 & H4 & H5 & H6 & H7 & H8 & H9 & H10 & H11 & H12). intros H.
    assert (Hr : In i (cell_range (length C) st en)) by (unfold chosen_cells in H; destruct ci as [l|]; [apply (proj2 (proj2 (H12 l eq_refl))); auto|auto]).
    unfold cell_range in Hr. apply in_seq in Hr. unfold range_fits in H6. clear -Hr H6. destruct en; lia.
  Qed.
  Lemma renumbered_dofs_ok dm' ps : functions d (shapes el d) ps -> renumbered dm dm' -> dofs_ok (length C) (length ps) (dm_num dm) 0 (dm_dofs dm').
  Proof using HA.
    intros HF HR. destruct HA as (H1 & H2 & H3 & H4 & H5 & _). pose proof (functions_length _ _ _ HF) as EL. rewrite EL in *. rewrite <- H3 in *.
    destruct (renumbered_facts _ _ _ _ H4 H5 HR) as (E1 & E2 & ok' & _). congruence.
  Qed.

  Lemma mass_total Js : determinants d V C Js -> exists op dm' r, assembleMass d V C argsort el dm None rhs None st en sss_format reorder ci = Ok (op, dm', r) /\
    sumf (dm_num dm) (fun I => sumf (dm_num dm) (fun J => op_matrix op I J)) = suml (map (fun i => Js i / factorial d) (chosen_cells C st en ci)).
  Proof using All.
    intros HJ. pose proof (functions_el d el Hd He) as HF.
    destruct (mass_form argsort d el V C 0 dm None rhs None st en sss_format reorder ci _ Js Hd He HA HS HJ HF) as (op & dm' & r & E & HR & _ & _ & _ & HM & _).
    exists op, dm', r. split; [exact E|]. specialize (HM (fun _ => 1) (fun _ => 1)). unfold form in HM.
    rewrite <- (sumf_ext _ (fun I => sumf (dm_num dm) (fun J => 1 * op_matrix op I J * 1))) by (intros; apply sumf_ext; intros; ring). rewrite HM. rewrite Qcplus_0_l.
    apply suml_ext. intros i Hi. pose proof (constant_on_cell _ d el _ _ _ i Hd He HF (renumbered_dofs_ok dm' _ HF HR) (chosen_lt i Hi)) as S.
    rewrite (integral_same d _ (pmul d (pconst d 1) (pconst d 1))) by (apply pmul_same; exact S). rewrite integral_one by auto. reflexivity.
  Qed.
  Lemma stiffness_constants : el <> P0 -> exists op dm' r, assembleStiffness d V C argsort el dm None rhs None st en sss_format reorder ci = Ok (op, dm', r) /\
    forall I, (I < dm_num dm)%nat -> sumf (dm_num dm) (fun J => op_matrix op I J) = 0.
  Proof using All.
    intros He'. pose proof (functions_el d el Hd He) as HF.
    assert (HJ : determinants d V C (fun i => qabs (det d (corners V (nth i C []))))).
    { intros i c Hc. rewrite (nth_error_nth C i [] Hc). apply qabs_magnitude. }
    assert (HG : exists gs, gradients d V C gs).
    { assert (K : forall l, (forall c, In c l -> is_simplex d (corners V c)) -> exists gs, forall i c, nth_error l i = Some c -> gradients_of d (corners V c) (gs i)).
      { induction l as [|c l IH]; intros Hl; [exists (fun _ => []); intros [|i] c Hc; discriminate|].
        destruct (IH (fun c H => Hl c (or_intror H))) as (gs & Hgs). destruct (gradients_exist d (corners V c) Hd (Hl c (or_introl eq_refl))) as (g & Hg).
        exists (fun i => match i with O => g | S i => gs i end). intros [|i] c' Hc; cbn in Hc; [injection Hc as <-; exact Hg|auto]. }
      apply (K C HS). }
    destruct HG as (gs & HG).
    destruct (stiffness_form argsort d el V C 0 dm None rhs None st en sss_format reorder ci _ _ gs Hd He He' HA HS HJ HG HF) as (op & dm' & r & E & HR & _ & _ & _ & HM & _).
    exists op, dm', r. split; [exact E|]. intros I HI. specialize (HM (fun K => if (K =? I)%nat then 1 else 0) (fun _ => 1)). unfold form in HM.
    rewrite (sumf_single (dm_num dm) _ I HI) in HM.
    - rewrite Nat.eqb_refl in HM. rewrite (sumf_ext _ _ (fun J => 1 * op_matrix op I J * 1)) by (intros; ring). rewrite HM, Qcplus_0_l.
      apply suml_map_zero. intros i Hi. pose proof (constant_on_cell _ d el _ _ _ i Hd He HF (renumbered_dofs_ok dm' _ HF HR) (chosen_lt i Hi)) as S.
      rewrite (bl_sym _ _ (bilinear_stiffness d _ _)). rewrite (stiffness_same d _ _ _ _ (pscale d 1 (pconst d 1)) _ (fun x => eq_trans (S x) (eq_sym (eq_trans (value_pscale d 1 (pconst d 1) x) (Qcmult_1_l _)))) (fun x => eq_refl)).
      unfold stiffness_entry. rewrite sumf_zero; [ring|]. intros k Hk. apply sumf_zero. intros m Hm. rewrite (integral_same d _ (pconst d 0)), integral_0; [ring|].
      intros x. rewrite value_pmul, value_pderiv_scale, value_pconst.
      assert (Z : value d (pderiv d k (pconst d 1)) x = 0).
      { clear. revert k. induction d as [|n IH]; intros k; [reflexivity|]. cbn [pderiv pconst]. destruct (k =? n)%nat; cbn [skipn index_scale map value fold_right]; [reflexivity|]. rewrite IH. ring. }
      rewrite Z. ring.
    - intros K _ HK. apply sumf_zero. intros J _. destruct (Nat.eqb_spec K I); [congruence|ring].
  Qed.
End Constants.
