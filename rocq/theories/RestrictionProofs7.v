(** The tables pass the checks. *)
From Coq Require Qcabs.
From Verif Require Import Util Lin MeshSpec DoFMapSpec DoFMapModel DoFMapProofs6 MeshModel LocalModel CSRModel CSRSpec
  RestrictionTables RestrictionModel RestrictionSpec RestrictionProofs2 RestrictionProofs3 RestrictionProofs4 RestrictionProofs5 RestrictionProofs6.
Set Default Proof Using "Type".
Local Open Scope Qc_scope.

Lemma refined_checks e d : (1 <= d <= 3)%nat -> exists T, restriction_table d e e = Some ((2 ^ d)%nat, T) /\ check_entries e e d (2 ^ d) T 0 = true /\
  check_complete e e d (2 ^ d) T = true /\ check_plain (2 ^ d) T = true /\ check_reproduced e e d (2 ^ d) = true.
Proof.
  intros Hd. destruct d as [|[|[|[|d]]]]; try lia; destruct e; eexists; (split; [reflexivity|]); (split; [|split; [|split]]); vm_cast_no_check (eq_refl true).
Qed.
Definition tolerance : Qc := qf 1 1000000000.
Lemma enriched_checks coarse fine d : (1 <= d <= 3)%nat -> In (coarse, fine) [(P1, P2); (P1, P3); (P2, P3)] -> exists T, restriction_table d coarse fine = Some (1%nat, T) /\
  check_entries coarse fine d 1 T (match fine with P2 => 0 | _ => tolerance end) = true /\
  check_complete coarse fine d 1 T = true /\ check_plain 1 T = true /\ check_reproduced coarse fine d 1 = true.
Proof.
  intros Hd Hin. destruct d as [|[|[|[|d]]]]; try lia; destruct Hin as [Q|[Q|[Q|[]]]]; inversion Q; subst; eexists; (split; [reflexivity|]); (split; [|split; [|split]]); vm_cast_no_check (eq_refl true).
Qed.

Lemma refined_length d V E C F : (1 <= d <= 3)%nat -> refinement d V E C F -> length F = (2 ^ d * length C)%nat.
Proof. intros Hd [_ H]. destruct d as [|[|[|[|d]]]]; try lia; destruct H as [H _]; exact H. Qed.

Lemma refined_transfer e d dim V E C F b b' dofsC dofsF nC nF : (1 <= d <= 3)%nat -> mesh_ok dim (S d) V C -> distinct_vertices C -> distinct_cells C -> refinement d V E C F ->
  fe_numbering e d C b dofsC nC -> fe_numbering e d F b' dofsF nF -> boundary_contained e d (length V) E C F b b' -> few_couplings (2 ^ d) dofsC dofsF ->
  exists R P, buildRestrictionProlongation d e e (length C) F dofsC nC dofsF nF = Ok (R, P) /\ wf_csr nC nF R /\ wf_csr nF nC P /\
    (forall I J, (I < nC)%nat -> (J < nF)%nat -> matrix P J I = matrix R I J) /\
    forall u, same_fe_function (2 ^ d) dim d e e V C dofsC u (refined_vertices V E) F dofsF (tab nF (mv nC (matrix P) (vat u))).
Proof.
  intros Hd HM HDV HDC HR HN HN' HB HF. destruct (refined_checks e d Hd) as (T & ET & C1 & C2 & C3 & C4).
  assert (cells : forall i c, nth_error C i = Some c -> length c = S d /\ NoDup c /\ exists tag K nm, cell_structure d (2 ^ d) (length V) E F i c tag K nm /\ positions dim d (2 ^ d) V (refined_vertices V E) c K nm).
  { intros i c Hc. split; [apply (proj2 HM c (nth_error_In _ _ Hc))|]. split; [apply HDV, (nth_error_In _ _ Hc)|]. apply refined_structure with (C := C); auto. }
  pose proof (refined_length d V E C F Hd HR) as LF.
  destruct (transfer_ok e e d (2 ^ d) T dim V (refined_vertices V E) E C F b b' dofsC dofsF nC nF 0) as (R & P & EB & wR & wP & HT & HA); auto; [apply Qcle_refl|].
  exists R, P. do 4 (split; [auto|]). intros u. rewrite HA. apply (transfer_exact e e d (2 ^ d) T dim V (refined_vertices V E) E C F b b' dofsC dofsF nC nF 0); auto. apply Qcle_refl.
Qed.

Section Enriched.
  Variables (coarse fine : fe) (d dim : nat) (V : list (list Qc)) (C : list (list nat)) (b b' : bdata) (dofsC dofsF : list (list Z)) (nC nF : nat).
  Hypothesis Hd : (1 <= d <= 3)%nat.
  Hypothesis HM : mesh_ok dim (S d) V C.
  Hypothesis HDV : distinct_vertices C.
  Hypothesis HDC : distinct_cells C.
  Hypothesis HN : fe_numbering coarse d C b dofsC nC.
  Hypothesis HN' : fe_numbering fine d C b' dofsF nF.
  Hypothesis HB : boundary_contained coarse d (length V) [] C C b b'.
  Hypothesis HF : few_couplings 1 dofsC dofsF.
  Hypothesis Hin : In (coarse, fine) [(P1, P2); (P1, P3); (P2, P3)].

  Lemma enriched_cells : forall i c, nth_error C i = Some c -> length c = S d /\ NoDup c /\ exists tag K nm, cell_structure d 1 (length V) [] C i c tag K nm /\ positions dim d 1 V V c K nm.
  Proof using All.
    intros i c Hc. split; [apply (proj2 HM c (nth_error_In _ _ Hc))|]. split; [apply HDV, (nth_error_In _ _ Hc)|]. apply same_structure; auto.
  Qed.
  Lemma enriched_transfer : exists R P, buildRestrictionProlongation d coarse fine (length C) C dofsC nC dofsF nF = Ok (R, P) /\ wf_csr nC nF R /\ wf_csr nF nC P /\
    (forall I J, (I < nC)%nat -> (J < nF)%nat -> matrix P J I = matrix R I J) /\
    (fine = P2 -> forall u, same_fe_function 1 dim d coarse fine V C dofsC u V C dofsF (tab nF (mv nC (matrix P) (vat u)))) /\
    (forall u, near_fe_function (match fine with P2 => 0 | _ => tolerance end) d coarse fine dofsC u dofsF (tab nF (mv nC (matrix P) (vat u)))).
  Proof using All.
    destruct (enriched_checks coarse fine d Hd Hin) as (T & ET & C1 & C2 & C3 & C4).
    set (eps := match fine with P2 => 0 | _ => tolerance end) in *.
    assert (E0 : 0 <= eps) by (unfold eps; destruct fine; apply qle_spec; reflexivity).
    assert (LF : length C = (1 * length C)%nat) by lia.
    assert (Z : coarse = P0 -> fine = P0) by (intros ->; destruct Hin as [Q|[Q|[Q|[]]]]; discriminate Q).
    destruct (transfer_ok coarse fine d 1 T dim V V [] C C b b' dofsC dofsF nC nF eps) as (R & P & EB & wR & wP & HT & HA); auto using enriched_cells.
    exists R, P. do 4 (split; [auto|]). split; intros.
    - rewrite HA. apply (transfer_exact coarse fine d 1 T dim V V [] C C b b' dofsC dofsF nC nF eps); auto using enriched_cells. unfold eps. rewrite H. reflexivity.
    - rewrite HA. apply (transfer_near coarse fine d 1 T dim V V [] C C b b' dofsC dofsF nC nF eps); auto using enriched_cells.
  Qed.
End Enriched.

(** Numberings made by DoFMap. *)
Lemma dofmap_fe_numbering e d nv C bv be bf dofs n nb : (1 <= d <= 3)%nat -> dofmap_input d nv C bv be bf -> (let '(dpv, dpe, dpf, dpc) := fe_counts e d in
    dofmap_counts d dpv dpe dpf bv be bf /\ (dpe <= 1 \/ boundary_edges_forward d C be)%nat /\ (Z.of_nat (length C * local_dofs d dpv dpe dpf dpc) <= MAX_INT)%Z /\
    DoFMap d nv C bv be bf dpv dpe dpf dpc (-1) = Ok (dofs, Z.of_nat n, nb)) -> fe_numbering e d C (bv, be, bf) dofs n.
Proof.
  intros Hd HI H. assert (F : (snd (fst (fe_counts e d)) <= 1)%nat) by (destruct e, d as [|[|[|[|d]]]]; cbn; lia).
  unfold fe_numbering, fe_places. destruct (fe_counts e d) as [[[dpv dpe] dpf] dpc]. cbn [fst snd] in F. destruct H as (HC & HO & HM & HD).
  destruct (numbering_ok d nv C bv be bf dpv dpe dpf dpc (-1)) as (dofs' & n' & nb' & E' & _ & HN); auto. rewrite HD in E'. inversion E'; subst.
  destruct HN as (H1 & H2 & H3 & H4 & H5 & _ & H7 & _). cbn [cells_with_dofs Z.eqb] in *. unfold cells_with_dofs in *. cbn [Z.eqb] in *.
  assert (IN : forall p z, numbered (places d dpv dpe dpf dpc) C dofs' p z -> in_cells (places d dpv dpe dpf dpc) C (length C) (fst p)).
  { intros p z (i & c & row & j & Hc & Er & Hp & Hz). exists i, c, (snd p). split; [apply nth_error_Some; congruence|]. split; auto. rewrite <- surjective_pairing. apply nth_error_In in Hp. auto. }
  split; [auto|]. split; [auto|]. split; [intros p z Hp Hb; apply (H4 p z Hp Hb)|]. split; [intros p z Hp Hb; apply (H5 p); eauto|]. split; [intros p z p' z' Hp Hp' _; apply H3; eauto|].
  intros z Hz. destruct (H7 z Hz) as (p & _ & _ & Hp). eauto.
Qed.
Lemma few_small nsub dofsC dofsF : (length (concat dofsF) < 2 ^ 16)%nat -> few_couplings nsub dofsC dofsF.
Proof.
  intros H I Js ND HJ. eapply Nat.le_lt_trans; [|exact H]. apply NoDup_incl_length; auto. intros J Hin.
  destruct (HJ J Hin) as (i & s & row & rowF & _ & _ & _ & HF & HJ'). apply in_concat. exists rowF. split; auto. eapply nth_error_In; eauto.
Qed.
(** Boundaries of concrete meshes. *)
Definition entities (b : bdata) : list entity :=
  let '(bv, be, bf) := b in map EVertex bv ++ map (fun ab => the_edge (fst ab) (snd ab)) be ++ map (fun f => let '(x, y, z) := f in the_face x y z) bf.
Lemma entities_spec b x : In x (entities b) <-> on_bdata b x.
Proof.
  destruct b as [[bv be] bf]. cbn [entities on_bdata]. unfold on_boundary. rewrite !in_app_iff, !in_map_iff. split.
  - intros [(v & <- & H)|[((a & c) & <- & H)|(((x1 & y) & z) & <- & H)]]; [left; eauto|right; left; cbn; eauto|right; right; eauto 6].
  - intros [(v & H & ->)|[(a & c & H & ->)|(x1 & y & z & H & ->)]]; [left; eauto|right; left; exists (a, c); auto|right; right; exists (x1, y, z); auto].
Qed.
Definition contained_bool (e : fe) (d nv : nat) (E : list (nat * nat)) (C C' : list (list nat)) (b b' : bdata) : bool :=
  forallb (fun y => forallb (fun ic => forallb (fun p : place =>
    negb (forallb (fun v => if in_dec Nat.eq_dec v (flat_map (parents nv E) (vertices_of C' y)) then true else false) (vertices_of C (fst p))) ||
    (if in_dec face_eq_dec (fst p) (entities b) then true else false)) (fe_places e d (fst ic) (snd ic))) (combine (seq 0 (length C)) C)) (entities b').
Lemma contained_spec e d nv E C C' b b' : contained_bool e d nv E C C' b b' = true -> boundary_contained e d nv E C C' b b'.
Proof.
  intros H x y Hy (i & c & n & Hi & Hc & Hx) HI. apply entities_spec in Hy. unfold contained_bool in H. rewrite forallb_forall in H. specialize (H y Hy).
  rewrite forallb_forall in H. assert (HC : In (i, c) (combine (seq 0 (length C)) C)).
  { apply (nth_error_In _ i). clear - Hc Hi. assert (G : forall lo, nth_error (combine (seq lo (length C)) C) i = Some ((lo + i)%nat, c)); [|apply (G 0%nat)].
    clear Hi. revert i Hc. induction C as [|c0 C IH]; intros i Hc lo; [destruct i; discriminate|]. destruct i as [|i]; cbn in *; [inversion Hc; rewrite Nat.add_0_r; auto|].
    rewrite (IH i Hc (S lo)). f_equal. f_equal. lia. }
  specialize (H (i, c) HC). cbn [fst snd] in H. rewrite forallb_forall in H. specialize (H (x, n) Hx). cbn [fst] in H. apply orb_true_iff in H as [H|H].
  - exfalso. apply negb_true_iff in H. assert (Q : forallb (fun v => if in_dec Nat.eq_dec v (flat_map (parents nv E) (vertices_of C' y)) then true else false) (vertices_of C x) = true); [|congruence].
    apply forallb_forall. intros v Hv. destruct (in_dec _ v _) as [|N]; [reflexivity|]. destruct N. apply HI, Hv.
  - destruct (in_dec face_eq_dec x (entities b)) as [Q|]; [|discriminate]. apply entities_spec, Q.
Qed.


Lemma cubic_transfer e d dim V C b b' dofsC dofsF nC nF :
  e = P1 \/ e = P2 -> (1 <= d <= 3)%nat -> mesh_ok dim (S d) V C -> distinct_vertices C -> distinct_cells C ->
  fe_numbering e d C b dofsC nC -> fe_numbering P3 d C b' dofsF nF ->
  boundary_contained e d (length V) [] C C b b' -> few_couplings 1 dofsC dofsF ->
  exists R P, buildRestrictionProlongation d e P3 (length C) C dofsC nC dofsF nF = Ok (R, P) /\ wf_csr nC nF R /\ wf_csr nF nC P /\
    (forall I J, (I < nC)%nat -> (J < nF)%nat -> matrix P J I = matrix R I J) /\
    forall u, near_fe_function (qf 1 1000000000) d e P3 dofsC u dofsF (tab nF (mv nC (matrix P) (vat u))).
Proof.
  intros He Hd HM HV HC HN HN' HB HF.
  destruct (enriched_transfer e P3 d dim V C b b' dofsC dofsF nC nF Hd HM HV HC HN HN' HB HF) as (R & P & E & w & w' & T & _ & N); [destruct He; subst; cbn; auto|].
  exists R, P. do 4 (split; [auto|]). exact N.
Qed.
Lemma quadratic_transfer d dim V C b b' dofsC dofsF nC nF :
  (1 <= d <= 3)%nat -> mesh_ok dim (S d) V C -> distinct_vertices C -> distinct_cells C ->
  fe_numbering P1 d C b dofsC nC -> fe_numbering P2 d C b' dofsF nF ->
  boundary_contained P1 d (length V) [] C C b b' -> few_couplings 1 dofsC dofsF ->
  exists R P, buildRestrictionProlongation d P1 P2 (length C) C dofsC nC dofsF nF = Ok (R, P) /\ wf_csr nC nF R /\ wf_csr nF nC P /\
    (forall I J, (I < nC)%nat -> (J < nF)%nat -> matrix P J I = matrix R I J) /\
    forall u, same_fe_function 1 dim d P1 P2 V C dofsC u V C dofsF (tab nF (mv nC (matrix P) (vat u))).
Proof.
  intros Hd HM HV HC HN HN' HB HF.
  destruct (enriched_transfer P1 P2 d dim V C b b' dofsC dofsF nC nF Hd HM HV HC HN HN' HB HF) as (R & P & E & w & w' & T & X & N); [cbn; auto|].
  exists R, P. do 4 (split; [auto|]). auto.
Qed.
