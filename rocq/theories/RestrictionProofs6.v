(** Structure of the cells of a refined mesh, and the main results. *)
From Coq Require Qcabs.
From Verif Require Import Util Lin MeshSpec DoFMapSpec MeshModel MeshProofs LocalModel LocalSpec LocalProofs CSRModel CSRSpec
  RestrictionTables RestrictionModel RestrictionSpec RestrictionProofs RestrictionProofs2 RestrictionProofs3 RestrictionProofs4 RestrictionProofs5.
Set Default Proof Using "Type".
Local Open Scope Qc_scope.

(** Positions of the vertices of the children. *)
Definition positions (dim d nsub : nat) (V V' : list (list Qc)) (c : list nat) (K : list (list name)) (nm : name -> nat) : Prop :=
  forall s x k, (s < nsub)%nat -> (x <= d)%nat -> (k < dim)%nat -> let p := knth (nth s K []) x in
    vat (point V' (nm p)) k = half * vat (point V (at_cell c (fst p))) k + half * vat (point V (at_cell c (snd p))) k.

(** ** The same mesh *)
Lemma same_structure dim d V C i c : (1 <= d <= 3)%nat -> mesh_ok dim (S d) V C -> nth_error C i = Some c ->
  exists tag K nm, cell_structure d 1 (length V) [] C i c tag K nm /\ positions dim d 1 V V c K nm.
Proof.
  intros Hd [_ HC] Hc. destruct (HC c (nth_error_In _ _ Hc)) as [Lc Hv].
  exists Always, [map (fun a => (a, a)) (seq 0 (S d))], (fun p => at_cell c (fst p)).
  assert (KN : forall s x, (s < 1)%nat -> (x <= d)%nat -> knth (nth s [map (fun a => (a, a)) (seq 0 (S d))] []) x = (x, x)).
  { intros s x Hs Hx. assert (s = 0%nat) as -> by lia. unfold knth. cbn [nth]. apply nth_error_nth. rewrite nth_error_map, nth_error_nth' with (d := 0%nat) by (rewrite seq_length; lia). rewrite seq_nth by lia. reflexivity. }
  assert (HH : forall y : Qc, y = half * y + half * y) by (intros y; transitivity ((half + half) * y); [rewrite half_half; ring|ring]).
  split; [split; [|split; [|split]]|].
  - destruct d as [|[|[|[|d]]]]; try lia; left; reflexivity.
  - intros s Hs. assert (s = 0%nat) as -> by lia. rewrite Nat.mul_1_l, Nat.add_0_r. cbn [nth]. rewrite Hc. f_equal. rewrite map_map. cbn [fst].
    etransitivity; [apply (list_eq_tab c 0%nat)|]. rewrite Lc. reflexivity.
  - intros s x v Hs Hx. rewrite KN by auto. cbn [fst snd]. unfold vertex_at. destruct (Nat.ltb_spec (at_cell c x) (length V)) as [|G]; [apply HH|].
    specialize (Hv (at_cell c x) (at_cell_in c x ltac:(lia))). lia.
  - intros w [W| ->]; [discriminate|reflexivity].
  - intros s x k Hs Hx Hk. rewrite KN by auto. cbn [fst snd]. apply HH.
Qed.

(** ** Refined meshes *)
Lemma mid_vertex V E a b m v : mid V E a b m -> vertex_at (length V) E m v = half * ind a v + half * ind b v.
Proof.
  intros (k & Hk & ->). unfold vertex_at. destruct (Nat.ltb_spec (length V + k) (length V)) as [|_]; [lia|]. replace (length V + k - length V)%nat with k by lia.
  rewrite (nth_error_nth _ _ _ Hk). cbn [fst snd]. destruct (Nat.le_ge_cases a b); [rewrite Nat.min_l, Nat.max_r by lia|rewrite Nat.min_r, Nat.max_l by lia]; ring.
Qed.
Lemma old_vertex nv E a v : (a < nv)%nat -> vertex_at nv E a v = half * ind a v + half * ind a v.
Proof. intros Ha. unfold vertex_at. apply Nat.ltb_lt in Ha. rewrite Ha. transitivity ((half + half) * ind a v); [rewrite half_half; ring|ring]. Qed.
Lemma mid_position dim V E a b m k : (forall p, In p V -> length p = dim) -> (a < length V)%nat -> (b < length V)%nat -> mid V E a b m -> (k < dim)%nat ->
  vat (point (refined_vertices V E) m) k = half * vat (point V a) k + half * vat (point V b) k.
Proof.
  intros HV Ha Hb (j & Hj & ->) Hk. unfold point at 1, refined_vertices. rewrite app_nth2 by lia. replace (length V + j - length V)%nat with j by lia.
  erewrite nth_error_nth by (apply map_nth_error, Hj). cbn [fst snd]. unfold midpoint.
  assert (Lp : forall x, (x < length V)%nat -> length (point V x) = dim) by (intros x Hx; apply HV, nth_In, Hx).
  assert (E2 : forall x y, (x + y) / (1 + 1) = half * x + half * y) by (intros x y; unfold half, qf; replace (Q2Qc (1 # 2)) with (/ (1 + 1)) by (apply Qc_is_canon; reflexivity); unfold Qcdiv; ring).
  destruct (Nat.le_ge_cases a b); [rewrite Nat.min_l, Nat.max_r by lia|rewrite Nat.min_r, Nat.max_l by lia]; rewrite Lp, vat_tab, E2 by lia; ring.
Qed.
Lemma old_position V E a k : (a < length V)%nat -> vat (point (refined_vertices V E) a) k = half * vat (point V a) k + half * vat (point V a) k.
Proof. intros Ha. unfold point, refined_vertices. rewrite app_nth1 by auto. transitivity ((half + half) * vat (nth a V []) k); [rewrite half_half; ring|ring]. Qed.

Lemma mid_neq V E a b c e m n : mid V E a b m -> mid V E c e n -> (Nat.min a b, Nat.max a b) <> (Nat.min c e, Nat.max c e) -> m <> n.
Proof. intros (k & Hk & ->) (k' & Hk' & ->) N Q. assert (k = k') as -> by lia. congruence. Qed.

Ltac small x := destruct x as [|[|[|[|[|[|[|[|x]]]]]]]]; try lia.
Ltac vertex_goal := first [apply old_vertex; assumption|eapply mid_vertex; eassumption].
Ltac position_goal := first [apply old_position; assumption|eapply mid_position; eassumption].

Lemma refined_structure dim d V E C F i c : (1 <= d <= 3)%nat -> mesh_ok dim (S d) V C -> distinct_vertices C -> refinement d V E C F -> nth_error C i = Some c ->
  exists tag K nm, cell_structure d (2 ^ d) (length V) E F i c tag K nm /\ positions dim d (2 ^ d) V (refined_vertices V E) c K nm.
Proof.
  intros Hd [HV HC] HD [_ HR] Hc. destruct (HC c (nth_error_In _ _ Hc)) as [Lc Hv]. pose proof (HD c (nth_error_In _ _ Hc)) as ND.
  destruct d as [|[|[|[|d]]]]; try lia; destruct HR as [_ HR]; destruct (HR i c Hc) as (ch & Hch & Lch & HF); clear HR.
  - destruct Hch as (a & b & m & -> & Hm & ->). assert (Ha : (a < length V)%nat) by (apply Hv; cbn; auto). assert (Hb : (b < length V)%nat) by (apply Hv; cbn; auto).
    exists Always, [[(0, 0); (0, 1)]; [(0, 1); (1, 1)]]%nat, (fun p => match p with (0, 0)%nat => a | (0, _)%nat => m | _ => b end).
    split; [split; [left; reflexivity|split; [|split]]|].
    + intros s Hs. cbn in Hs. change (2 ^ 1)%nat with 2%nat. rewrite HF by auto. small s; reflexivity.
    + intros s x v Hs Hx. cbn in Hs. small s; small x; cbn; vertex_goal.
    + intros w [W| ->]; [discriminate|reflexivity].
    + intros s x k Hs Hx Hk. cbn in Hs. small s; small x; cbn; position_goal.
  - destruct Hch as (v0 & v1 & v2 & m01 & m12 & m02 & -> & H01 & H12 & H02 & ->).
    assert (H0 : (v0 < length V)%nat) by (apply Hv; cbn; auto). assert (H1 : (v1 < length V)%nat) by (apply Hv; cbn; auto). assert (H2 : (v2 < length V)%nat) by (apply Hv; cbn; auto).
    exists Always, [[(0, 0); (0, 1); (0, 2)]; [(1, 1); (1, 2); (0, 1)]; [(2, 2); (0, 2); (1, 2)]; [(0, 1); (1, 2); (0, 2)]]%nat,
      (fun p => match p with (0, 0)%nat => v0 | (0, 1)%nat => m01 | (0, _)%nat => m02 | (1, 1)%nat => v1 | (1, _)%nat => m12 | _ => v2 end).
    split; [split; [left; reflexivity|split; [|split]]|].
    + intros s Hs. cbn in Hs. change (2 ^ 2)%nat with 4%nat. rewrite HF by auto. small s; reflexivity.
    + intros s x v Hs Hx. cbn in Hs. small s; small x; cbn; vertex_goal.
    + intros w [W| ->]; [discriminate|reflexivity].
    + intros s x k Hs Hx Hk. cbn in Hs. small s; small x; cbn; position_goal.
  - destruct Hch as (v0 & v1 & v2 & v3 & m01 & m02 & m03 & m12 & m13 & m23 & inner & -> & H01 & H02 & H03 & H12 & H13 & H23 & -> & HI).
    assert (H0 : (v0 < length V)%nat) by (apply Hv; cbn; auto). assert (H1 : (v1 < length V)%nat) by (apply Hv; cbn; auto).
    assert (H2 : (v2 < length V)%nat) by (apply Hv; cbn; auto). assert (H3 : (v3 < length V)%nat) by (apply Hv; cbn; auto).
    assert (V01 : v0 <> v1 /\ v0 <> v2 /\ v0 <> v3 /\ v1 <> v2 /\ v1 <> v3 /\ v2 <> v3).
    { apply NoDup_cons_iff in ND as [N0 ND]. apply NoDup_cons_iff in ND as [N1 ND]. apply NoDup_cons_iff in ND as [N2 ND]. cbn in N0, N1, N2.
      split; [|split; [|split; [|split; [|split]]]]; intros Q; subst; tauto. }
    assert (N1 : m01 <> m03) by (eapply mid_neq; [eassumption|eassumption|intros Q; inversion Q; lia]).
    assert (N2 : m01 <> m02) by (eapply mid_neq; [eassumption|eassumption|intros Q; inversion Q; lia]).
    set (nm := fun p : name => match p with (0, 0)%nat => v0 | (0, 1)%nat => m01 | (0, 2)%nat => m02 | (0, _)%nat => m03 | (1, 1)%nat => v1 | (1, 2)%nat => m12 | (1, _)%nat => m13
                               | (2, 2)%nat => v2 | (2, _)%nat => m23 | _ => v3 end).
    change (2 ^ 3)%nat with 8%nat.
    assert (RD : forall j r x, (j < 8)%nat -> nth_error ([[v0; m01; m02; m03]; [m01; v1; m12; m13]; [m02; m12; v2; m23]; [m03; m13; m23; v3]] ++ inner) j = Some (x :: r) -> get2 F (8 * i + j) 0 = Ok x).
    { intros j r x Hj Q. rewrite <- HF in Q by auto. eapply get2_ok; [exact Q|reflexivity]. }
    assert (E1 : forall x y : nat, x <> y -> (x =? y)%nat = false) by (intros x y; apply Nat.eqb_neq).
    destruct HI as [(-> & _)|[(-> & _)|(-> & _)]].
    + exists Cut01_23. eexists. exists nm. split; [split; [left; reflexivity|split; [|split]]|].
      * intros s Hs. rewrite HF by auto. small s; reflexivity.
      * intros s x v Hs Hx. small s; small x; cbn; vertex_goal.
      * intros w _. unfold reached. rewrite (RD 4%nat _ m01), (RD 5%nat _ m01), (RD 6%nat _ m01) by (lia || reflexivity). cbn [bind]. rewrite Nat.eqb_refl. destruct w; reflexivity.
      * intros s x k Hs Hx Hk. small s; small x; cbn; position_goal.
    + exists Cut02_13. eexists. exists nm. split; [split; [right; left; reflexivity|split; [|split]]|].
      * intros s Hs. rewrite HF by auto. small s; reflexivity.
      * intros s x v Hs Hx. small s; small x; cbn; vertex_goal.
      * intros w _. unfold reached. rewrite (RD 4%nat _ m01), (RD 5%nat _ m01), (RD 6%nat _ m02) by (lia || reflexivity). cbn [bind]. rewrite Nat.eqb_refl, (E1 _ _ N2). destruct w; reflexivity.
      * intros s x k Hs Hx Hk. small s; small x; cbn; position_goal.
    + exists Cut03_12. eexists. exists nm. split; [split; [right; right; left; reflexivity|split; [|split]]|].
      * intros s Hs. rewrite HF by auto. small s; reflexivity.
      * intros s x v Hs Hx. small s; small x; cbn; vertex_goal.
      * intros w _. unfold reached. rewrite (RD 4%nat _ m01), (RD 5%nat _ m03) by (lia || reflexivity). cbn [bind]. rewrite (E1 _ _ N1). destruct w; reflexivity.
      * intros s x k Hs Hx Hk. small s; small x; cbn; position_goal.
Qed.

Lemma combination_sumf l ps k : length l = length ps -> combination l ps k = sumf (length l) (fun x => vat l x * vat (nth x ps []) k).
Proof.
  revert ps. induction l as [|w l IH]; intros [|p ps] HL; try discriminate; [reflexivity|]. cbn [length combination]. rewrite sumf_first, IH by (cbn in HL; lia). reflexivity.
Qed.
Lemma nth_corners V c x : (x < length c)%nat -> nth x (corners V c) [] = point V (at_cell c x).
Proof. intros Hx. apply nth_error_nth. unfold corners. rewrite nth_error_map, nth_error_nth' with (d := 0%nat) by auto. reflexivity. Qed.

(** The point of a child in the coordinates of its parent. *)
Lemma child_point dim d nsub V V' c tag K nm s l k : (1 <= d <= 3)%nat -> length c = S d -> In (tag, K) (kids nsub d) -> positions dim d nsub V V' c K nm -> (s < nsub)%nat -> length l = S d -> (k < dim)%nat ->
  combination l (corners V' (map nm (nth s K []))) k = combination (lpoint d (nth s K []) l) (corners V c) k.
Proof.
  intros Hd Lc HK HP Hs Hl Hk. destruct (kids_ok nsub d tag K s Hd HK) as [_ Kid]. destruct (Kid Hs) as [Lk Hkid].
  rewrite !combination_sumf by (unfold corners, lpoint; rewrite ?map_length, ?tab_length; lia). unfold lpoint at 1. rewrite tab_length, Hl.
  transitivity (sumf (S d) (fun x => vat l x * sumf (S d) (fun a => ncoord (knth (nth s K []) x) a * vat (point V (at_cell c a)) k))).
  - apply sumf_ext. intros x Hx. f_equal. rewrite nth_corners by (rewrite map_length; lia).
    replace (at_cell (map nm (nth s K [])) x) with (nm (knth (nth s K []) x)) by (unfold at_cell, knth; rewrite (nth_indep _ _ (nm (0, 0)%nat)) by (rewrite map_length; lia); symmetry; apply map_nth).
    rewrite (HP s x k) by lia. specialize (Hkid x ltac:(lia)). set (p := knth (nth s K []) x) in *.
    rewrite (sumf_ext _ _ (fun a => half * (ind (fst p) a * vat (point V (at_cell c a)) k) + half * (ind (snd p) a * vat (point V (at_cell c a)) k))) by (intros; unfold ncoord; ring).
    rewrite sumf_plus, !sumf_scal. f_equal; f_equal; symmetry; erewrite sumf_single; [unfold ind; rewrite Nat.eqb_refl; ring|lia| |unfold ind; rewrite Nat.eqb_refl; ring|lia|];
      intros a Ha N; unfold ind; match goal with |- context[Nat.eqb ?y a] => destruct (Nat.eqb_spec y a) end; try ring; congruence.
  - rewrite (sumf_ext _ _ (fun x => sumf (S d) (fun a => vat l x * (ncoord (knth (nth s K []) x) a * vat (point V (at_cell c a)) k)))) by (intros; rewrite sumf_scal; reflexivity).
    rewrite sumf_swap. apply sumf_ext. intros a Ha. unfold lpoint. rewrite vat_tab by lia. rewrite nth_corners by lia. rewrite <- sumf_scal_r. apply sumf_ext. intros x Hx. ring.
Qed.

(** ** Main results *)
Section Exact.
  Variables (coarse fine : fe) (d nsub : nat) (T : list rentry) (dim : nat) (V V' : list (list Qc)) (E : list (nat * nat)) (C F : list (list nat)).
  Variables (b b' : bdata) (dofsC dofsF : list (list Z)) (nC nF : nat) (eps : Qc).
  Hypothesis Hd : (1 <= d <= 3)%nat.
  Hypothesis cells : forall i c, nth_error C i = Some c -> length c = S d /\ NoDup c /\ exists tag K nm, cell_structure d nsub (length V) E F i c tag K nm /\ positions dim d nsub V V' c K nm.
  Hypothesis fine_cells : length F = (nsub * length C)%nat.
  Hypothesis distinct : distinct_cells C.
  Hypothesis numC : fe_numbering coarse d C b dofsC nC.
  Hypothesis numF : fe_numbering fine d F b' dofsF nF.
  Hypothesis contained : boundary_contained coarse d (length V) E C F b b'.
  Hypothesis few : few_couplings nsub dofsC dofsF.
  Hypothesis zero : coarse = P0 -> fine = P0.
  Hypothesis Ht : restriction_table d coarse fine = Some (nsub, T).
  Hypothesis Cc : check_complete coarse fine d nsub T = true.
  Hypothesis Cp : check_plain nsub T = true.
  Hypothesis Ce : check_entries coarse fine d nsub T eps = true.
  Hypothesis eps0 : 0 <= eps.

  Lemma cells' : forall i c, nth_error C i = Some c -> length c = S d /\ NoDup c /\ exists tag K nm, cell_structure d nsub (length V) E F i c tag K nm.
  Proof using All. intros i c Hc. destruct (cells i c Hc) as (L & ND & tag & K & nm & HS & _). eauto 8. Qed.

  Lemma transfer_ok : exists R P, buildRestrictionProlongation d coarse fine (length C) F dofsC nC dofsF nF = Ok (R, P) /\ wf_csr nC nF R /\ wf_csr nF nC P /\
    (forall I J, (I < nC)%nat -> (J < nF)%nat -> matrix P J I = matrix R I J) /\
    (forall u, tab nF (mv nC (matrix P) (vat u)) = applied nsub T C F dofsC dofsF nC nF u).
  Proof using All.
    destruct (operators_ok coarse fine d nsub T eps (length V) E C F b b' dofsC dofsF nC nF) as (R & P & ER & EP & wR & wP & HT & HA); auto using cells'.
    exists R, P. split; [|auto]. unfold buildRestrictionProlongation. rewrite Ht, ER. cbn [bind]. rewrite EP. reflexivity.
  Qed.

  Lemma rows_of i row rowF s : (s < nsub)%nat -> nth_error dofsC i = Some row -> nth_error dofsF (nsub * i + s) = Some rowF ->
    exists c tag K nm, nth_error C i = Some c /\ cell_structure d nsub (length V) E F i c tag K nm /\ positions dim d nsub V V' c K nm.
  Proof using All.
    intros Hs Hr _. pose proof numC as (HL & _). assert (Hi : (i < length C)%nat) by (rewrite <- HL; apply nth_error_Some; congruence).
    destruct (nth_error C i) as [c|] eqn:Hc; [|apply nth_error_None in Hc; lia]. destruct (cells i c Hc) as (L & ND & tag & K & nm & HS & HP). eauto 9.
  Qed.

  Lemma transfer_exact u : check_reproduced coarse fine d nsub = true -> eps = 0 ->
    same_fe_function nsub dim d coarse fine V C dofsC u V' F dofsF (applied nsub T C F dofsC dofsF nC nF u).
  Proof using All.
    intros Cr E0 i c row s t rowF l l' Hs Hc Hr Ht' HrF HI Hl Hl' Hpt.
    destruct (cells i c Hc) as (Lc & ND & tag & K & nm & HS & HP). pose proof HS as (HK & HF & _).
    assert (t = map nm (nth s K [])) as -> by (specialize (HF s Hs); congruence).
    assert (l' = lpoint d (nth s K []) l) as ->.
    { destruct (kids_ok nsub d tag K s Hd HK) as [_ Kid]. destruct (lpoint_coordinates d (nth s K []) l (Kid Hs) Hl) as [Ll Tl]. destruct Hl as [L1 T1], Hl' as [L2 T2].
      apply HI; auto; unfold corners; rewrite ?map_length; try lia. intros k Hk. fold (corners V c). rewrite <- Hpt by auto. apply (child_point dim d nsub V V' c tag K nm s l k); auto. }
    assert (LF : forall m t, nth_error F m = Some t -> length t = S d) by (apply (cellsF coarse fine d nsub T eps (length V) E C F b b' dofsC dofsF nC nF); auto using cells').
    assert (LC : forall i c, nth_error C i = Some c -> length c = S d) by (intros j c' Hj; apply (cells j c' Hj)).
    erewrite (value_sum coarse fine d nsub T eps (length V) E C F b b' dofsC dofsF nC nF) with (D := F); eauto using cells'.
    erewrite (value_sum coarse fine d nsub T eps (length V) E C F b b' dofsC dofsF nC nF) with (D := C); eauto using cells'.
    rewrite (sumf_ext (fe_size fine d) _ (fun k => sumf (fe_size coarse d) (fun j => coefficient u (zat dofsC i j) * weight coarse fine d (nth s K []) j k * phi fine d k l))).
    - rewrite sumf_swap. apply sumf_ext. intros j Hj. rewrite (reproduced_spec coarse fine d nsub Hd Cr tag K s j l) by auto. rewrite <- sumf_scal. apply sumf_ext. intros k Hk. ring.
    - intros k Hk. rewrite sumf_scal_r. f_equal.
      pose proof (applied_close coarse fine d nsub T eps (length V) E C F b b' dofsC dofsF nC nF Hd cells' fine_cells distinct numC numF contained few zero Ce Cc Cp eps0 u i c tag K nm s k Hc HS Hs Hk) as A.
      rewrite E0, Qcmult_0_l in A. pose proof (Qcle_antisym _ _ A (Qcabs.Qcabs_nonneg _)) as A0. apply Qcabs.Qcabs_null in A0.
      match type of A0 with ?x - ?y = _ => transitivity (x - y + y); [ring|rewrite A0; ring] end.
  Qed.

  Lemma transfer_near u : nsub = 1%nat -> near_fe_function eps d coarse fine dofsC u dofsF (applied nsub T C F dofsC dofsF nC nF u).
  Proof using All.
    intros N1 i row rowF k dof Hr HrF Hk. assert (Hs : (0 < nsub)%nat) by lia. assert (EF : (nsub * i + 0 = i)%nat) by (rewrite N1; lia).
    rewrite <- EF in HrF. destruct (rows_of i row rowF 0 Hs Hr HrF) as (c & tag & K & nm & Hc & HS & HP). pose proof HS as (HK & HF & _).
    assert (LF : forall m t, nth_error F m = Some t -> length t = S d) by (apply (cellsF coarse fine d nsub T eps (length V) E C F b b' dofsC dofsF nC nF); auto using cells').
    assert (LC : forall i c, nth_error C i = Some c -> length c = S d) by (intros j c' Hj; apply (cells j c' Hj)).
    destruct (num_row fine d F b' dofsF nF Hd LF numF _ _ (HF 0%nat Hs)) as (rF & ErF & LrF & HrF'). assert (rF = rowF) as -> by congruence.
    assert (Hk' : (k < fe_size fine d)%nat) by (rewrite <- LrF; apply nth_error_Some; congruence). rewrite HrF' in Hk by auto. inversion Hk; subst dof. clear Hk.
    pose proof (applied_close coarse fine d nsub T eps (length V) E C F b b' dofsC dofsF nC nF Hd cells' fine_cells distinct numC numF contained few zero Ce Cc Cp eps0 u i c tag K nm 0%nat k Hc HS Hs Hk') as A.
    rewrite (value_sum coarse fine d nsub T eps (length V) E C F b b' dofsC dofsF nC nF Hd cells' fine_cells distinct numC numF contained few zero Ce Cc Cp eps0 coarse C dofsC b nC row i c u _ LC numC Hc Hr).
    assert (EK : lpoint d (nth 0 K []) (node fine d k) = node fine d k).
    { destruct (node_coordinates fine d k Hd Hk') as [Ln _]. unfold lpoint. rewrite N1 in HK.
      assert (EK : K = [map (fun a => (a, a)) (seq 0 (S d))]) by (clear - HK; destruct d as [|[|[|[|]]]]; destruct HK as [HK|[]]; congruence). rewrite EK. cbn [nth].
      symmetry. apply (eq_tab _ _ _ 0); auto. intros a Ha. rewrite (sumf_single (S d) _ a); auto.
      - unfold knth. rewrite (nth_error_nth _ a (0, 0)%nat (x := (a, a))) by (rewrite nth_error_map, nth_error_nth' with (d := 0%nat), seq_nth by (rewrite ?seq_length; lia); reflexivity).
        unfold ncoord, ind. cbn [fst snd]. rewrite Nat.eqb_refl, !Qcmult_1_r, half_half. unfold vat. ring.
      - intros x Hx N. unfold knth. rewrite (nth_error_nth _ x (0, 0)%nat (x := (x, x))) by (rewrite nth_error_map, nth_error_nth' with (d := 0%nat), seq_nth by (rewrite ?seq_length; lia); reflexivity).
        unfold ncoord, ind. cbn [fst snd]. destruct (Nat.eqb_spec x a); [congruence|]. ring. }
    unfold weight in A. rewrite EK in A.
    destruct (num_row coarse d C b dofsC nC Hd LC numC i c Hc) as (rC & ErC & LrC & HrC). assert (rC = row) as -> by congruence.
    assert (ES : suml (map (fun z => Qcabs.Qcabs (coefficient u z)) row) = sumf (fe_size coarse d) (fun j => Qcabs.Qcabs (coefficient u (zat dofsC i j)))).
    { rewrite <- suml_tab. f_equal. apply (eq_tab _ _ _ 0); [rewrite map_length; auto|]. intros j Hj. apply nth_error_nth. rewrite nth_error_map, HrC by auto. reflexivity. }
    rewrite ES. exact A.
  Qed.
End Exact.
