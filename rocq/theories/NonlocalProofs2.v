(** The loops over pairs of cells as lists of additions. *)
From Verif Require Import Util Lin MeshModel LocalSpec FormsProofs2 ReorderProofs AssemblyModel AssemblySpec AssemblyProofs AssemblyProofs2 AssemblyProofs7
  RestrictionProofs NonlocalModel NonlocalSpec NonlocalProofs.
From Coq Require Import Lia.
Set Default Proof Using "Type".

Lemma for_list_bind {A S} (l1 l2 : list A) (f : A -> S -> res S) s : for_list (l1 ++ l2) f s = bind (for_list l1 f s) (for_list l2 f).
Proof. revert s. induction l1 as [|x l1 IH]; intros s; cbn [app for_list]; [reflexivity|]. rewrite bind_assoc. apply bind_ext. intros a. apply IH. Qed.

Section Track.
  Context {M : Type}.
  Variable add : M -> nat -> nat -> Qc -> res M.
  (** A part of the program that makes the additions [evs] to the matrix; how it changes the
      rest of the state does not depend on the matrix. *)
  Definition tracks (f : @work M -> res (@work M)) (evs : list contribution) (P Q : lmstate -> buf Z -> buf Qc -> Prop) : Prop :=
    forall lm ld con, P lm ld con -> exists lm' ld' con', Q lm' ld' con' /\
      forall A, f (W lm ld con A) = bind (for_list evs (do_add add) A) (fun A => Ok (W lm' ld' con' A)).
  Lemma tracks_bind f g e1 e2 P Q R : tracks f e1 P Q -> tracks g e2 Q R -> tracks (fun w => bind (f w) g) (e1 ++ e2) P R.
  Proof.
    intros F G lm ld con HP. destruct (F _ _ _ HP) as (lm1 & ld1 & con1 & HQ & E1). destruct (G _ _ _ HQ) as (lm2 & ld2 & con2 & HR & E2).
    exists lm2, ld2, con2. split; [exact HR|]. intros A. cbn beta. rewrite E1, for_list_bind, !bind_assoc. apply bind_ext. intros A'. rewrite bind_Ok. apply E2.
  Qed.
  Lemma tracks_loop f ev P n : forall lo, (forall i, lo <= i < lo + n -> tracks (f i) (ev i) P P) ->
    tracks (for_n n lo f) (flat_map ev (seq lo n)) P P.
  Proof.
    induction n as [|n IH]; intros lo H.
    - intros lm ld con HP. exists lm, ld, con. split; [exact HP|]. intros A. reflexivity.
    - cbn [for_n seq flat_map]. apply (tracks_bind (f lo) (for_n n (S lo) f) _ _ P P P); [apply H; lia|]. apply IH. intros; apply H; lia.
  Qed.
End Track.

Section Pair.
  Context {M : Type}.
  Variables (add : M -> nat -> nat -> Qc -> res M) (B nc nb : nat) (dm : dofmap).
  Hypothesis ok : dofs_ok nc (dm_dpe dm) (dm_num dm) nb (dm_dofs dm).
  Notation dpe := (dm_dpe dm).

  Section Interior.
    Variables (L : double_local) (C : nat -> nat -> nat -> nat -> Qc).
    Hypothesis HL : evaluates_pairs true L nc nc (2 * dpe) C.
    Notation size := (stored_size (dl_symLocal L) (2 * dpe)).
    Hypothesis HB : size <= B.

    Definition once (K1 K2 : nat) (fac : Qc) : list contribution :=
      loc_events (dl_symLocal L) (2 * dpe) (ldof (dm_dofs dm) dpe K1 K2) (C K1 K2) fac.
    Definition ignored (K1 K2 : nat) : bool := (dl_panel L (Z.of_nat K1) (Z.of_nat K2) =? IGNORED)%Z.
    Definition pair_events (K1 K2 : nat) : list contribution :=
      if K1 =? K2 then if ignored K1 K2 then [] else once K1 K2 1
      else if dl_symCells L then if ignored K1 K2 then [] else once K1 K2 (1 + 1)
      else (if ignored K1 K2 then [] else once K1 K2 1) ++ (if ignored K2 K1 then [] else once K2 K1 1).

    Lemma add_local_ok n ld con d (f : nat -> nat -> Qc) fac A : (forall p, p < n -> nth_error ld p = Some (Some (d p))) ->
      (forall k, k < stored_size (dl_symLocal L) n -> nth_error con k = Some (Some (nth k (stored_values (dl_symLocal L) n f) 0%Qc))) ->
      (if dl_symLocal L then add_sym add n ld con fac A else add_full add n ld con fac A) = for_list (loc_events (dl_symLocal L) n d f fac) (do_add add) A.
    Proof using Type.
      clear HB HL ok. intros H1 H2. unfold loc_events, stored_size, stored_values in *. destruct (dl_symLocal L).
      - apply add_sym_ok; [exact H1|]. intros p q Hp Hq _ _. rewrite H2 by (apply row_start_lt; lia).
        rewrite triangle_shift by lia. do 2 f_equal. cbn [Nat.add]. f_equal. lia.
      - apply add_full_ok; [exact H1|]. intros p q Hp Hq _ _. rewrite H2 by (nia). do 2 f_equal.
        apply nth_error_nth. rewrite full_matrix_nth by assumption. reflexivity.
    Qed.
    Lemma eval_add_ok fac K1 K2 lm ld con : K1 < nc -> K2 < nc -> has_cells lm K1 K2 ->
      length con = size -> getPanelType L lm <> IGNORED ->
      (forall p, p < 2 * dpe -> nth_error ld p = Some (Some (ldof (dm_dofs dm) dpe K1 K2 p))) ->
      exists con', length con' = size /\ forall A,
        eval_add add B dm L fac (getPanelType L lm) (W lm ld con A) = bind (for_list (once K1 K2 fac) (do_add add) A) (fun A => Ok (W lm ld con' A)).
    Proof using HL HB.
      intros H1 H2 Hs Hl Hi Hd. destruct (HL K1 K2 lm con (ALL B) H1 H2 Hs Hl (fun _ => Hi)) as (out & E & Ho & V).
      exists out. split; [exact Ho|]. intros A. unfold eval_add. cbn [w_lm w_ld w_con w_A]. rewrite E, bind_Ok. unfold add_local.
      rewrite (add_local_ok (2 * dpe) ld out (ldof (dm_dofs dm) dpe K1 K2) (C K1 K2) fac A Hd); [reflexivity|].
      intros k Hk. apply V; [exact Hk|]. apply testbit_all. lia.
    Qed.
    Lemma once_skip K1 K2 fac : (forall p, p < 2 * dpe -> (ldof (dm_dofs dm) dpe K1 K2 p < 0)%Z) -> once K1 K2 fac = [].
    Proof using Type.
      clear HB HL ok. intros H. unfold once, loc_events, sym_events, all_events.
      assert (G : forall (g : nat -> list contribution), flat_map (fun p => if (0 <=? ldof (dm_dofs dm) dpe K1 K2 p)%Z then g p else []) (seq 0 (2 * dpe)) = []).
      { intros g. assert (E : forall l, (forall p, In p l -> p < 2 * dpe) -> flat_map (fun p => if (0 <=? ldof (dm_dofs dm) dpe K1 K2 p)%Z then g p else []) l = []).
        { induction l as [|x l IH]; intros Hl; [reflexivity|]. cbn [flat_map]. rewrite IH by (intros; apply Hl; right; assumption).
          specialize (H x (Hl x (or_introl eq_refl))). destruct (Z.leb_spec 0 (ldof (dm_dofs dm) dpe K1 K2 x)); [lia|reflexivity]. }
        apply E. intros p Hp. apply in_seq in Hp. lia. }
      destruct (dl_symLocal L); apply G.
    Qed.
    Lemma ldof_swap K1 K2 p : p < 2 * dpe -> ldof (dm_dofs dm) dpe K2 K1 (other dpe p) = ldof (dm_dofs dm) dpe K1 K2 p.
    Proof using Type.
      clear HB HL ok. intros H. unfold ldof, other. destruct (Nat.ltb_spec p dpe).
      - destruct (Nat.ltb_spec (p + dpe) dpe); [lia|]. f_equal. lia.
      - destruct (Nat.ltb_spec (p - dpe) dpe); [reflexivity|lia].
    Qed.
    Lemma other_lt p : p < 2 * dpe -> other dpe p < 2 * dpe.
    Proof using Type. clear HB HL ok. intros H. unfold other. destruct (Nat.ltb_spec p dpe); lia. Qed.

    Definition good (lm : lmstate) (ld : buf Z) (con : buf Qc) : Prop := coherent lm /\ length ld = 2 * dpe /\ length con = size.
    Definition good_at (c1 : nat) (lm : lmstate) (ld : buf Z) (con : buf Qc) : Prop := good lm ld con /\ l_c1 lm = Z.of_nat c1.
    Lemma setCell2_good c1 c2 lm : coherent lm -> l_c1 lm = Z.of_nat c1 ->
      coherent (setCell2 c2 lm) /\ l_c1 (setCell2 c2 lm) = Z.of_nat c1 /\ has_cells (setCell2 c2 lm) c1 c2.
    Proof using Type.
      clear HB HL ok. intros [H1 H2] Hc. unfold setCell2, has_cells, coherent. destruct (Z.eqb_spec (l_c2 lm) (Z.of_nat c2)) as [E|E]; cbn [l_c1 l_c2 l_v1 l_v2].
      - split; [split; assumption|]. split; [exact Hc|]. split; [exact Hc|]. split; [exact E|]. left.
        destruct H1 as [H1|H1]; [lia|]. destruct H2 as [H2|H2]; [lia|]. split; congruence.
      - split; [split; [exact H1|right; reflexivity]|]. split; [exact Hc|]. split; [exact Hc|]. split; [reflexivity|]. left.
        destruct H1 as [H1|H1]; [lia|]. split; congruence.
    Qed.
    Lemma swap_has s K1 K2 : has_cells s K1 K2 -> has_cells (swapCells s) K2 K1.
    Proof using Type. intros (H1 & H2 & H3). unfold has_cells, swapCells. cbn [l_c1 l_c2 l_v1 l_v2]. split; [exact H2|]. split; [exact H1|]. destruct H3; [right|left]; assumption. Qed.
    Lemma panel_has s K1 K2 : has_cells s K1 K2 -> (getPanelType L s =? IGNORED)%Z = ignored K1 K2.
    Proof using Type. intros (H1 & H2 & _). unfold getPanelType, ignored. rewrite H1, H2. reflexivity. Qed.

    Lemma pair_body_ok c1 c2 : c1 < nc -> c2 < nc -> tracks add (pair_body add B dm L c1 c2) (pair_events c1 c2) (good_at c1) (good_at c1).
    Proof using ok HL HB.
      intros H1 H2 lm ld con ((Hc & Hld & Hcon) & Hl). unfold pair_body. cbn [w_lm w_ld w_con w_A].
      destruct (setCell2_good c1 c2 lm Hc Hl) as (Hc' & Hl' & Hh).
      destruct (getDoFsElemElem_ok nc nb dm ok c1 c2 ld H1 H2 Hld) as (ld1 & skip & E1 & L1 & V1 & S1).
      rewrite E1. clear E1. set (lm1 := setCell2 c2 lm) in *. clearbody lm1.
      assert (G1 : good_at c1 lm1 ld1 con) by (split; [split; [exact Hc'|split; [exact L1|exact Hcon]]|exact Hl']).
      destruct skip.
      { exists lm1, ld1, con. split; [exact G1|]. intros A. rewrite bind_Ok. assert (Hn : forall p, p < 2 * dpe -> (ldof (dm_dofs dm) dpe c1 c2 p < 0)%Z) by (apply S1; reflexivity).
        assert (Hn' : forall p, p < 2 * dpe -> (ldof (dm_dofs dm) dpe c2 c1 p < 0)%Z).
        { intros p Hp. rewrite <- ldof_swap by exact Hp. apply Hn, other_lt, Hp. }
        assert (E : pair_events c1 c2 = []).
        { unfold pair_events. rewrite !(once_skip c1 c2) by exact Hn. rewrite !(once_skip c2 c1) by exact Hn'.
          destruct (c1 =? c2), (dl_symCells L), (ignored c1 c2), (ignored c2 c1); reflexivity. }
        rewrite E. reflexivity. }
      assert (Hp : ignored c1 c2 = false -> getPanelType L lm1 <> IGNORED).
      { rewrite <- (panel_has lm1 c1 c2 Hh). apply Z.eqb_neq. }
      assert (One : forall fac, exists con', length con' = size /\ forall A,
        (if ignored c1 c2 then Ok (W lm1 ld1 con A) else eval_add add B dm L fac (getPanelType L lm1) (W lm1 ld1 con A)) =
        bind (for_list (if ignored c1 c2 then [] else once c1 c2 fac) (do_add add) A) (fun A => Ok (W lm1 ld1 con' A))).
      { intros fac. destruct (ignored c1 c2) eqn:Ei.
        - exists con. split; [exact Hcon|]. intros A. reflexivity.
        - apply eval_add_ok; auto. }
      unfold pair_events. destruct (c1 =? c2) eqn:E12; [|destruct (dl_symCells L) eqn:Esc].
      - destruct (One 1%Qc) as (con' & Lc & E). exists lm1, ld1, con'. split; [split; [split; [exact Hc'|split; assumption]|exact Hl']|].
        intros A. rewrite bind_Ok, (panel_has lm1 c1 c2 Hh). apply E.
      - destruct (One (1 + 1)%Qc) as (con' & Lc & E). exists lm1, ld1, con'. split; [split; [split; [exact Hc'|split; assumption]|exact Hl']|].
        intros A. rewrite bind_Ok, (panel_has lm1 c1 c2 Hh). apply E.
      - destruct (One 1%Qc) as (con' & Lc & E). pose proof (swap_has _ _ _ Hh) as Hs.
        assert (Hp2 : ignored c2 c1 = false -> getPanelType L (swapCells lm1) <> IGNORED).
        { rewrite <- (panel_has (swapCells lm1) c2 c1 Hs). apply Z.eqb_neq. }
        assert (Sw : swapCells (swapCells lm1) = lm1) by (destruct lm1; reflexivity).
        destruct (ignored c2 c1) eqn:E21.
        + exists lm1, ld1, con'. split; [split; [split; [exact Hc'|split; assumption]|exact Hl']|].
          intros A. rewrite bind_Ok, (panel_has lm1 c1 c2 Hh), E, app_nil_r, bind_assoc. apply bind_ext. intros A1. rewrite bind_Ok. cbn [w_lm w_ld w_con w_A].
          rewrite (panel_has _ c2 c1 Hs), E21, Sw. reflexivity.
        + destruct (getDoFsElemElem_ok nc nb dm ok c2 c1 ld1 H2 H1 L1) as (ld2 & skip2 & E2 & L2 & V2 & S2).
          assert (Hsk : skip2 = false).
          { apply not_true_is_false. intros K. pose proof (proj1 S2 K) as K'. assert (F : forall p, p < 2 * dpe -> (ldof (dm_dofs dm) dpe c1 c2 p < 0)%Z).
            { intros p Hp'. rewrite <- ldof_swap by exact Hp'. apply K', other_lt, Hp'. }
            pose proof (proj2 S1 F) as F'. discriminate. }
          destruct (eval_add_ok 1%Qc c2 c1 (swapCells lm1) ld2 con' H2 H1 Hs Lc (Hp2 eq_refl) V2) as (con2 & Lc2 & E3).
          exists lm1, ld2, con2. split; [split; [split; [exact Hc'|split; assumption]|exact Hl']|].
          intros A. rewrite bind_Ok, (panel_has lm1 c1 c2 Hh), E, for_list_bind, !bind_assoc. apply bind_ext. intros A1. rewrite bind_Ok. cbn [w_lm w_ld w_con w_A].
          rewrite (panel_has _ c2 c1 Hs), E21, E2, bind_Ok, Hsk. cbn [w_lm w_ld w_con w_A]. rewrite E3, bind_assoc. apply bind_ext. intros A2.
          rewrite bind_Ok. cbn [w_lm w_ld w_con w_A]. rewrite Sw. reflexivity.
    Qed.
    Lemma interior_events start stop : stop <= nc ->
      tracks add (interior add B dm nc L start stop) (flat_map (fun c1 => flat_map (pair_events c1) (seq c1 (nc - c1))) (seq start (stop - start))) good good.
    Proof using ok HL HB.
      intros Hs. unfold interior, for_range. apply tracks_loop. intros c1 Hc1 lm ld con (Hc & Hld & Hcon).
      assert (G : good_at c1 (setCell1 c1 lm) ld con).
      { unfold setCell1, good_at, good, coherent. destruct Hc as [Ha Hb]. destruct (Z.eqb_spec (l_c1 lm) (Z.of_nat c1)) as [E|E]; cbn [l_c1 l_c2 l_v1 l_v2]; repeat split; auto. }
      destruct (tracks_loop add (pair_body add B dm L c1) (pair_events c1) (good_at c1) (nc - c1) c1) with (lm := setCell1 c1 lm) (ld := ld) (con := con)
        as (lm' & ld' & con' & G' & E); [intros i Hi; apply pair_body_ok; lia|exact G|].
      exists lm', ld', con'. split; [exact (proj1 G')|]. intros A. cbn [w_lm w_ld w_con w_A]. apply E.
    Qed.
  End Interior.

  Section Exterior.
    Variables (E : double_local) (ns : nat) (D : nat -> nat -> nat -> nat -> Qc).
    Hypothesis HE : exterior_ok E dpe nc ns D.
    Hypothesis HB : dpe * (dpe + 1) / 2 <= B.
    Definition facet_events (K e : nat) : list contribution := sym_events dpe (dof (dm_dofs dm) K) (D K e) 1.
    Definition goodE (lm : lmstate) (ld : buf Z) (con : buf Qc) : Prop := coherent lm /\ length ld = 2 * dpe /\ length con = stored_size true dpe.
    Lemma exterior_events start stop : stop <= nc ->
      tracks add (zero_exterior add B dm E ns start stop) (flat_map (fun K => flat_map (facet_events K) (seq 0 ns)) (seq start (stop - start))) goodE goodE.
    Proof using ok HE HB.
      intros Hs. unfold zero_exterior, for_range. apply tracks_loop. intros c1 Hc1 lm ld con (Hc & Hld & Hcon). cbn [w_lm w_ld w_con w_A].
      destruct (getDoFsElem_ok nc nb dm ok c1 ld ltac:(lia) Hld) as (ld1 & E1 & L1 & V1).
      destruct (getElemSymMask_ok B dpe ld1 (dof (dm_dofs dm) c1) HB V1) as (mask & E2 & V2).
      destruct HE as (Hev & Hsym & Hsd).
      set (P := fun (lm : lmstate) (ld : buf Z) (con : buf Qc) => coherent lm /\ ld = ld1 /\ length con = stored_size true dpe /\ l_c1 lm = Z.of_nat c1).
      destruct (tracks_loop add (fun c2 w =>
        let lm := setCell2 c2 (w_lm w) in
        con <- dl_eval E lm (getPanelType E lm) mask (w_con w) ;;
        A <- add_sym add dpe (w_ld w) con 1 (w_A w) ;;
        Ok (W lm (w_ld w) con A)) (facet_events c1) P ns 0) with (lm := setCell1 c1 lm) (ld := ld1) (con := con) as (lm' & ld' & con' & G' & E3).
      - intros e He lm0 ld0 con0 (P1 & -> & P3 & P4). destruct (setCell2_good c1 e lm0 P1 P4) as (Q1 & Q2 & Q3). cbn [w_lm w_ld w_con w_A].
        unfold evaluates_pairs in Hev. rewrite Hsym in Hev.
        destruct (Hev c1 e (setCell2 e lm0) con0 mask ltac:(lia) ltac:(lia) Q3 P3 ltac:(discriminate)) as (out & Eo & Lo & Vo).
        exists (setCell2 e lm0), ld1, out. split; [repeat split; auto; apply Q1|]. intros A. rewrite Eo, bind_Ok.
        rewrite (add_sym_ok add dpe ld1 (dof (dm_dofs dm) c1) out (D c1 e) 1%Qc V1); [reflexivity|].
        intros p q Hp Hq H0 H0'. unfold stored_size, stored_values in Vo. rewrite Vo.
        + rewrite triangle_shift by lia. do 2 f_equal. cbn [Nat.add]. f_equal. lia.
        + apply row_start_lt. lia.
        + apply V2; assumption.
      - destruct Hc as [Ha Hb]. unfold P, coherent, setCell1. destruct (Z.eqb_spec (l_c1 lm) (Z.of_nat c1)) as [Ec|Ec]; cbn [l_c1 l_c2 l_v1 l_v2]; repeat split; auto.
      - destruct G' as (G1 & -> & G3 & G4). exists lm', ld1, con'. split; [repeat split; auto; apply G1|].
        intros A. rewrite E1, bind_Ok, E2, bind_Ok. specialize (E3 A). unfold for_range. rewrite Nat.sub_0_r. apply E3.
    Qed.
  End Exterior.

  Definition ext_events (ext : option (double_local * nat * lmstate * buf Qc)) (D : nat -> nat -> nat -> nat -> Qc) (start stop : nat) : list contribution :=
    match ext with None => [] | Some (_, ns, _, _) => flat_map (fun K => flat_map (facet_events D K) (seq 0 ns)) (seq start (stop - start)) end.
  Definition cells_events (L : double_local) (C : nat -> nat -> nat -> nat -> Qc) ext D (start stop : nat) : list contribution :=
    flat_map (fun c1 => flat_map (pair_events L C c1) (seq c1 (nc - c1))) (seq start (stop - start)) ++ ext_events ext D start stop.
  Lemma assemble_cells_events L C ext D lm con start stop A : evaluates_pairs true L nc nc (2 * dpe) C -> ext_ok ext dpe nc D ->
    stored_size (dl_symLocal L) (2 * dpe) <= B -> coherent lm -> length con = stored_size (dl_symLocal L) (2 * dpe) -> stop <= nc ->
    assemble_cells add B dm nc L lm con ext start stop A = for_list (cells_events L C ext D start stop) (do_add add) A.
  Proof using ok.
    intros HL HE HB Hlm Hcon Hs. unfold assemble_cells, cells_events.
    destruct (interior_events L C HL HB start stop Hs lm (alloc (2 * dpe)) con) as (lm' & ld' & con' & (G1 & G2 & G3) & E).
    { split; [exact Hlm|]. split; [apply alloc_length|exact Hcon]. }
    rewrite E, for_list_bind, bind_assoc. apply bind_ext. intros A1. rewrite bind_Ok. cbn [w_lm w_ld w_con w_A].
    destruct ext as [[[[Eo ns] lmE] conE]|]; [|reflexivity]. cbn [ext_ok] in HE. destruct HE as [HE Hce].
    assert (HB' : dpe * (dpe + 1) / 2 <= B).
    { apply Nat.le_trans with (stored_size (dl_symLocal L) (2 * dpe)); [|exact HB]. unfold stored_size. destruct (dl_symLocal L).
      - apply Nat.div_le_mono; [lia|nia].
      - apply Nat.div_le_upper_bound; [lia|nia]. }
    destruct (exterior_events Eo ns D HE HB' start stop Hs (setMesh2 lmE) ld' conE) as (lm2 & ld2 & con2 & _ & E2).
    { split; [split; left; reflexivity|]. split; [exact G2|exact Hce]. }
    cbn [ext_events]. rewrite E2, bind_assoc. destruct (for_list _ _ A1); reflexivity.
  Qed.
End Pair.
