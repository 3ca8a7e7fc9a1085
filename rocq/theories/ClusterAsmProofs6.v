(** Assembly from clusters: the exterior part, and the matrices that result. *)
From Verif Require Import Util Lin MeshModel LocalSpec FormsProofs2 ReorderProofs AssemblyModel AssemblySpec AssemblyProofs AssemblyProofs2 AssemblyProofs7
  RestrictionProofs TupleDictModel TupleDictSpec
  NonlocalModel NonlocalSpec NonlocalProofs NonlocalModel2 NonlocalProofs2 NonlocalProofs3 NonlocalProofs5 NonlocalProofs6
  ClusterAsmModel ClusterAsmSpec ClusterAsmProofs ClusterAsmProofs2 ClusterAsmProofs3 ClusterAsmProofs4 ClusterAsmProofs5.
From Coq Require Import Lia NArith.
Set Default Proof Using "Type".

Definition smask (B n : nat) (np : npair) (d : nat -> Z) : N :=
  symMask B n (fun p => zmem (np_dofs1 np) (nth p (map d (seq 0 n)) 0%Z)) (fun q => zmem (np_dofs2 np) (nth q (map d (seq 0 n)) 0%Z)).
Lemma nth_tab n (d : nat -> Z) p : p < n -> nth p (map d (seq 0 n)) 0%Z = d p.
Proof. intros H. rewrite (nth_indep _ 0%Z (d 0)) by (rewrite map_length, seq_length; exact H). rewrite map_nth, seq_nth by exact H. reflexivity. Qed.
Lemma smask_bits B n np d p q : stored_size true n <= B -> p < n -> q < n ->
  tb (smask B n np d) (midx true n p q) = zmem (np_dofs1 np) (d (Nat.min p q)) && zmem (np_dofs2 np) (d (Nat.max p q)).
Proof.
  intros HB Hp Hq. replace (midx true n p q) with (midx true n (Nat.min p q) (Nat.max p q)) by (unfold midx; f_equal; [f_equal; lia|lia]).
  unfold smask. rewrite symMask_bits by lia. rewrite !nth_tab by lia. reflexivity.
Qed.
Lemma smask_inner B n np d : stored_size true n <= B -> selects_inner true n d (smask B n np d).
Proof.
  intros HB p q Hp Hq E. rewrite (smask_bits B n np d p q HB Hp Hq) in E. apply andb_true_iff in E. destruct E as [E1 E2]. apply zmem_pos in E1, E2.
  destruct (Nat.le_ge_cases p q) as [H|H]; [rewrite Nat.min_l in E1 by exact H; rewrite Nat.max_r in E2 by exact H|rewrite Nat.min_r in E1 by exact H; rewrite Nat.max_l in E2 by exact H]; auto.
Qed.
Lemma elem_mask_ok B n np ld d : (forall p, p < n -> nth_error ld p = Some (Some (d p))) -> getElemSymMaskCluster B n (np_dofs1 np) (np_dofs2 np) ld = Ok (smask B n np d).
Proof.
  intros Hld. unfold getElemSymMaskCluster. destruct (for_range_inv (fun i ds => ds = map d (seq 0 i)) (fun p ds => d <- rd ld p ;; Ok (ds ++ [d])) 0 n []) as (ds & E & ->); [lia|reflexivity| |].
  - intros i s Hi ->. rewrite (rd_ok _ _ _ (Hld i ltac:(lia))), bind_Ok. eexists. split; [reflexivity|]. rewrite seq_S, map_app. reflexivity.
  - rewrite E, bind_Ok. reflexivity.
Qed.

Section Exterior.
  Context {M : Type}.
  Variables (add : M -> nat -> nat -> Qc -> res M) (B nc nb : nat) (dm : dofmap).
  Hypothesis ok : dofs_ok nc (dm_dpe dm) (dm_num dm) nb (dm_dofs dm).
  Notation dpe := (dm_dpe dm).
  Variables (E : npair -> double_local * nat) (D : npair -> nat -> nat -> nat -> nat -> Qc) (P : list npair).
  Hypothesis HE : forall np, In np P -> exterior_ok (fst (E np)) dpe nc (snd (E np)) (D np).
  Hypothesis HB : stored_size true dpe <= B.
  Hypothesis Hr : forall np K, In np P -> In K (np_inter np) -> K < nc.
  Definition surf_cell (np : npair) (K : nat) : list contribution :=
    flat_map (fun e => mev true dpe (dof (dm_dofs dm) K) (D np K e) 1%Qc (smask B dpe np (dof (dm_dofs dm) K))) (seq 0 (snd (E np))).
  Definition surf_events (np : npair) : list contribution := flat_map (surf_cell np) (np_inter np).
  Definition sized (lm : lmstate) (ld : buf Z) (con : buf Qc) : Prop := length ld = 2 * dpe /\ length con = stored_size true dpe.
  Lemma cluster_exterior_ok : tracks add (cluster_exterior add B dm E P) (flat_map surf_events P) sized sized.
  Proof using ok HE HB Hr.
    unfold cluster_exterior. apply tracks_list. intros np Hn lm ld con (Hld & Hcon). specialize (HE np Hn). specialize (Hr np).
    unfold surf_events. destruct (np_inter np) as [|k0 rest] eqn:Ei.
    { exists lm, ld, con. split; [split; assumption|]. intros A. reflexivity. }
    rewrite <- Ei in *. clear Ei k0 rest. unfold surf_cell. destruct (E np) as [X ns] eqn:EX. cbn [fst snd] in *. cbn [w_lm w_ld w_con w_A].
    destruct HE as (Hev & Hsym & Hsd). clear HE.
    assert (T : tracks add (for_list (np_inter np) (fun c1 w =>
          let lm := setCell1 c1 (w_lm w) in
          ld <- getDoFsElem dm None c1 (w_ld w) ;;
          mask <- getElemSymMaskCluster B dpe (np_dofs1 np) (np_dofs2 np) ld ;;
          for_range 0 ns (fun c2 w =>
            let lm := setCell2 c2 (w_lm w) in
            con <- dl_eval X lm (getPanelType X lm) mask (w_con w) ;;
            _ <- guard (dl_symLocal X) ENotImpl ;;
            A <- add_sym_masked add dpe (w_ld w) con 1 mask (w_A w) ;;
            Ok (NonlocalModel.W lm (w_ld w) con A)) (NonlocalModel.W lm ld (w_con w) (w_A w))))
        (flat_map (fun K => flat_map (fun e => mev true dpe (dof (dm_dofs dm) K) (D np K e) 1%Qc (smask B dpe np (dof (dm_dofs dm) K))) (seq 0 ns)) (np_inter np)) (goodE dm) (goodE dm)).
    { apply tracks_list. clear lm ld con Hld Hcon. intros c1 Hc1 lm ld con (Hc & Hld & Hcon). cbn [w_lm w_ld w_con w_A]. cbv zeta.
      assert (H1 : c1 < nc) by (apply Hr; auto). destruct (setCell1_good c1 lm Hc) as [Hc' Hl'].
      destruct (getDoFsElem_ok nc nb dm ok c1 ld H1 Hld) as (ld1 & E1 & L1 & V1).
      pose proof (elem_mask_ok B dpe np ld1 (dof (dm_dofs dm) c1) V1) as E2. set (mask := smask B dpe np (dof (dm_dofs dm) c1)) in *.
      set (Pr := fun (lm : lmstate) (ld : buf Z) (con : buf Qc) => coherent lm /\ ld = ld1 /\ length con = stored_size true dpe /\ l_c1 lm = Z.of_nat c1).
      destruct (tracks_loop add (fun c2 w =>
        let lm := setCell2 c2 (w_lm w) in
        con <- dl_eval X lm (getPanelType X lm) mask (w_con w) ;;
        _ <- guard (dl_symLocal X) ENotImpl ;;
        A <- add_sym_masked add dpe (w_ld w) con 1 mask (w_A w) ;;
        Ok (NonlocalModel.W lm (w_ld w) con A)) (fun e => mev true dpe (dof (dm_dofs dm) c1) (D np c1 e) 1%Qc mask) Pr ns 0) with (lm := setCell1 c1 lm) (ld := ld1) (con := con) as (lm' & ld' & con' & G' & E3).
      - intros e He lm0 ld0 con0 (P1 & -> & P3 & P4). destruct (setCell2_good c1 e lm0 P1 P4) as (Q1 & Q2 & Q3). cbn [w_lm w_ld w_con w_A].
        unfold evaluates_pairs in Hev. rewrite Hsym in Hev.
        destruct (Hev c1 e (setCell2 e lm0) con0 mask H1 ltac:(lia) Q3 P3 ltac:(discriminate)) as (out & Eo & Lo & Vo).
        exists (setCell2 e lm0), ld1, out. split; [repeat split; auto; apply Q1|]. intros A. cbv zeta. rewrite Eo, bind_Ok, Hsym. cbn [guard bind].
        rewrite (add_masked_ok add dpe ld1 (dof (dm_dofs dm) c1) out (D np c1 e) 1%Qc mask V1 true A); [reflexivity|]. exact Vo.
      - unfold Pr. auto.
      - destruct G' as (G1 & -> & G3 & G4). exists lm', ld1, con'. split; [repeat split; auto; apply G1|].
        intros A. rewrite E1, bind_Ok, E2, bind_Ok. specialize (E3 A). unfold for_range. rewrite Nat.sub_0_r. apply E3. }
    destruct (T (setMesh2 lm) ld con) as (lm' & ld' & con' & (G1 & G2 & G3) & Eq).
    { split; [|auto]. unfold setMesh2, coherent. cbn. auto. }
    exists lm', ld', con'. split; [split; assumption|]. exact Eq.
  Qed.
  Lemma surf_events_in np a b v : In np P -> In (a, b, v) (surf_events np) -> a < dm_num dm /\ b < dm_num dm.
  Proof using ok HB Hr.
    intros Hn Hin. unfold surf_events, surf_cell in Hin. apply in_flat_map in Hin. destruct Hin as (K & HK & Hin). apply in_flat_map in Hin. destruct Hin as (e & _ & Hin).
    eapply mev_in; [|apply smask_inner; exact HB|exact Hin]. intros p Hp. apply (dof_range nc nb dm ok); [eapply Hr; eassumption|exact Hp].
  Qed.
  Local Open Scope Qc_scope.
  (** The sums over the upper and over the lower triangle of the local matrices. *)
  Definition tri_part (upper : bool) (np np' : npair) (I J : nat) : Qc :=
    suml (map (fun K => sumf dpe (fun p => sumf dpe (fun q => if Bool.eqb (p <=? q)%nat upper then sel (dof (dm_dofs dm) K) I J (fun p q => sumf (snd (E np)) (fun e => D np K e p q)) p q else 0))) (np_inter np')).
  Lemma surf_sum np I J : In np P -> suml (map (at_entry I J) (surf_events np)) =
    (if cov np I J then tri_part true np np I J else 0) + (if cov np J I then tri_part false np np I J else 0).
  Proof using HE HB Hr.
    clear ok. intros Hn. destruct (HE np Hn) as (_ & _ & Hsd). unfold surf_events. rewrite suml_flat.
    transitivity (suml (map (fun K =>
      (if cov np I J then sumf dpe (fun p => sumf dpe (fun q => if Bool.eqb (p <=? q)%nat true then sel (dof (dm_dofs dm) K) I J (fun p q => sumf (snd (E np)) (fun e => D np K e p q)) p q else 0)) else 0) +
      (if cov np J I then sumf dpe (fun p => sumf dpe (fun q => if Bool.eqb (p <=? q)%nat false then sel (dof (dm_dofs dm) K) I J (fun p q => sumf (snd (E np)) (fun e => D np K e p q)) p q else 0)) else 0)) (np_inter np))).
    2:{ rewrite suml_map_plus. unfold tri_part. f_equal; (destruct (cov np _ _); [reflexivity|apply suml_map_zero; reflexivity]). }
    apply suml_ext. intros K HK. assert (H1 : (K < nc)%nat) by (eapply Hr; eassumption). unfold surf_cell. rewrite suml_flat, suml_seq.
    set (d := dof (dm_dofs dm) K).
    transitivity (sumf (snd (E np)) (fun e => sumf dpe (fun p => sumf dpe (fun q => sel d I J (msel true dpe (smask B dpe np d) (D np K e)) p q)))).
    { apply sumf_ext. intros e He. cbn [Nat.add]. rewrite mev_sum; [ring| |apply smask_inner; exact HB]. intros _ p q Hp Hq. apply Hsd; assumption. }
    rewrite sumf_swap.
    transitivity (sumf dpe (fun p => sumf dpe (fun q => (if cov np I J then if Bool.eqb (p <=? q)%nat true then sel d I J (fun p q => sumf (snd (E np)) (fun e => D np K e p q)) p q else 0 else 0) +
      (if cov np J I then if Bool.eqb (p <=? q)%nat false then sel d I J (fun p q => sumf (snd (E np)) (fun e => D np K e p q)) p q else 0 else 0)))).
    2:{ transitivity (sumf dpe (fun p => (if cov np I J then sumf dpe (fun q => if Bool.eqb (p <=? q)%nat true then sel d I J (fun p q => sumf (snd (E np)) (fun e => D np K e p q)) p q else 0) else 0) +
        (if cov np J I then sumf dpe (fun q => if Bool.eqb (p <=? q)%nat false then sel d I J (fun p q => sumf (snd (E np)) (fun e => D np K e p q)) p q else 0) else 0))).
        - apply sumf_ext. intros p _. rewrite sumf_plus. f_equal; (destruct (cov np _ _); [reflexivity|apply sumf_0]).
        - rewrite sumf_plus. f_equal; (destruct (cov np _ _); [reflexivity|apply sumf_0]). }
    apply sumf_ext. intros p Hp. rewrite sumf_swap. apply sumf_ext. intros q Hq. unfold sel, msel. rewrite (smask_bits B dpe np d p q HB Hp Hq).
    destruct (Z.eqb_spec (d p) (Z.of_nat I)) as [Ep|]; cbn [andb].
    2:{ rewrite sumf_0. destruct (cov np I J), (cov np J I), (p <=? q)%nat; cbn [Bool.eqb]; ring. }
    destruct (Z.eqb_spec (d q) (Z.of_nat J)) as [Eq|].
    2:{ rewrite sumf_0. destruct (cov np I J), (cov np J I), (p <=? q)%nat; cbn [Bool.eqb]; ring. }
    destruct (Nat.leb_spec p q) as [Hl|Hl]; cbn [Bool.eqb].
    - rewrite Nat.min_l, Nat.max_r by exact Hl. rewrite (zmem_nat _ _ _ Ep), (zmem_nat _ _ _ Eq). fold (cov np I J). destruct (cov np I J), (cov np J I); rewrite ?sumf_0; ring.
    - rewrite Nat.min_r, Nat.max_l by lia. rewrite (zmem_nat _ _ _ Ep), (zmem_nat _ _ _ Eq). fold (cov np J I). destruct (cov np I J), (cov np J I); rewrite ?sumf_0; ring.
  Qed.
  Lemma tri_total np I J : tri_part true np np I J + tri_part false np np I J = surface_entry (dm_dofs dm) dpe (D np) (snd (E np)) (np_inter np) I J.
  Proof using Type.
    clear. unfold tri_part, surface_entry, assembled. rewrite <- suml_map_plus. apply suml_ext. intros K _. rewrite <- sumf_plus. apply sumf_ext. intros p _. rewrite <- sumf_plus. apply sumf_ext. intros q _.
    unfold sel. destruct (p <=? q)%nat; cbn [Bool.eqb]; ring.
  Qed.
  Hypothesis Dis : disjoint_pairs P.
  Hypothesis Mir : mirrored P.
  Hypothesis HI : forall np, In np P -> NoDup (np_inter np) /\ forall K, In K (np_inter np) <-> In K (np_cells1 np) /\ In K (np_cells2 np).
  Hypothesis Hmir : forall np np', In np P -> In np' P -> mirror np np' -> snd (E np) = snd (E np') /\ forall K e p q, D np K e p q = D np' K e p q.
  Lemma same_list_sum U U' (h : nat -> Qc) : NoDup U -> NoDup U' -> (forall K, In K U -> (K < nc)%nat) -> (forall K, In K U <-> In K U') -> suml (map h U) = suml (map h U').
  Proof using Type.
    clear. intros N1 N2 H1 H2. rewrite (list_sum U nc h N1 H1), (list_sum U' nc h N2); [|intros K HK; apply H1, H2, HK].
    apply sumf_ext. intros K _. replace (mem U' K) with (mem U K); [reflexivity|]. apply eq_true_iff_eq. rewrite !mem_in. apply H2.
  Qed.
  Lemma inter_mirror np np' K : In np P -> In np' P -> mirror np np' -> (In K (np_inter np) <-> In K (np_inter np')).
  Proof using HI. intros H H' (_ & _ & M1 & M2). rewrite (proj2 (HI np H)), (proj2 (HI np' H')). pose proof (M1 K). pose proof (M2 K). tauto. Qed.
  Lemma tri_mirror up np np' I J : In np P -> In np' P -> mirror np np' -> tri_part up np' np' I J = tri_part up np np I J.
  Proof using HI Hmir Hr.
    intros H H' Mr. unfold tri_part. destruct (Hmir np np' H H' Mr) as [En ED]. rewrite <- En.
    rewrite (same_list_sum (np_inter np) (np_inter np')); [|apply HI; assumption|apply HI; assumption|intros K HK; exact (Hr np K H HK)|intros K; apply inter_mirror; assumption].
    apply suml_ext. intros K _. apply sumf_ext. intros p _. apply sumf_ext. intros q _. destruct (Bool.eqb _ _); [|reflexivity]. unfold sel. destruct (_ && _); [|reflexivity]. apply sumf_ext. intros e _. symmetry. apply ED.
  Qed.
  Lemma exterior_at np I J : In np P -> covers np I J ->
    suml (map (at_entry I J) (flat_map surf_events P)) = surface_entry (dm_dofs dm) dpe (D np) (snd (E np)) (np_inter np) I J.
  Proof using HE HB Hr Dis Mir HI Hmir.
    intros Hn Hc. destruct (Mir np Hn) as (np' & Hn' & Mr). rewrite suml_flat, <- (tri_total np I J).
    rewrite (suml_ext _ (fun np => (if cov np I J then tri_part true np np I J else 0) + (if cov np J I then tri_part false np np I J else 0)) P) by (intros; apply surf_sum; assumption).
    rewrite suml_map_plus. rewrite (pick_one (fun np => tri_part true np np I J) P np I J Dis Hn Hc).
    rewrite (pick_one (fun np => tri_part false np np I J) P np' J I Dis Hn' (mirror_covers _ _ _ _ Mr Hc)). rewrite (tri_mirror false np np') by assumption. reflexivity.
  Qed.
  Lemma exterior_free I J : (forall np, In np P -> ~ covers np I J) -> suml (map (at_entry I J) (flat_map surf_events P)) = 0.
  Proof using HE HB Hr Mir.
    intros Hn. rewrite suml_flat.
    rewrite (suml_ext _ (fun np => (if cov np I J then tri_part true np np I J else 0) + (if cov np J I then tri_part false np np I J else 0)) P) by (intros; apply surf_sum; assumption).
    rewrite suml_map_plus. rewrite (pick_none P I J Hn), (pick_none P J I); [ring|]. intros np H Hc. destruct (Mir np H) as (np' & Hn' & Mr). exact (Hn np' Hn' (mirror_covers _ _ _ _ Mr Hc)).
  Qed.
End Exterior.
