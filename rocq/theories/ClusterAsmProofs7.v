(** Assembly of the near field from clusters: the theorems. *)
From Verif Require Import Util Lin MeshModel LocalSpec FormsProofs2 ReorderProofs AssemblyModel AssemblySpec AssemblyProofs AssemblyProofs2 AssemblyProofs7
  RestrictionProofs TupleDictModel TupleDictSpec TupleDictProofs4 CSRModel CSRSpec Rows DenseModel OpsProofs4
  NonlocalModel NonlocalSpec NonlocalProofs NonlocalModel2 NonlocalProofs2 NonlocalProofs3 NonlocalProofs5 NonlocalProofs6
  ClusterAsmModel ClusterAsmSpec ClusterAsmProofs ClusterAsmProofs2 ClusterAsmProofs3 ClusterAsmProofs4 ClusterAsmProofs5 ClusterAsmProofs6.
From Coq Require Import Lia NArith.
Set Default Proof Using "Type".
Local Open Scope Qc_scope.

Lemma near_of_dofs P I J : near_dofs (near_of P) I J <-> exists np, In np P /\ covers np I J.
Proof.
  unfold near_dofs, near_of, covers. split.
  - intros (l1 & l2 & Hin & H1 & H2). apply in_map_iff in Hin. destruct Hin as (np & En & Hin). injection En as <- <-. exists np. auto.
  - intros (np & Hin & H1 & H2). exists (np_dofs1 np), (np_dofs2 np). split; [apply in_map_iff; exists np; auto|auto].
Qed.
Lemma cov_dec P I J : (exists np, In np P /\ covers np I J) \/ forall np, In np P -> ~ covers np I J.
Proof.
  destruct (existsb (fun np => cov np I J) P) eqn:E.
  - left. apply existsb_exists in E. destruct E as (np & H & C). exists np. split; [exact H|apply cov_covers; exact C].
  - right. intros np H C. apply cov_covers in C. assert (existsb (fun np => cov np I J) P = true) by (apply existsb_exists; exists np; auto). congruence.
Qed.

Section Near.
  Variables (B W nc nb : nat) (dm : dofmap).
  Notation dpe := (dm_dpe dm).
  Hypothesis ok : dofs_ok nc dpe (dm_num dm) nb (dm_dofs dm).
  Variables (L : double_local) (C : nat -> nat -> nat -> nat -> Qc).
  Hypothesis HL : interior_ok L dpe nc C.
  Hypothesis HB : (stored_size (dl_symLocal L) (2 * dpe) <= B)%nat.
  Variable P : list npair.
  Hypothesis HP : clusters_ok W nc P.
  Variables (use_masks : bool) (maxNNZ : Z) (lm : lmstate) (con : buf Qc).
  Hypothesis Hm : use_masks = true -> dl_symLocal L = true -> mirrored P.
  Hypothesis Hs : use_masks = true -> dl_symCells L = true -> supported (dm_dofs dm) dpe nc P.
  Hypothesis Hk : use_masks = false -> dl_symCells L = true -> skips_lower L nc.
  Hypothesis Hlm : coherent lm.
  Hypothesis Hcon : length con = stored_size (dl_symLocal L) (2 * dpe).
  Variables (ext : option ((npair -> double_local * nat) * lmstate * buf Qc)) (D : npair -> nat -> nat -> nat -> nat -> Qc).
  Hypothesis Hext : surface_ok ext dpe nc P D.

  Lemma size_small : (stored_size true dpe <= B)%nat.
  Proof using HB.
    clear ok HL HP Hm Hs Hk Hext Hcon. unfold stored_size in *. assert (dpe * (dpe + 1) / 2 <= dpe * (dpe + 1))%nat by (apply Nat.div_le_upper_bound; lia). destruct (dl_symLocal L).
    - etransitivity; [|exact HB]. apply Nat.div_le_mono; nia.
    - nia.
  Qed.
  Lemma interior_part {M} (add : M -> nat -> nat -> Qc -> res M) : exists evs,
    tracks add (fun w => if use_masks then masked_loop add B W dm nc L (length P) maxNNZ P w else filtered_loop add B dm L P w) evs (good dm L) (good dm L) /\
    (forall a b v, In (a, b, v) evs -> (a < dm_num dm)%nat /\ (b < dm_num dm)%nat) /\
    (forall np I J, In np P -> covers np I J -> suml (map (at_entry I J) evs) = cluster_entry (dm_dofs dm) dpe C (np_union np) I J) /\
    (forall I J, (forall np, In np P -> ~ covers np I J) -> suml (map (at_entry I J) evs) = 0).
  Proof using ok HL HB HP Hm Hs Hk.
    clear Hext Hcon Hlm. destruct HP as (Hcl & Dis & Few). destruct use_masks.
    - assert (HW : (0 < W)%nat). { assert (F := Few 0%nat [] (NoDup_nil _)). cbn [length] in F. assert (0 + 20 <= W)%nat; [|lia]. apply F. intros K2 []. }
      destruct (masked_loop_ok add B W nc nb dm ok L C HL HB HW maxNNZ (length P) P (le_n _)) as (evs & T & R & S).
      + intros np Hn. destruct (Hcl np Hn) as (_ & _ & Hr & U & _). unfold np_ok. split; [exact Hr|]. intros K HK. apply U. exact HK.
      + intros K1 Ks ND HK. etransitivity; [|apply (max_row_ge W 0 20); lia]. specialize (Few K1 Ks ND HK). lia.
      + exact Dis.
      + exists evs. split; [exact T|]. split; [exact R|]. split.
        * intros np I J Hn Hc. rewrite S. destruct (Hcl np Hn) as (ND & _ & Hr & _). apply (mask_sum_at nc dm L C HL I J P Dis (Hm eq_refl)); auto. intros np' K Hn'. apply (Hcl np' Hn').
        * intros I J Hn. rewrite S. apply (mask_sum_free nc dm L C I J P (Hm eq_refl)). exact Hn.
    - exists (flat_map (near_events dm L C) P). split; [|split; [|split]].
      + apply (filtered_loop_ok add B nc nb dm ok L C HL HB). intros np K Hn. apply (Hcl np Hn).
      + intros a b v Hin. apply in_flat_map in Hin. destruct Hin as (np & Hn & Hin). eapply (near_events_in nc nb dm ok); [|exact Hin]. apply (Hcl np Hn).
      + intros np I J Hn Hc. rewrite suml_flat. rewrite <- (pick_one (fun np => cluster_entry (dm_dofs dm) dpe C (np_union np) I J) P np I J Dis Hn Hc). apply suml_ext. intros x Hx.
        destruct (Hcl x Hx) as (ND & _ & Hr & _). apply (near_events_sum nc dm L C HL); auto.
      + intros I J Hn. rewrite suml_flat. rewrite <- (pick_none (h := fun np => cluster_entry (dm_dofs dm) dpe C (np_union np) I J) P I J Hn). apply suml_ext. intros x Hx.
        destruct (Hcl x Hx) as (ND & _ & Hr & _). apply (near_events_sum nc dm L C HL); auto.
  Qed.
  Lemma near_events_ok {M} (add : M -> nat -> nat -> Qc -> res M) : exists evs,
    (forall A, assemble_near add B W dm nc L use_masks maxNNZ lm con ext P A = for_list evs (do_add add) A) /\
    (forall a b v, In (a, b, v) evs -> (a < dm_num dm)%nat /\ (b < dm_num dm)%nat) /\
    (forall np I J, In np P -> covers np I J -> suml (map (at_entry I J) evs) = near_entry ext (dm_dofs dm) dpe C D np I J) /\
    (forall I J, (forall np, In np P -> ~ covers np I J) -> suml (map (at_entry I J) evs) = 0).
  Proof using ok HL HB HP Hm Hs Hk Hlm Hcon Hext.
    destruct (interior_part add) as (evs & T & R & S & Z). destruct (T lm (alloc (2 * dpe)) con) as (lm1 & ld1 & con1 & _ & E1).
    { split; [exact Hlm|]. split; [apply alloc_length|exact Hcon]. }
    unfold near_entry. destruct ext as [[[E lmE] conE]|].
    - destruct Hext as (HE & HcE & Mir & Hmr). destruct HP as (Hcl & Dis & _).
      assert (Hr : forall np K, In np P -> In K (np_inter np) -> (K < nc)%nat).
      { intros np K Hn HK. destruct (Hcl np Hn) as (_ & _ & Hr & U & V). apply Hr, U. left. apply V. exact HK. }
      destruct (cluster_exterior_ok add B nc nb dm ok E D P HE size_small Hr lmE (alloc (2 * dpe)) conE) as (lm2 & ld2 & con2 & _ & E2).
      { split; [apply alloc_length|exact HcE]. }
      exists (evs ++ flat_map (surf_events B dm E D) P). split; [|split; [|split]].
      + intros A. unfold assemble_near. cbv zeta. specialize (E1 A). cbn beta in E1. rewrite E1, for_list_bind, !bind_assoc. apply bind_ext. intros A1. rewrite bind_Ok. cbn [w_A]. rewrite E2, bind_assoc.
        match goal with |- bind ?x _ = _ => destruct x; reflexivity end.
      + intros a b v Hin. apply in_app_or in Hin. destruct Hin as [Hin|Hin]; [exact (R a b v Hin)|]. apply in_flat_map in Hin. destruct Hin as (np & Hn & Hin).
        exact (surf_events_in B nc nb dm ok E D P size_small Hr np a b v Hn Hin).
      + intros np I J Hn Hc. rewrite map_app, suml_app, (S np I J Hn Hc). f_equal. apply (exterior_at B nc dm E D P HE size_small Hr Dis Mir); auto. intros x Hx. destruct (Hcl x Hx) as (_ & N2 & _ & _ & V). auto.
      + intros I J Hn. rewrite map_app, suml_app, (Z I J Hn). rewrite (exterior_free B nc dm E D P HE size_small Hr Mir I J Hn). ring.
    - exists evs. split; [|split; [exact R|split; [|exact Z]]].
      + intros A. unfold assemble_near. cbv zeta. specialize (E1 A). cbn beta in E1. rewrite E1, bind_assoc. match goal with |- bind ?x _ = _ => destruct x; reflexivity end.
      + intros np I J Hn Hc. rewrite (S np I J Hn Hc). ring.
  Qed.
  Hypothesis Hd : near_dofs_ok (near_of P) (dm_num dm).
  Lemma assembleClusters_ok : exists A, assembleClusters B W dm nc L use_masks maxNNZ lm con ext P = Ok A /\ wf_csr (dm_num dm) (dm_num dm) A /\
    (forall np I J, In np P -> covers np I J -> matrix A I J = near_entry ext (dm_dofs dm) dpe C D np I J) /\
    (forall I J, (I < dm_num dm)%nat -> (forall np, In np P -> ~ covers np I J) -> matrix A I J = 0).
  Proof using ok HL HB HP Hm Hs Hk Hlm Hcon Hext Hd.
    destruct (getSparseNearField_ok _ _ Hd) as (A0 & E0 & W0 & S0 & Z0 & P0). destruct (near_events_ok csr_addToEntry) as (evs & E & R & S & Z).
    destruct (csr_adds_any (dm_num dm) (dm_num dm) evs A0 W0 S0) as (A & EA & WA & _ & V & V'); [intros a b v Hin; apply (R a b v Hin)|].
    exists A. unfold assembleClusters. rewrite E0, bind_Ok, E. split; [exact EA|]. split; [exact WA|]. split.
    - intros np I J Hn Hc. assert (Nd : near_dofs (near_of P) I J) by (apply near_of_dofs; exists np; auto). assert (HI : (I < dm_num dm)%nat) by (apply (proj1 Hd I J Nd)).
      rewrite V by (auto; apply P0; auto). rewrite Z0, (S np I J Hn Hc). ring.
    - intros I J HI Hn. rewrite V', Z0; auto. rewrite P0, near_of_dofs by exact HI. intros (np & Hin & Hc). exact (Hn np Hin Hc).
  Qed.

  Lemma cluster_entry_sym U U' I J : dl_symLocal L = true -> NoDup U -> NoDup U' -> (forall K, In K U -> (K < nc)%nat) -> (forall K, In K U <-> In K U') ->
    cluster_entry (dm_dofs dm) dpe C U' J I = cluster_entry (dm_dofs dm) dpe C U I J.
  Proof using HL.
    clear ok HB HP Hm Hs Hk Hext Hcon Hlm Hd. intros Es N1 N2 Hr Hsame. destruct HL as (_ & _ & Hsym & _). unfold cluster_entry.
    rewrite <- (same_list_sum nc U U') by assumption. apply suml_ext. intros K1 H1. rewrite <- (same_list_sum nc U U') by assumption. apply suml_ext. intros K2 H2.
    unfold pair_entry. rewrite sumf_swap. apply sumf_ext. intros p Hp. apply sumf_ext. intros q Hq. rewrite andb_comm. rewrite (Hsym Es K1 K2 q p) by auto. reflexivity.
  Qed.
  Lemma near_entry_mirror np np' I J : dl_symLocal L = true -> In np P -> In np' P -> mirror np np' ->
    near_entry ext (dm_dofs dm) dpe C D np' J I = near_entry ext (dm_dofs dm) dpe C D np I J.
  Proof using HL HP Hext.
    clear ok HB Hm Hs Hk Hcon Hlm Hd. intros Es Hn Hn' Mr. destruct HP as (Hcl & _ & _). destruct (Hcl np Hn) as (N1 & N2 & Hr & U & V). destruct (Hcl np' Hn') as (N1' & N2' & Hr' & U' & V').
    assert (M12 := Mr). destruct M12 as (_ & _ & M1 & M2). unfold near_entry. f_equal.
    - apply cluster_entry_sym; auto. intros K. rewrite U, U'. pose proof (M1 K). pose proof (M2 K). tauto.
    - destruct ext as [[[E lmE] conE]|]; [|reflexivity]. destruct Hext as (HE & _ & _ & Hmr). destruct (Hmr np np' Hn Hn' Mr) as [En ED]. destruct (HE np Hn) as (_ & _ & Hsd).
      unfold surface_entry, assembled. rewrite <- (same_list_sum nc (np_inter np) (np_inter np')); auto.
      2:{ intros K HK. apply Hr, U. left. apply V, HK. }
      2:{ intros K. rewrite V, V'. pose proof (M1 K). pose proof (M2 K). tauto. }
      apply suml_ext. intros K HK. rewrite sumf_swap. apply sumf_ext. intros p Hp. apply sumf_ext. intros q Hq. rewrite andb_comm. destruct (_ && _); [|reflexivity].
      rewrite <- En. apply sumf_ext. intros e He. rewrite <- ED. apply Hsd; auto. apply Hr, U. left. apply V, HK.
  Qed.
  Lemma assembleClusters_sym_ok : dl_symLocal L = true -> mirrored P ->
    exists A, assembleClusters_sym B W dm nc L use_masks maxNNZ lm con ext P = Ok A /\ wf_sss (dm_num dm) A /\
    (forall np I J, In np P -> covers np I J -> sym_matrix A I J = near_entry ext (dm_dofs dm) dpe C D np I J) /\
    (forall I J, (I < dm_num dm)%nat -> (J < dm_num dm)%nat -> (forall np, In np P -> ~ covers np I J) -> sym_matrix A I J = 0).
  Proof using ok HL HB HP Hm Hs Hk Hlm Hcon Hext Hd.
    intros Es Mir. destruct (getSparseNearField_sym_ok _ _ Hd) as (A0 & E0 & W0 & S0 & Z0 & P0). destruct (near_events_ok sss_addToEntry) as (evs & E & R & S & Z).
    destruct (sss_adds_any (dm_num dm) evs A0 W0 S0) as (A & EA & WA & _ & V & V'); [intros a b v Hin; apply (R a b v Hin)|].
    exists A. unfold assembleClusters_sym. rewrite E0, bind_Ok, E. split; [exact EA|]. split; [exact WA|].
    assert (Sy : forall (X : sss) i j, sym_matrix X i j = sym_matrix X j i).
    { intros X i j. unfold sym_matrix. rewrite (Nat.eqb_sym j i). destruct (Nat.eqb_spec i j) as [->|]; ring. }
    assert (Low : forall np I J, In np P -> covers np I J -> (J <= I)%nat -> sym_matrix A I J = near_entry ext (dm_dofs dm) dpe C D np I J).
    { intros np I J Hn Hc Hle. assert (Nd : near_dofs (near_of P) I J) by (apply near_of_dofs; exists np; auto). assert (HI : (I < dm_num dm)%nat) by (apply (proj1 Hd I J Nd)).
      rewrite V; [|exact HI|exact Hle|]. 2:{ unfold held. destruct (Nat.eq_dec I J) as [->|]; [left; reflexivity|right]. split; [lia|]. apply P0; [exact HI|]. split; [exact Nd|lia]. }
      rewrite (Z0 I J HI), (S np I J Hn Hc). ring. }
    assert (Zow : forall I J, (I < dm_num dm)%nat -> (forall np, In np P -> ~ covers np I J) -> (J <= I)%nat -> sym_matrix A I J = 0).
    { intros I J HI Hn Hle. destruct (held_dec A0 I J) as [Hh|Hh]; [rewrite (V I J HI Hle Hh), (Z I J Hn)|rewrite (V' I J HI Hle Hh)]; rewrite (Z0 I J HI); ring. }
    split.
    - intros np I J Hn Hc. destruct (Nat.le_ge_cases J I) as [H|H]; [apply Low; assumption|]. destruct (Mir np Hn) as (np' & Hn' & Mr). rewrite Sy. rewrite <- (near_entry_mirror np np' I J Es Hn Hn' Mr).
      apply Low; [exact Hn'|exact (mirror_covers np np' I J Mr Hc)|exact H].
    - intros I J HI HJ Hn. destruct (Nat.le_ge_cases J I) as [H|H]; [apply Zow; assumption|]. rewrite Sy. apply Zow; [exact HJ| |exact H].
      intros np Hin Hc. destruct (Mir np Hin) as (np' & Hn' & Mr). exact (Hn np' Hn' (mirror_covers np np' J I Mr Hc)).
  Qed.
End Near.
