(** C51: the near field of a hierarchical matrix, assembled from pairs of clusters. *)
From Verif Require Import Util Lin CSRModel CSRSpec MeshModel AssemblyModel AssemblySpec RestrictionModel DenseModel NonlocalModel NonlocalModel2 NonlocalSpec
  NonlocalProofs7 NonlocalTheorems ClusterAsmModel ClusterAsmSpec ClusterAsmProofs7 ClusterAsmProofs8.
From Coq Require Import Lia.
Local Open Scope Qc_scope.

(** C51, general matrices: with masks for any bound on their number, and without. *)
Theorem C51_near_field :
  forall (B W nc nb : nat) (dm : dofmap) (L : double_local) (C : nat -> nat -> nat -> nat -> Qc) (P : list npair) (use_masks : bool) (maxNNZ : Z)
    (lm : lmstate) (con : buf Qc) (ext : option ((npair -> double_local * nat) * lmstate * buf Qc)) (D : npair -> nat -> nat -> nat -> nat -> Qc),
    dofs_ok nc (dm_dpe dm) (dm_num dm) nb (dm_dofs dm) ->
    interior_ok L (dm_dpe dm) nc C ->
    (stored_size (dl_symLocal L) (2 * dm_dpe dm) <= B)%nat ->
    clusters_ok W nc P ->
    (use_masks = true -> dl_symLocal L = true -> mirrored P) ->
    (use_masks = true -> dl_symCells L = true -> supported (dm_dofs dm) (dm_dpe dm) nc P) ->
    (use_masks = false -> dl_symCells L = true -> skips_lower L nc) ->
    coherent lm -> length con = stored_size (dl_symLocal L) (2 * dm_dpe dm) ->
    surface_ok ext (dm_dpe dm) nc P D ->
    near_dofs_ok (near_of P) (dm_num dm) ->
    exists A, assembleClusters B W dm nc L use_masks maxNNZ lm con ext P = Ok A /\ wf_csr (dm_num dm) (dm_num dm) A /\
      (forall np I J, In np P -> covers np I J -> matrix A I J = near_entry ext (dm_dofs dm) (dm_dpe dm) C D np I J) /\
      (forall I J, (I < dm_num dm)%nat -> (forall np, In np P -> ~ covers np I J) -> matrix A I J = 0).
Proof. exact (fun B W nc nb dm L C P um mx lm con ext D ok HL HB HP Hm Hs Hk Hlm Hcon Hext Hd => assembleClusters_ok B W nc nb dm ok L C HL HB P HP um mx lm con Hm Hs Hk Hlm Hcon ext D Hext Hd). Qed.
Print Assumptions C51_near_field.

(** C51, symmetric matrices. *)
Theorem C51_near_field_symmetric :
  forall (B W nc nb : nat) (dm : dofmap) (L : double_local) (C : nat -> nat -> nat -> nat -> Qc) (P : list npair) (use_masks : bool) (maxNNZ : Z)
    (lm : lmstate) (con : buf Qc) (ext : option ((npair -> double_local * nat) * lmstate * buf Qc)) (D : npair -> nat -> nat -> nat -> nat -> Qc),
    dofs_ok nc (dm_dpe dm) (dm_num dm) nb (dm_dofs dm) ->
    interior_ok L (dm_dpe dm) nc C ->
    (stored_size (dl_symLocal L) (2 * dm_dpe dm) <= B)%nat ->
    clusters_ok W nc P ->
    (use_masks = true -> dl_symCells L = true -> supported (dm_dofs dm) (dm_dpe dm) nc P) ->
    (use_masks = false -> dl_symCells L = true -> skips_lower L nc) ->
    coherent lm -> length con = stored_size (dl_symLocal L) (2 * dm_dpe dm) ->
    surface_ok ext (dm_dpe dm) nc P D ->
    near_dofs_ok (near_of P) (dm_num dm) ->
    dl_symLocal L = true -> mirrored P ->
    exists A, assembleClusters_sym B W dm nc L use_masks maxNNZ lm con ext P = Ok A /\ wf_sss (dm_num dm) A /\
      (forall np I J, In np P -> covers np I J -> sym_matrix A I J = near_entry ext (dm_dofs dm) (dm_dpe dm) C D np I J) /\
      (forall I J, (I < dm_num dm)%nat -> (J < dm_num dm)%nat -> (forall np, In np P -> ~ covers np I J) -> sym_matrix A I J = 0).
Proof. exact (fun B W nc nb dm L C P um mx lm con ext D ok HL HB HP Hs Hk Hlm Hcon Hext Hd Hsym Hm => assembleClusters_sym_ok B W nc nb dm ok L C HL HB P HP um mx lm con (fun _ _ => Hm) Hs Hk Hlm Hcon ext D Hext Hd Hsym Hm). Qed.
Print Assumptions C51_near_field_symmetric.

(** C51, the operator: if the integrals over the surfaces stand for what is outside, the entries of the near field are those of
    the operator on the whole domain. *)
Theorem C51_operator :
  forall (W nc : nat) (dm : dofmap) (C : nat -> nat -> nat -> nat -> Qc) (E : npair -> double_local * nat) (lmE : lmstate) (conE : buf Qc)
    (D : npair -> nat -> nat -> nat -> nat -> Qc) (ns : nat) (D0 : nat -> nat -> nat -> nat -> Qc) (P : list npair),
    clusters_ok W nc P ->
    supported (dm_dofs dm) (dm_dpe dm) nc P ->
    stands_for_outside E D (dm_dpe dm) nc C ns D0 P ->
    forall np I J, In np P -> covers np I J ->
      near_entry (Some (E, lmE, conE)) (dm_dofs dm) (dm_dpe dm) C D np I J =
      nl_entry (dm_dofs dm) (dm_dofs dm) (dm_dpe dm) nc C I J + exterior_entry (dm_dofs dm) (dm_dofs dm) (dm_dpe dm) nc ns D0 I J.
Proof. exact (fun W nc dm C E _ _ D ns D0 P HP Hs Ho np I J Hn Hc => near_is_operator W nc dm C E D ns D0 P HP Hs Ho np I J Hn Hc). Qed.
Print Assumptions C51_operator.

(** ** Examples *)

(** The line of NonlocalTheorems with a cluster for each of the three degrees of freedom; the first and the last are far from each other. *)
Definition single (a b : nat) (cells inter : list nat) : npair := NP [a] [b] [a; S a] [b; S b] cells inter.
Definition line_pairs : list npair :=
  [single 0 0 [0; 1] [0; 1]; single 0 1 [0; 1; 2] [1]; single 1 0 [0; 1; 2] [1]; single 1 1 [1; 2] [1; 2];
   single 1 2 [1; 2; 3] [2]; single 2 1 [1; 2; 3] [2]; single 2 2 [2; 3] [2; 3]]%nat.
Lemma line_each (Q : npair -> Prop) : Q (single 0 0 [0; 1] [0; 1])%nat -> Q (single 0 1 [0; 1; 2] [1])%nat -> Q (single 1 0 [0; 1; 2] [1])%nat -> Q (single 1 1 [1; 2] [1; 2])%nat ->
  Q (single 1 2 [1; 2; 3] [2])%nat -> Q (single 2 1 [1; 2; 3] [2])%nat -> Q (single 2 2 [2; 3] [2; 3])%nat -> forall np, In np line_pairs -> Q np.
Proof. intros H1 H2 H3 H4 H5 H6 H7 np Hin. cbn [line_pairs In] in Hin. destruct Hin as [<-|[<-|[<-|[<-|[<-|[<-|[<-|[]]]]]]]]; assumption. Qed.
Lemma line_lists : forall np, In np line_pairs -> NoDup (np_union np) /\ NoDup (np_inter np) /\ (forall K, In K (np_union np) -> (K < 4)%nat) /\
  (forall K, In K (np_union np) <-> In K (np_cells1 np) \/ In K (np_cells2 np)) /\ (forall K, In K (np_inter np) <-> In K (np_cells1 np) /\ In K (np_cells2 np)).
Proof. apply line_each; cbn; repeat split; try (repeat constructor; cbn; lia); intros; lia. Qed.
Example line_clusters_ok : clusters_ok (2 ^ 16) 4 line_pairs.
Proof.
  split; [exact line_lists|]. split.
  - intros i j np np' I J Hi Hj [C1 C2] [C3 C4].
    do 7 (destruct i as [|i]; [injection Hi as <-; do 7 (destruct j as [|j]; [injection Hj as <-; cbn in C1, C2, C3, C4; lia|]); destruct j; discriminate Hj|]). destruct i; discriminate Hi.
  - intros K1 Ks ND H. assert (I4 : incl Ks (seq 0 4)). { intros K2 HK. apply in_seq. destruct (H K2 HK) as (np & Hn & _ & H2). destruct (line_lists np Hn) as (_ & _ & Hr & _). specialize (Hr K2 H2). lia. }
    apply NoDup_incl_length in I4; [|exact ND]. rewrite seq_length in I4. apply Nat.le_trans with (2 ^ 5)%nat; [cbn; lia|apply Nat.pow_le_mono_r; lia].
Qed.
Example line_mirrored : mirrored line_pairs.
Proof.
  assert (G : forall a b c i, In (single a b c i) line_pairs -> In (single b a c i) line_pairs -> exists np', In np' line_pairs /\ mirror (single a b c i) np').
  { intros a b c i _ H. exists (single b a c i). split; [exact H|]. repeat split; auto. }
  intros np. revert np. apply line_each; apply G; cbn; tauto.
Qed.
Example line_supported : supported (dm_dofs line_dm) 2 4 line_pairs.
Proof.
  intros np K p I Hn HK Hp Hd.
  assert (R : K = I \/ K = S I). { destruct K as [|[|[|[|K]]]]; try lia; destruct p as [|[|p]]; try lia; cbn in Hd; lia. }
  revert np Hn. apply (line_each (fun np => (In I (np_dofs1 np) -> In K (np_cells1 np)) /\ (In I (np_dofs2 np) -> In K (np_cells2 np)))); cbn; lia.
Qed.
Example line_near_dofs : near_dofs_ok (near_of line_pairs) 3.
Proof.
  assert (R : forall I J, near_dofs (near_of line_pairs) I J -> (I < 3)%nat /\ (J < 3)%nat).
  { intros I J (l1 & l2 & Hin & H1 & H2). apply in_map_iff in Hin. destruct Hin as (np & E & Hin). injection E as <- <-. revert np Hin H1 H2. apply (line_each (fun np => In I (np_dofs1 np) -> In J (np_dofs2 np) -> (I < 3)%nat /\ (J < 3)%nat)); cbn; lia. }
  split; [exact R|]. intros I Js ND H. assert (I4 : incl Js (seq 0 3)) by (intros J HJ; apply in_seq; destruct (R _ _ (H J HJ)); lia).
  apply NoDup_incl_length in I4; [|exact ND]. rewrite seq_length in I4. apply Nat.le_lt_trans with (1 := I4). apply Nat.lt_le_trans with (2 ^ 3)%nat; [cbn; lia|apply Nat.pow_le_mono_r; lia].
Qed.
(** Pairs of cells stand for each other; the second is ignored. *)
Definition half_local : double_local := table_local true true (fun z1 z2 => if (z2 <? z1)%Z then IGNORED else line_panel z1 z2) 4 line_C.
Example half_ok : interior_ok half_local 2 4 line_C /\ skips_lower half_local 4.
Proof.
  destruct line_ok as (_ & Hi & Hs & Hc). split; [split; [apply table_evaluates|split; [|split]]|].
  - intros K1 K2 H1 H2 E. cbn [half_local table_local dl_panel] in E. destruct (Z.ltb_spec (Z.of_nat K2) (Z.of_nat K1)); [left; split; [reflexivity|lia]|].
    destruct (Hi K1 K2 H1 H2 E) as [[_ K]|K]; [lia|right; exact K].
  - intros _. apply Hs. reflexivity.
  - intros _. apply Hc. reflexivity.
  - intros K1 K2 H _. cbn [half_local table_local dl_panel]. destruct (Z.ltb_spec (Z.of_nat K2) (Z.of_nat K1)); [reflexivity|lia].
Qed.
(** The surfaces stand for the cells outside, and for the two facets of NonlocalTheorems. *)
Definition out_D (np : npair) (K e p q : nat) : Qc :=
  sumf 4 (fun K2 => if in_dec Nat.eq_dec K2 (np_union np) then 0 else line_C K K2 p q + line_C K2 K (2 + p) (2 + q)) + sumf 2 (fun e => line_D K e p q).
Definition out_ext : option ((npair -> double_local * nat) * lmstate * buf Qc) := Some (fun np => (table_local true false (fun _ _ => 3%Z) 2 (out_D np), 1%nat), fresh, alloc 3).
Lemma out_D_sym np K e p q : out_D np K e p q = out_D np K e q p.
Proof.
  unfold out_D. f_equal; apply sumf_ext; intros i _; [destruct (in_dec _ _ _); [reflexivity|]|]; unfold line_C, line_D; ring.
Qed.
Example out_surface : surface_ok out_ext 2 4 line_pairs out_D.
Proof.
  split; [|split; [reflexivity|split; [exact line_mirrored|]]].
  - intros np _. split; [apply table_evaluates|]. split; [reflexivity|]. intros K e p q _ _ _ _. apply out_D_sym.
  - intros np np' Hn Hn' (_ & _ & M1 & M2). split; [reflexivity|]. intros K e p q. unfold out_D. f_equal. apply sumf_ext. intros K2 _.
    assert (U : In K2 (np_union np) <-> In K2 (np_union np')).
    { destruct (line_lists np Hn) as (_ & _ & _ & U & _), (line_lists np' Hn') as (_ & _ & _ & U' & _). rewrite U, U'. pose proof (M1 K2). pose proof (M2 K2). tauto. }
    destruct (in_dec Nat.eq_dec K2 (np_union np)), (in_dec Nat.eq_dec K2 (np_union np')); tauto.
Qed.
Example out_stands : stands_for_outside (fun np => (table_local true false (fun _ _ => 3%Z) 2 (out_D np), 1%nat)) out_D 2 4 line_C 2 line_D line_pairs.
Proof. intros np K p q _ _ _ _. cbn [snd]. unfold out_D at 1. cbn [sumf]. ring. Qed.

(** The same matrix with masks, after every second pair of clusters or at once, and without; it has the entries of the
    dense matrix (NonlocalTheorems.line_ranks) except for (0, 2) and (2, 0). *)
Definition entries (o : res csr) : option (list nat * list nat * list Z) := match o with Ok A => Some (c_indptr A, c_indices A, map (fun q => Qnum (this q)) (c_data A)) | Err _ => None end.
Definition line_result := Some ([0; 2; 5; 7]%nat, [0; 1; 0; 1; 2; 1; 2]%nat, [29; 10; 10; 63; 10; 10; 81]%Z).
Example line_near_masked : entries (assembleClusters 16 (2 ^ 16) line_dm 4 half_local true 3 fresh line_con out_ext line_pairs) = line_result /\
  entries (assembleClusters 16 (2 ^ 16) line_dm 4 half_local true 1000 fresh line_con out_ext line_pairs) = line_result /\
  entries (assembleClusters 16 (2 ^ 16) line_dm 4 half_local false 0 fresh line_con out_ext line_pairs) = line_result.
Proof. vm_compute. auto. Qed.
Example line_near_sym : match assembleClusters_sym 16 (2 ^ 16) line_dm 4 half_local true 3 fresh line_con out_ext line_pairs with
  | Ok A => s_indptr A = [0; 0; 1; 2]%nat /\ s_indices A = [0; 1]%nat /\ map (fun q => Qnum (this q)) (s_data A) = [10; 10]%Z /\ map (fun q => Qnum (this q)) (s_diag A) = [29; 63; 81]%Z
  | Err _ => False end.
Proof. vm_compute. auto. Qed.
(** Neither symmetric nor exchangeable (the hypotheses on mirrored pairs and supports are not needed). *)
Example skew_near : exists A, assembleClusters 16 (2 ^ 16) line_dm 4 skew_local true 3 fresh (alloc 16) None line_pairs = Ok A /\
  matrix A 0%nat 1%nat = cluster_entry (dm_dofs line_dm) 2 skew_C [0; 1; 2]%nat 0 1 /\ matrix A 0%nat 1%nat <> matrix A 1%nat 0%nat /\ matrix A 0%nat 2%nat = Q2Qc 0.
Proof.
  eexists. split; [vm_compute; reflexivity|]. split; [apply Qc_is_canon; vm_compute; reflexivity|]. split; [|apply Qc_is_canon; vm_compute; reflexivity].
  intros E. apply (f_equal this) in E. vm_compute in E. discriminate E.
Qed.
