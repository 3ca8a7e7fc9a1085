(** Building a matrix and filling it. *)
From Coq Require Import Sorted Permutation.
From Verif Require Import Util Lin SparsityModel SparsitySpec SparsityProofs2 CSRModel CSRSpec CSRProofs Rows SSSProofs OpsProofs OpsProofs2 OpsProofs4 TriProofs3 MeshModel MeshSpec BaryModel BarySpec LocalSpec MeshProofs MeshProofs4 RestrictionProofs
  ReorderModel ReorderSpec ReorderProofs ReorderProofs2 AssemblyModel AssemblySpec AssemblyProofs AssemblyProofs2 AssemblyProofs3 AssemblyProofs4.
Set Default Proof Using "Type".

(** ** Building *)
Lemma renumbered_num dm dm' : renumbered dm dm' -> dm_num dm' = dm_num dm /\ dm_dpe dm' = dm_dpe dm.
Proof. intros [->|(H1 & H2 & _)]; auto. Qed.

Definition csr_pattern (n m : nat) (P : nat -> nat -> Prop) (A : csr) : Prop :=
  wf_csr n m A /\ sorted_csr n A /\ (forall i j, i < n -> (stored A i j <-> P i j)).
Definition sss_pattern (n : nat) (P : nat -> nat -> Prop) (A : sss) : Prop :=
  wf_sss n A /\ sorted_sss n A /\ (forall i j, i < n -> (stored_lower A i j <-> P i j /\ j < i)).

Section Build.
  Variables (argsort : list nat -> list nat) (nc nb : nat) (dm : dofmap) (st en : option nat).
  Hypothesis Hsort : is_argsort argsort.
  Hypothesis ok : dofs_ok nc (dm_dpe dm) (dm_num dm) nb (dm_dofs dm).
  Hypothesis fit : cells_fit nc st en.
  Let cs := cell_list nc st en.
  Let n := dm_num dm.
  Hypothesis few : few_coupled (dm_dofs dm) (dm_dofs dm) (dm_dpe dm) (dm_dpe dm) cs.
  Variable reorder : bool.
  Hypothesis Hn : reorder = true -> 0 < n.

  Lemma renumbered_ok dm' : renumbered dm dm' -> dofs_ok nc (dm_dpe dm) n nb (dm_dofs dm').
  Proof using ok. clear Hn. intros [->|(H1 & H2 & p & Hp & ->)]; [exact ok|]. apply renumber_ok; auto. Qed.

  Lemma buildSparsityPattern_ok : exists A dm', buildSparsityPattern argsort dm nc st en reorder = Ok (A, dm') /\ renumbered dm dm' /\
    csr_pattern n n (coupled (dm_dofs dm') (dm_dofs dm') (dm_dpe dm) (dm_dpe dm) cs) A /\ (forall i j, i < n -> matrix A i j = 0%Qc) /\
    ((reorder = false \/ dm_reordered dm = true) -> dm' = dm) /\ (reorder = true -> dm_reordered dm' = true).
  Proof using Hsort ok fit few Hn.
    destruct (pattern_arrays_ok argsort nc nb dm st en false Hsort ok fit few reorder Hn) as (ip & ind & dm' & E & HR & (ps & indz & -> & HP & Hin) & Hdm).
    fold n in HP. fold cs in Hin. unfold buildSparsityPattern. rewrite E, bind_Ok. cbv beta iota.
    pose proof (renumbered_ok dm' HR) as ok'.
    assert (Hfit : pairs_fit n n ps). { intros I J H. apply Hin in H as [H _]. apply (coupled_fit _ _ _ _ _ _ _ _ _ _ _ _ ok' ok' H). }
    destruct (sorted_pattern n n ps ip indz Hfit HP) as (nnz & A & E1 & E2 & wf & srt & Hz & Hst).
    destruct (renumbered_num _ _ HR) as [-> _]. fold n. rewrite E1, bind_Ok. assert (Hip : length ip = n + 1) by (destruct HP as (H & _); auto). rewrite Hip, Nat.add_sub, E2, bind_Ok.
    exists A, dm'. split; [reflexivity|]. split; [exact HR|]. split; [|split; auto]. split; [auto|split; [auto|]].
    intros i j Hi. rewrite Hst by auto. rewrite Hin. split; [tauto|]. intros H. split; [auto|discriminate].
  Qed.

  Lemma buildSymmetricSparsityPattern_ok : exists A dm', buildSymmetricSparsityPattern argsort dm nc st en reorder = Ok (A, dm') /\ renumbered dm dm' /\
    sss_pattern n (coupled (dm_dofs dm') (dm_dofs dm') (dm_dpe dm) (dm_dpe dm) cs) A /\ (forall i j, i < n -> j < n -> sym_matrix A i j = 0%Qc) /\
    ((reorder = false \/ dm_reordered dm = true) -> dm' = dm) /\ (reorder = true -> dm_reordered dm' = true).
  Proof using Hsort ok fit few Hn.
    destruct (pattern_arrays_ok argsort nc nb dm st en true Hsort ok fit few reorder Hn) as (ip & ind & dm' & E & HR & (ps & indz & -> & HP & Hin) & Hdm).
    fold n in HP. fold cs in Hin. unfold buildSymmetricSparsityPattern. rewrite E, bind_Ok. cbv beta iota.
    pose proof (renumbered_ok dm' HR) as ok'.
    assert (Hfit : pairs_fit n n ps). { intros I J H. apply Hin in H as [H _]. apply (coupled_fit _ _ _ _ _ _ _ _ _ _ _ _ ok' ok' H). }
    destruct (sorted_pattern n n ps ip indz Hfit HP) as (nnz & A & E1 & E2 & wf & srt & Hz & Hst).
    destruct (renumbered_num _ _ HR) as [Hnum _]. rewrite Hnum. fold n. rewrite E1, bind_Ok. assert (Hip : length ip = n + 1) by (destruct HP as (H & _); auto). rewrite Hip, Nat.add_sub, E2, bind_Ok.
    set (B := SSS (c_indptr A) (c_indices A) (c_data A) (repeat 0%Qc n)).
    assert (HstB : forall i j, i < n -> (stored_lower B i j <-> In (i, j) ps)) by exact Hst.
    exists B, dm'. split; [reflexivity|]. split; [exact HR|]. split; [|split; auto].
    - split; [|split].
      + split; [exact (proj2 wf)|]. split; [apply repeat_length|]. intros i p Hi Hp. apply (in_map fst) in Hp. apply HstB in Hp; auto. apply Hin in Hp. tauto.
      + exact srt.
      + intros i j Hi. rewrite HstB by auto. rewrite Hin. split; intros [X Y]; auto.
    - intros i j Hi Hj. unfold sym_matrix. change (lower B) with (matrix A). rewrite !Hz by auto. unfold B. cbn [s_diag]. unfold vat. rewrite nth_repeat. destruct (i =? j); ring.
  Qed.
End Build.

Lemma buildNonSymmetric_ok nc nb nb' dm dm' st en : dofs_ok nc (dm_dpe dm) (dm_num dm) nb (dm_dofs dm) -> dofs_ok nc (dm_dpe dm') (dm_num dm') nb' (dm_dofs dm') ->
  cells_fit nc st en -> few_coupled (dm_dofs dm) (dm_dofs dm') (dm_dpe dm) (dm_dpe dm') (cell_list nc st en) ->
  exists A, buildNonSymmetricSparsityPattern dm dm' nc st en = Ok A /\
    csr_pattern (dm_num dm) (dm_num dm') (coupled (dm_dofs dm) (dm_dofs dm') (dm_dpe dm) (dm_dpe dm') (cell_list nc st en)) A /\
    (forall i j, i < dm_num dm -> matrix A i j = 0%Qc).
Proof.
  intros ok ok' fit few. set (cs := cell_list nc st en) in *. set (ps := cell_pairs (fun _ _ => false) (dm_dofs dm) (dm_dofs dm') (dm_dpe dm) (dm_dpe dm') cs).
  assert (Hin : forall I J, In (I, J) ps <-> coupled (dm_dofs dm) (dm_dofs dm') (dm_dpe dm) (dm_dpe dm') cs I J).
  { intros I J. unfold ps. rewrite in_cell_pairs. tauto. }
  assert (Hfit : pairs_fit (dm_num dm) (dm_num dm') ps). { intros I J H. apply Hin in H. apply (coupled_fit _ _ _ _ _ _ _ _ _ _ _ _ ok ok' H). }
  destruct (build_ok (dm_num dm) (dm_num dm') ps) as (s & ip & indz & E1 & E2 & HP); auto.
  { intros I Js ND H. apply (few I Js ND). intros J HJ. apply Hin; auto. }
  unfold buildNonSymmetricSparsityPattern.
  replace (for_range (first_cell st) (last_cell en nc) (fun i s => for_pairs dm dm' i add_pair s) (new_pattern (dm_num dm))) with (Ok s).
  - rewrite bind_Ok, E2, bind_Ok. cbv beta iota. destruct (sorted_pattern _ _ ps ip indz Hfit HP) as (nnz & A & F1 & F2 & wf & srt & Hz & Hst).
    rewrite F1, bind_Ok, F2. exists A. split; [reflexivity|]. split; [|auto]. split; [auto|split; [auto|]]. intros i j Hi. rewrite Hst by auto. apply Hin.
  - rewrite <- E1. rewrite for_range_list. unfold ps, cell_pairs. rewrite for_list_flat. apply for_list_ext.
    intros i s0 Hi. symmetry. apply (for_pairs_ok nc nb nb'); auto. apply (in_cell_list nc st en); auto.
Qed.

(** ** Filling *)
Lemma in_tri_events {X} (ev : nat -> nat -> nat -> list X) n cs x :
  In x (flat_map (tri_events ev n) cs) -> exists i j k, In i cs /\ j < n /\ k < n /\ In x (ev i j k).
Proof.
  intros H. apply in_flat_map in H as (i & Hi & H). unfold tri_events in H. apply in_flat_map in H as (j & Hj & H). apply in_flat_map in H as (k & Hk & H).
  apply in_seq in Hj. apply in_seq in Hk. exists i, j, k. repeat split; auto; lia.
Qed.
Lemma csr_events_coupled dofs loc dpe cs a b v : In (a, b, v) (flat_map (tri_events (events_csr dofs loc) dpe) cs) -> coupled dofs dofs dpe dpe cs a b.
Proof.
  intros H. apply in_tri_events in H as (i & j & k & Hi & Hj & Hk & H). unfold events_csr in H.
  destruct (Z.ltb_spec (dof dofs i j) 0); [destruct H|]. destruct (Z.ltb_spec (dof dofs i k) 0); [destruct H|]. cbn [orb] in H.
  destruct (Z.eqb_spec (dof dofs i j) (dof dofs i k)) as [E|E].
  - destruct H as [H|[]]. injection H as <- <- _. exists i, j, k. repeat split; auto; lia.
  - destruct H as [H|[H|[]]]; injection H as <- <- _; [exists i, j, k|exists i, k, j]; repeat split; auto; lia.
Qed.
Lemma sss_events_coupled dofs loc dpe cs a b v : In (a, b, v) (flat_map (tri_events (events_sss dofs loc) dpe) cs) -> coupled dofs dofs dpe dpe cs a b /\ b <= a.
Proof.
  intros H. apply in_tri_events in H as (i & j & k & Hi & Hj & Hk & H). unfold events_sss in H.
  destruct (Z.ltb_spec (dof dofs i j) 0); [destruct H|]. destruct (Z.ltb_spec (dof dofs i k) 0); [destruct H|]. cbn [orb] in H.
  destruct (Z.ltb_spec (dof dofs i j) (dof dofs i k)) as [E|E]; destruct H as [H|[]]; injection H as <- <- _; (split; [|lia]).
  - exists i, k, j. repeat split; auto; lia.
  - exists i, j, k. repeat split; auto; lia.
Qed.
Lemma rhs_events_fit nc dpe n nb dofs loc g cs a v : dofs_ok nc dpe n nb dofs -> In (a, v) (flat_map (tri_events (events_rhs dofs loc g) dpe) cs) -> a < n.
Proof.
  intros ok H. apply in_tri_events in H as (i & j & k & Hi & Hj & Hk & H). unfold events_rhs in H.
  destruct (Z.leb_spec 0 (dof dofs i j)) as [A|A], (Z.leb_spec 0 (dof dofs i k)) as [B|B], (Z.ltb_spec (dof dofs i j) 0), (Z.ltb_spec (dof dofs i k) 0); cbn [andb] in H; try lia; try contradiction; destruct H as [H|[]].
  - injection H as <- _. destruct (dof_pos _ _ _ _ _ _ _ ok A) as (_ & _ & L). lia.
  - injection H as <- _. destruct (dof_pos _ _ _ _ _ _ _ ok B) as (_ & _ & L). lia.
Qed.
Lemma coupled_incl dofs dofs' dpe dpe' cs cs' I J : (forall i, In i cs -> In i cs') -> coupled dofs dofs' dpe dpe' cs I J -> coupled dofs dofs' dpe dpe' cs' I J.
Proof. intros H (i & j & k & Hi & R). exists i, j, k. split; [auto|exact R]. Qed.
Lemma csr_pattern_same n m P A B : csr_pattern n m P A -> wf_csr n m B -> same_pattern n A B -> csr_pattern n m P B.
Proof.
  intros (wf & srt & st) wfB sp. split; [auto|]. split; [apply (same_pattern_sorted n m A B); auto|]. intros i j Hi. rewrite (same_pattern_stored n m A B) by auto. auto.
Qed.
Lemma sss_pattern_same n P A B : sss_pattern n P A -> wf_sss n B -> same_sss A B -> sss_pattern n P B.
Proof.
  intros (wf & srt & st) wfB sp. split; [auto|]. split; [apply (same_sss_sorted n A B); auto|]. intros i j Hi. rewrite (same_sss_stored n A B) by auto. auto.
Qed.

Section Fill.
  Variables (dim mdim : nat) (V : list (list Qc)) (C : list (list nat)).
  Hypothesis mok : mesh_ok dim (mdim + 1) V C.
  Variables (nb : nat) (dm : dofmap).
  Let n := dm_num dm.
  Let dpe := dm_dpe dm.
  Let dofs := dm_dofs dm.
  Hypothesis ok : dofs_ok (length C) dpe n nb dofs.
  Hypothesis dis : dofs_distinct dpe dofs.
  Variables (lm : local_matrix) (informed : bool) (loc : nat -> nat -> nat -> Qc).
  Hypothesis ev : evaluates (lm_eval lm) (lm_dim lm) informed (dpe * (dpe + 1) / 2) V C (fun i => upper_triangle (loc i) (seq 0 dpe)).
  Hypothesis dims : lm_needsCellInfo lm = true -> lm_dim lm = mdim.
  Hypothesis sym : forall i j k, i < length C -> j < dpe -> k < dpe -> loc i j k = loc i k j.
  Variables (st en : option nat).
  Hypothesis fit : cells_fit (length C) st en.
  Let range := cell_list (length C) st en.
  Variable P : nat -> nat -> Prop.
  Hypothesis HP : forall I J, coupled dofs dofs dpe dpe range I J -> P I J.
  Variable cell : buf nat.
  Hypothesis Hcell : length cell = S (lm_dim lm).

  Lemma csr_fill_cells set cs A : csr_pattern n n P A -> (forall i, In i cs -> In i range) -> (informed = true -> lm_needsCellInfo lm = true /\ set = true) ->
    exists w B, for_list cs (assemble_step dim V C lm set (enter_csr csr_addToEntry dm)) (new_scratch dim mdim (dpe * (dpe + 1) / 2) cell, A) = Ok (w, B) /\
      csr_pattern n n P B /\ forall I J, I < n -> matrix B I J = (matrix A I J + assembled dofs dofs dpe dpe cs loc I J)%Qc.
  Proof using mok ok dis ev dims sym fit HP Hcell.
    intros (wf & srt & sto) Hcs Hinf. assert (Hlt : forall i, In i cs -> i < length C) by (intros i Hi; apply (in_cell_list (length C) st en); auto; apply Hcs; auto).
    set (evs := flat_map (tri_events (events_csr dofs loc) dpe) cs).
    destruct (csr_adds n n evs A wf srt) as (B & E & wfB & sp & HB).
    { intros a b v H. apply csr_events_coupled in H. destruct (coupled_fit _ _ _ _ _ _ _ _ _ _ _ _ ok ok H) as [Ha _]. split; [auto|]. apply sto; auto.
      apply HP. apply (coupled_incl _ _ _ _ cs); auto. }
    destruct (cells_loop dim mdim V C mok lm informed (dpe * (dpe + 1) / 2) _ ev dims (enter_csr csr_addToEntry dm)
      (fun i A => for_list (tri_events (events_csr dofs loc) dpe i) (do_add csr_addToEntry) A) set cs (new_scratch dim mdim (dpe * (dpe + 1) / 2) cell) A B Hinf Hlt) as (w & Ew).
    - intros i rest s s1 Hi Es. rewrite <- Es. apply (enter_csr_ok csr_addToEntry (length C) nb dm ok loc i _ rest (Hlt i Hi)). reflexivity.
    - apply new_scratch_ok; auto.
    - rewrite <- E. unfold evs. rewrite for_list_flat. reflexivity.
    - exists w, B. split; [exact Ew|]. split; [apply (csr_pattern_same n n P A); auto; split; auto|]. intros I J HI. rewrite HB by auto. unfold evs. rewrite csr_sum; auto.
  Qed.
  Lemma sss_fill_cells set cs A : sss_pattern n P A -> (forall i, In i cs -> In i range) -> (informed = true -> lm_needsCellInfo lm = true /\ set = true) ->
    exists w B, for_list cs (assemble_step dim V C lm set (enter_sss sss_addToEntry dm)) (new_scratch dim mdim (dpe * (dpe + 1) / 2) cell, A) = Ok (w, B) /\
      sss_pattern n P B /\ forall I J, I < n -> J < n -> sym_matrix B I J = (sym_matrix A I J + assembled dofs dofs dpe dpe cs loc I J)%Qc.
  Proof using mok ok dis ev dims sym fit HP Hcell.
    intros (wf & srt & sto) Hcs Hinf. assert (Hlt : forall i, In i cs -> i < length C) by (intros i Hi; apply (in_cell_list (length C) st en); auto; apply Hcs; auto).
    set (evs := flat_map (tri_events (events_sss dofs loc) dpe) cs).
    destruct (sss_adds n evs A wf srt) as (B & E & wfB & sp & HB).
    { intros a b v H. apply sss_events_coupled in H as [H L]. destruct (coupled_fit _ _ _ _ _ _ _ _ _ _ _ _ ok ok H) as [Ha _]. split; [auto|split; [auto|]]. intros L'. apply sto; auto.
      split; [|auto]. apply HP. apply (coupled_incl _ _ _ _ cs); auto. }
    destruct (cells_loop dim mdim V C mok lm informed (dpe * (dpe + 1) / 2) _ ev dims (enter_sss sss_addToEntry dm)
      (fun i A => for_list (tri_events (events_sss dofs loc) dpe i) (do_add sss_addToEntry) A) set cs (new_scratch dim mdim (dpe * (dpe + 1) / 2) cell) A B Hinf Hlt) as (w & Ew).
    - intros i rest s s1 Hi Es. rewrite <- Es. apply (enter_sss_ok sss_addToEntry (length C) nb dm ok loc i _ rest (Hlt i Hi)). reflexivity.
    - apply new_scratch_ok; auto.
    - rewrite <- E. unfold evs. rewrite for_list_flat. reflexivity.
    - exists w, B. split; [exact Ew|]. split; [apply (sss_pattern_same n P A); auto; split; auto|]. intros I J HI HJ. rewrite HB by auto. unfold evs. rewrite sss_sum; auto.
  Qed.

  Section Bc.
    Variable g : list Qc.
    Hypothesis Hg : nb <= length g.
    Definition both {M} (add : M -> nat -> nat -> Qc -> res M) (evs : nat -> nat -> nat -> list contribution) (i : nat) (st : M * list Qc) : res (M * list Qc) :=
      A' <- for_list (tri_events evs dpe i) (do_add add) (fst st) ;; r' <- for_list (tri_events (events_rhs dofs loc g) dpe i) sub_at (snd st) ;; Ok (A', r').
    Lemma both_loop {M} (add : M -> nat -> nat -> Qc -> res M) evs cs A r A' r' :
      for_list (flat_map (tri_events evs dpe) cs) (do_add add) A = Ok A' -> for_list (flat_map (tri_events (events_rhs dofs loc g) dpe) cs) sub_at r = Ok r' ->
      for_list cs (both add evs) (A, r) = Ok (A', r').
    Proof using Type.
      clear. intros H1 H2. rewrite for_list_flat in H1. rewrite for_list_flat in H2. eapply two_loops; [|exact H1|exact H2].
      intros i A0 r0 A1 r1 E1 E2. unfold both. cbn [fst snd]. cbv beta in E1, E2. rewrite E1, bind_Ok, E2, bind_Ok. reflexivity.
    Qed.
    Lemma both_inv {M} (add : M -> nat -> nat -> Qc -> res M) evs i A r A' r' : both add evs i (A, r) = Ok (A', r') ->
      for_list (tri_events evs dpe i) (do_add add) A = Ok A' /\ for_list (tri_events (events_rhs dofs loc g) dpe i) sub_at r = Ok r'.
    Proof using Type.
      clear. unfold both. cbn [fst snd]. destruct (for_list _ _ A); [|discriminate]. rewrite bind_Ok. destruct (for_list _ _ r); [|discriminate]. rewrite bind_Ok. intros H. injection H as -> ->. auto.
    Qed.

    Lemma csr_fill_bc cs A rhs : informed = false -> csr_pattern n n P A -> length rhs = n -> (forall i, In i cs -> In i range) ->
      exists w B rhs', for_list cs (assemble_step dim V C lm false (enter_bc (add2_csr csr_addToEntry) dm g)) (new_scratch dim mdim (dpe * (dpe + 1) / 2) cell, (A, rhs)) = Ok (w, (B, rhs')) /\
        csr_pattern n n P B /\ (forall I J, I < n -> matrix B I J = (matrix A I J + assembled dofs dofs dpe dpe cs loc I J)%Qc) /\
        length rhs' = n /\ forall I, I < n -> vat rhs' I = (vat rhs I - boundary_action dofs dpe cs loc g I)%Qc.
    Proof using mok ok dis ev dims sym fit HP Hcell Hg.
      intros Hinf (wf & srt & sto) Hr Hcs. assert (Hlt : forall i, In i cs -> i < length C) by (intros i Hi; apply (in_cell_list (length C) st en); auto; apply Hcs; auto).
      destruct (csr_adds n n (flat_map (tri_events (events_csr dofs loc) dpe) cs) A wf srt) as (B & E & wfB & sp & HB).
      { intros a b v H. apply csr_events_coupled in H. destruct (coupled_fit _ _ _ _ _ _ _ _ _ _ _ _ ok ok H) as [Ha _]. split; [auto|]. apply sto; auto.
        apply HP. apply (coupled_incl _ _ _ _ cs); auto. }
      destruct (sub_ats n (flat_map (tri_events (events_rhs dofs loc g) dpe) cs) rhs Hr) as (rhs' & E' & Hr' & HB').
      { intros a v H. apply (rhs_events_fit _ _ _ _ _ _ _ _ _ _ ok H). }
      destruct (cells_loop dim mdim V C mok lm informed (dpe * (dpe + 1) / 2) _ ev dims (enter_bc (add2_csr csr_addToEntry) dm g)
        (both csr_addToEntry (events_csr dofs loc)) false cs (new_scratch dim mdim (dpe * (dpe + 1) / 2) cell) (A, rhs) (B, rhs')) as (w & Ew); auto.
      - intros Q. congruence.
      - intros i rest [A0 r0] [A1 r1] Hi Es. apply both_inv in Es as [E1 E2].
        apply (enter_bc_ok csr_addToEntry (length C) nb dm ok loc i _ rest (Hlt i Hi) eq_refl g Hg (events_csr dofs loc)); auto.
        + intros A2 j k Hj Hk. fold dofs in Hj, Hk. unfold add2_csr, events_csr. fold dofs. destruct (Z.ltb_spec (dof dofs i j) 0); [lia|]. destruct (Z.ltb_spec (dof dofs i k) 0); [lia|]. cbn [orb].
          unfold add_at. destruct (Z.eqb_spec (dof dofs i j) (dof dofs i k)); cbn [for_list do_add].
          * destruct (csr_addToEntry A2 _ _ _); reflexivity.
          * destruct (csr_addToEntry A2 _ _ _) as [A3|]; [|reflexivity]. rewrite !bind_Ok. destruct (csr_addToEntry A3 _ _ _); reflexivity.
        + intros j k Hjk. unfold events_csr. fold dofs. fold dofs in Hjk. destruct (Z.ltb_spec (dof dofs i j) 0); [reflexivity|]. destruct (Z.ltb_spec (dof dofs i k) 0); [reflexivity|]. lia.
      - apply new_scratch_ok; auto.
      - apply both_loop; auto.
      - exists w, B, rhs'. split; [exact Ew|]. split; [apply (csr_pattern_same n n P A); auto; split; auto|]. split; [|split; [auto|]].
        + intros I J HI. rewrite HB by auto. rewrite csr_sum; auto.
        + intros I HI. rewrite HB' by auto. rewrite rhs_sum; auto.
    Qed.

    Lemma sss_fill_bc cs A rhs : informed = false -> sss_pattern n P A -> length rhs = n -> (forall i, In i cs -> In i range) ->
      exists w B rhs', for_list cs (assemble_step dim V C lm false (enter_bc (add2_sss sss_addToEntry) dm g)) (new_scratch dim mdim (dpe * (dpe + 1) / 2) cell, (A, rhs)) = Ok (w, (B, rhs')) /\
        sss_pattern n P B /\ (forall I J, I < n -> J < n -> sym_matrix B I J = (sym_matrix A I J + assembled dofs dofs dpe dpe cs loc I J)%Qc) /\
        length rhs' = n /\ forall I, I < n -> vat rhs' I = (vat rhs I - boundary_action dofs dpe cs loc g I)%Qc.
    Proof using mok ok dis ev dims sym fit HP Hcell Hg.
      intros Hinf (wf & srt & sto) Hr Hcs. assert (Hlt : forall i, In i cs -> i < length C) by (intros i Hi; apply (in_cell_list (length C) st en); auto; apply Hcs; auto).
      destruct (sss_adds n (flat_map (tri_events (events_sss dofs loc) dpe) cs) A wf srt) as (B & E & wfB & sp & HB).
      { intros a b v H. apply sss_events_coupled in H as [H L]. destruct (coupled_fit _ _ _ _ _ _ _ _ _ _ _ _ ok ok H) as [Ha _]. split; [auto|split; [auto|]]. intros L'. apply sto; auto.
        split; [|auto]. apply HP. apply (coupled_incl _ _ _ _ cs); auto. }
      destruct (sub_ats n (flat_map (tri_events (events_rhs dofs loc g) dpe) cs) rhs Hr) as (rhs' & E' & Hr' & HB').
      { intros a v H. apply (rhs_events_fit _ _ _ _ _ _ _ _ _ _ ok H). }
      destruct (cells_loop dim mdim V C mok lm informed (dpe * (dpe + 1) / 2) _ ev dims (enter_bc (add2_sss sss_addToEntry) dm g)
        (both sss_addToEntry (events_sss dofs loc)) false cs (new_scratch dim mdim (dpe * (dpe + 1) / 2) cell) (A, rhs) (B, rhs')) as (w & Ew); auto.
      - intros Q. congruence.
      - intros i rest [A0 r0] [A1 r1] Hi Es. apply both_inv in Es as [E1 E2].
        apply (enter_bc_ok sss_addToEntry (length C) nb dm ok loc i _ rest (Hlt i Hi) eq_refl g Hg (events_sss dofs loc)); auto.
        + intros A2 j k Hj Hk. fold dofs in Hj, Hk. unfold add2_sss, events_sss. fold dofs. destruct (Z.ltb_spec (dof dofs i j) 0); [lia|]. destruct (Z.ltb_spec (dof dofs i k) 0); [lia|]. cbn [orb].
          unfold add_at. destruct (Z.eqb_spec (dof dofs i j) (dof dofs i k)) as [Q|Q].
          * rewrite <- Q, Z.ltb_irrefl. cbn [for_list do_add]. destruct (sss_addToEntry A2 _ _ _); reflexivity.
          * destruct (Z.ltb_spec (dof dofs i j) (dof dofs i k)); cbn [for_list do_add]; destruct (sss_addToEntry A2 _ _ _); reflexivity.
        + intros j k Hjk. unfold events_sss. fold dofs. fold dofs in Hjk. destruct (Z.ltb_spec (dof dofs i j) 0); [reflexivity|]. destruct (Z.ltb_spec (dof dofs i k) 0); [reflexivity|]. lia.
      - apply new_scratch_ok; auto.
      - apply both_loop; auto.
      - exists w, B, rhs'. split; [exact Ew|]. split; [apply (sss_pattern_same n P A); auto; split; auto|]. split; [|split; [auto|]].
        + intros I J HI HJ. rewrite HB by auto. rewrite sss_sum; auto.
        + intros I HI. rewrite HB' by auto. rewrite rhs_sum; auto.
    Qed.
  End Bc.
End Fill.
