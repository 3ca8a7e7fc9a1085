(** The assembly functions. *)
From Coq Require Import Sorted Permutation.
From Verif Require Import Util Lin CSRModel CSRSpec SSSProofs OpsProofs OpsProofs4 MeshModel MeshSpec BaryModel BarySpec LocalSpec
  ReorderModel ReorderSpec ReorderProofs AssemblyModel AssemblySpec AssemblyProofs AssemblyProofs2 AssemblyProofs3 AssemblyProofs4 AssemblyProofs5.
Set Default Proof Using "Type".

Lemma boundary_action_none nc dpe n dofs cs loc g I : dofs_ok nc dpe n 0 dofs -> (forall i, In i cs -> i < nc) -> boundary_action dofs dpe cs loc g I = 0%Qc.
Proof.
  intros ok Hc. unfold boundary_action. apply suml_map_zero. intros i Hi. cbv beta. apply sumf_zero. intros j Hj. apply sumf_zero. intros k Hk.
  destruct (Z.ltb_spec (dof dofs i k) 0) as [L|L]; [|rewrite andb_false_r; reflexivity]. exfalso. destruct ok as (Hl & Hr & Hd). unfold dof in L.
  assert (Hin : In (nth i dofs []) dofs) by (apply nth_In; rewrite Hl; auto).
  pose proof (Hd _ (nth k (nth i dofs []) (-1)%Z) Hin) as Q. cbn in Q. assert (k < length (nth i dofs [])) by (rewrite (Hr _ Hin); auto). specialize (Q (nth_In _ _ H)). lia.
Qed.

Section Fill.
  Variables (dim mdim : nat) (V : list (list Qc)) (C : list (list nat)).
  Hypothesis mok : mesh_ok dim (mdim + 1) V C.
  Variables (nb : nat) (dm : dofmap).
  Let n := dm_num dm.
  Let dpe := dm_dpe dm.
  Let dofs := dm_dofs dm.
  Hypothesis ok : dofs_ok (length C) dpe n nb dofs.
  Hypothesis dis : dofs_distinct dpe dofs.
  Variables (lm : local_matrix) (informed : bool) (loc : nat -> nat -> nat -> Qc).
  Hypothesis ev : evaluates (lm_eval lm) (lm_dim lm) informed (dpe * (dpe + 1) / 2) V C (fun i => upper_triangle (loc i) (seq 0 dpe)).
  Hypothesis dims : lm_needsCellInfo lm = true -> lm_dim lm = mdim.
  Hypothesis sym : forall i j k, i < length C -> j < dpe -> k < dpe -> loc i j k = loc i k j.
  Variables (st en : option nat).
  Hypothesis fit : cells_fit (length C) st en.
  Let range := cell_list (length C) st en.
  Variable P : nat -> nat -> Prop.
  Hypothesis HP : forall I J, coupled dofs dofs dpe dpe range I J -> P I J.
  Variable cell : buf nat.
  Hypothesis Hcell : length cell = S (lm_dim lm).
  Variables (bd rhs : list Qc).
  Hypothesis Hbd : bd = [] \/ nb <= length bd /\ length rhs = n.

  Definition rhs_ok (cs : list nat) (rhs' : list Qc) : Prop :=
    match bd with [] => rhs' = rhs | _ => length rhs' = n /\ forall I, I < n -> vat rhs' I = (vat rhs I - boundary_action dofs dpe cs loc bd I)%Qc end.

  Lemma fill_csr_ok A ci : csr_pattern n n P A ->
    let cs := match bd, ci with [], Some l => l | _, _ => range end in
    (forall i, In i cs -> In i range) -> (informed = true -> lm_needsCellInfo lm = true /\ bd = [] /\ ci = None) ->
    exists B rhs', fill_csr dim mdim V C lm dm bd rhs A st en ci cell = Ok (B, rhs') /\ csr_pattern n n P B /\
      (forall I J, I < n -> matrix B I J = (matrix A I J + assembled dofs dofs dpe dpe cs loc I J)%Qc) /\ rhs_ok cs rhs'.
  Proof using mok ok dis ev dims sym fit HP Hcell Hbd.
    intros HA cs Hcs Hinf. unfold fill_csr, rhs_ok. destruct bd as [|g0 g].
    - destruct ci as [l|].
      + destruct (csr_fill_cells dim mdim V C mok nb dm ok dis lm informed loc ev dims sym st en fit P HP cell Hcell false l A HA Hcs) as (w & B & E & HB & HM).
        { intros Q. destruct (Hinf Q) as (_ & _ & X). discriminate. }
        match type of E with ?t = _ => match goal with |- context [for_list l ?f ?s] => change (for_list l f s) with t end end. rewrite E, bind_Ok. cbv beta iota. exists B, rhs. auto.
      + destruct (csr_fill_cells dim mdim V C mok nb dm ok dis lm informed loc ev dims sym st en fit P HP cell Hcell true range A HA Hcs) as (w & B & E & HB & HM).
        { intros Q. destruct (Hinf Q) as (X & _ & _). auto. }
        rewrite for_range_list.
        match type of E with ?t = _ => match goal with |- context [for_list ?l ?f ?s] => change (for_list l f s) with t end end. rewrite E, bind_Ok. cbv beta iota. exists B, rhs. auto.
    - destruct Hbd as [Q|[Hg Hr]]; [discriminate|].
      destruct (csr_fill_bc dim mdim V C mok nb dm ok dis lm informed loc ev dims sym st en fit P HP cell Hcell (g0 :: g) Hg range A rhs) as (w & B & rhs' & E & HB & HM & HL & HR); auto.
      { destruct informed; [|reflexivity]. destruct (Hinf eq_refl) as (_ & X & _). discriminate. }
      rewrite for_range_list.
      match type of E with ?t = _ => match goal with |- context [for_list ?l ?f ?s] => change (for_list l f s) with t end end. rewrite E, bind_Ok. cbv beta iota.
      exists B, rhs'. split; [reflexivity|]. split; [auto|]. split; [|auto]. exact HM.
  Qed.

  Lemma fill_sss_ok A : sss_pattern n P A -> informed = false ->
    exists B rhs', fill_sss dim mdim V C lm dm bd rhs A st en cell = Ok (B, rhs') /\ sss_pattern n P B /\
      (forall I J, I < n -> J < n -> sym_matrix B I J = (sym_matrix A I J + assembled dofs dofs dpe dpe range loc I J)%Qc) /\ rhs_ok range rhs'.
  Proof using mok ok dis ev dims sym fit HP Hcell Hbd.
    intros HA Hinf. unfold fill_sss, rhs_ok. destruct bd as [|g0 g].
    - destruct (sss_fill_cells dim mdim V C mok nb dm ok dis lm informed loc ev dims sym st en fit P HP cell Hcell false range A HA) as (w & B & E & HB & HM); auto.
      { intros Q. congruence. }
      rewrite for_range_list.
      match type of E with ?t = _ => match goal with |- context [for_list ?l ?f ?s] => change (for_list l f s) with t end end. rewrite E, bind_Ok. cbv beta iota. exists B, rhs. auto.
    - destruct Hbd as [Q|[Hg Hr]]; [discriminate|].
      destruct (sss_fill_bc dim mdim V C mok nb dm ok dis lm informed loc ev dims sym st en fit P HP cell Hcell (g0 :: g) Hg range A rhs) as (w & B & rhs' & E & HB & HM & HL & HR); auto.
      rewrite for_range_list.
      match type of E with ?t = _ => match goal with |- context [for_list ?l ?f ?s] => change (for_list l f s) with t end end. rewrite E, bind_Ok. cbv beta iota.
      exists B, rhs'. split; [reflexivity|]. split; [auto|]. split; [|auto]. exact HM.
  Qed.
End Fill.

Lemma renumbered_facts nc nb dm dm' : dofs_ok nc (dm_dpe dm) (dm_num dm) nb (dm_dofs dm) -> dofs_distinct (dm_dpe dm) (dm_dofs dm) -> renumbered dm dm' ->
  dm_dpe dm' = dm_dpe dm /\ dm_num dm' = dm_num dm /\ dofs_ok nc (dm_dpe dm') (dm_num dm') nb (dm_dofs dm') /\ dofs_distinct (dm_dpe dm') (dm_dofs dm').
Proof.
  intros ok dis [->|(H1 & H2 & p & Hp & E)]; [auto|]. split; [auto|]. split; [auto|]. rewrite H1, H2, E. split; [apply renumber_ok; auto|].
  apply (renumber_distinct nc _ (dm_num dm) nb); auto.
Qed.

Definition vec (o : option (list Qc)) : list Qc := match o with Some v => v | None => [] end.

Section Assemble.
  Variables (argsort : list nat -> list nat) (dim mdim : nat) (V : list (list Qc)) (C : list (list nat)).
  Hypothesis Hsort : is_argsort argsort.
  Hypothesis mok : mesh_ok dim (mdim + 1) V C.
  Variables (nb : nat) (dm : dofmap).
  Let n := dm_num dm.
  Let dpe := dm_dpe dm.
  Hypothesis ok : dofs_ok (length C) dpe n nb (dm_dofs dm).
  Hypothesis dis : dofs_distinct dpe (dm_dofs dm).
  Variables (lm : local_matrix) (informed : bool) (loc : nat -> nat -> nat -> Qc).
  Hypothesis ev : evaluates (lm_eval lm) (lm_dim lm) informed (dpe * (dpe + 1) / 2) V C (fun i => upper_triangle (loc i) (seq 0 dpe)).
  Hypothesis dims : lm_needsCellInfo lm = true -> lm_dim lm = mdim.
  Hypothesis sym : forall i j k, i < length C -> j < dpe -> k < dpe -> loc i j k = loc i k j.
  Variables (st en : option nat).
  Hypothesis fit : range_fits (length C) en.
  Let range := cell_range (length C) st en.
  Variables (bd rhs : option (list Qc)) (A : option operator) (sss_format reorder : bool) (ci : option (list nat)).
  Hypothesis few : A = None -> few_coupled (dm_dofs dm) (dm_dofs dm) dpe dpe range.
  Hypothesis Hn : A = None -> reorder = true -> 0 < n.
  Hypothesis Hbd : forall g, bd = Some g -> nb <= length g.
  Hypothesis Hrhs : forall r, rhs = Some r -> length r = n.
  Hypothesis HA : forall op, A = Some op -> op_ok n op /\ forall I J, coupled (dm_dofs dm) (dm_dofs dm) dpe dpe range I J -> op_stores op I J.
  Let fmt := match A with Some op => op_sss op | None => sss_format end.
  Hypothesis Hci : forall l, ci = Some l -> bd = None /\ fmt = false /\ forall i, In i l -> In i range.
  Hypothesis Hinf : informed = true -> lm_needsCellInfo lm = true /\ bd = None /\ ci = None /\ fmt = false.
  Let cs := match ci with Some l => l | None => range end.

  Definition result_ok (res : res (operator * dofmap * option (list Qc))) : Prop :=
    exists op dm' r, res = Ok (op, dm', r) /\ renumbered dm dm' /\ ((A <> None \/ reorder = false \/ dm_reordered dm = true) -> dm' = dm) /\
      op_sss op = fmt /\ op_ok n op /\
      (A = None -> forall I J, I < n -> J < n -> (op_stores op I J <-> coupled (dm_dofs dm') (dm_dofs dm') dpe dpe range I J \/ op_sss op = true /\ I = J)) /\
      (forall I J, I < n -> J < n -> op_matrix op I J = ((match A with Some op0 => op_matrix op0 I J | None => 0 end) + assembled (dm_dofs dm') (dm_dofs dm') dpe dpe cs loc I J)%Qc) /\
      match bd with
      | Some g => exists r', r = Some r' /\ length r' = n /\ forall I, I < n -> vat r' I = ((match rhs with Some r0 => vat r0 I | None => 0 end) - boundary_action (dm_dofs dm') dpe cs loc g I)%Qc
      | None => r = rhs
      end.

  Lemma fits : cells_fit (length C) st en.
  Proof using fit. unfold cells_fit. clear -fit. unfold range_fits in fit. destruct en; cbn in *; auto. Qed.

  Let rhs0 := match bd, rhs with Some _, None => Some (repeat 0%Qc (dm_num dm)) | _, _ => rhs end.
  Lemma bd_rhs : vec bd = [] \/ nb <= length (vec bd) /\ length (vec rhs0) = n.
  Proof using All.
    unfold rhs0. destruct bd as [g|]; [|left; reflexivity]. right. split; [apply Hbd; reflexivity|]. destruct rhs as [r|]; cbn [vec]; [apply Hrhs; reflexivity|apply repeat_length].
  Qed.
  Lemma cs_range : forall i, In i cs -> In i range.
  Proof using All. unfold cs. destruct ci as [l|]; [|auto]. apply (Hci l eq_refl). Qed.
  Lemma cs_lt i : In i cs -> i < length C.
  Proof using All. intros Hi. apply (in_cell_list (length C) st en i fits). apply cs_range. exact Hi. Qed.

  (** What becomes of the right-hand side *)
  Lemma rhs_result dm' rhs' : renumbered dm dm' -> rhs_ok dm' loc (vec bd) (vec rhs0) cs rhs' ->
    match bd with
    | Some g => exists r', (match rhs0 with Some _ => Some rhs' | None => None end) = Some r' /\ length r' = n /\
        forall I, I < n -> vat r' I = ((match rhs with Some r0 => vat r0 I | None => 0 end) - boundary_action (dm_dofs dm') dpe cs loc g I)%Qc
    | None => (match rhs0 with Some _ => Some rhs' | None => None end) = rhs
    end.
  Proof using All.
    intros HR H. destruct (renumbered_facts _ _ _ _ ok dis HR) as (E1 & E2 & ok' & _). unfold rhs_ok in H. pose proof cs_lt as Hlt. unfold rhs0 in *. destruct bd as [g|]; cbn [vec] in H.
    - set (r0 := match rhs with Some r0 => r0 | None => repeat 0%Qc (dm_num dm) end).
      assert (Hr0 : length r0 = n) by (unfold r0; destruct rhs as [r|]; [apply Hrhs; reflexivity|apply repeat_length]).
      assert (Hv : forall I, vat r0 I = match rhs with Some r0 => vat r0 I | None => 0%Qc end) by (intros I; unfold r0; destruct rhs; [reflexivity|unfold vat; apply nth_repeat]).
      exists rhs'. split; [destruct rhs; reflexivity|].
      replace (vec (match rhs with Some _ => rhs | None => Some (repeat 0%Qc (dm_num dm)) end)) with r0 in H by (unfold r0; destruct rhs; reflexivity).
      destruct g as [|g0 g].
      + subst rhs'. split; [auto|]. intros I HI. rewrite Hv. specialize (Hbd [] eq_refl). cbn in Hbd. assert (nb = 0) as E0 by lia. rewrite E0, E1, E2 in ok'.
        rewrite (boundary_action_none (length C) dpe n (dm_dofs dm')) by auto. ring.
      + rewrite E1, E2 in H. destruct H as [H1 H2]. split; [auto|]. intros I HI. rewrite H2, Hv by auto. reflexivity.
    - destruct rhs as [r|]; cbn [vec] in H; congruence.
  Qed.

  Lemma assembleMatrix_ok : result_ok (assembleMatrix dim mdim V C argsort lm dm bd rhs A st en sss_format reorder ci).
  Proof using All.
    pose proof cs_range as Hcs. pose proof bd_rhs as Hbr. pose proof fits as Hfits. pose proof rhs_result as Hres. unfold result_ok.
    assert (Hcell : length (alloc (A := nat) (lm_dim lm + 1)) = S (lm_dim lm)) by (rewrite alloc_length; lia).
    unfold assembleMatrix. fold rhs0.
    change (match bd with Some v => v | None => [] end) with (vec bd). change (match rhs0 with Some v => v | None => [] end) with (vec rhs0).
    assert (Hcs0 : match vec bd, ci with [], Some l => l | _, _ => range end = cs).
    { unfold cs. destruct ci as [l|]; [destruct (Hci l eq_refl) as [-> _]; reflexivity|destruct (vec bd); reflexivity]. }
    assert (Hinf' : informed = true -> lm_needsCellInfo lm = true /\ vec bd = [] /\ ci = None) by (intros Q; destruct (Hinf Q) as (? & -> & ? & _); auto).
    assert (Hinf2 : fmt = true -> informed = false) by (intros Q; destruct informed; [|reflexivity]; destruct (Hinf eq_refl) as (_ & _ & _ & X); congruence).
    destruct A as [[A0|A0]|] eqn:EA.
    - (* given, CSR *)
      destruct (HA _ eq_refl) as [[wf srt] Hst]. unfold assembleSymMatrix_CSR. rewrite bind_Ok. cbv beta iota.
      destruct (fill_csr_ok dim mdim V C mok nb dm ok dis lm informed loc ev dims sym st en Hfits (stored A0) Hst (alloc (lm_dim lm + 1)) Hcell (vec bd) (vec rhs0) Hbr A0 ci) as (B & rhs' & E & HB & HM & HRr).
      { split; [auto|split; [auto|reflexivity]]. }
      { intros i Hi. change (cell_list (length C) st en) with range in Hi. rewrite Hcs0 in Hi. apply Hcs; auto. } { auto. }
      rewrite E. cbn [bind]. exists (OpCSR B), dm. eexists. split; [reflexivity|].
      change (cell_list (length C) st en) with range in HM, HRr. rewrite Hcs0 in HM, HRr.
      split; [left; reflexivity|]. split; [auto|]. split; [reflexivity|]. split; [destruct HB as (X & Y & _); split; auto|]. split; [discriminate|]. split; [intros I J HI HJ; apply HM; auto|].
      apply Hres; [left; reflexivity|exact HRr].
    - (* given, SSS *)
      destruct (HA _ eq_refl) as [[wf srt] Hst]. unfold assembleSymMatrix_SSS. rewrite bind_Ok. cbv beta iota.
      assert (Hci0 : ci = None) by (destruct ci as [l|]; [destruct (Hci l eq_refl) as (_ & X & _); discriminate|reflexivity]).
      destruct (fill_sss_ok dim mdim V C mok nb dm ok dis lm informed loc ev dims sym st en Hfits (op_stores (OpSSS A0)) Hst (alloc (lm_dim lm + 1)) Hcell (vec bd) (vec rhs0) Hbr A0) as (B & rhs' & E & HB & HM & HRr); auto.
      { split; [auto|split; [auto|]]. intros i j Hi. cbn [op_stores]. split.
        - intros H. pose proof H as H'. unfold stored_lower in H'. apply in_map_iff in H' as (p & <- & Hp). destruct wf as (_ & _ & W). pose proof (W i p Hi Hp) as L. split; [|auto].
          right. rewrite Nat.max_l, Nat.min_r by lia. exact H.
        - intros [[->|H] L]; [lia|]. rewrite Nat.max_l, Nat.min_r in H by lia. exact H. }
      rewrite E. cbn [bind]. exists (OpSSS B), dm. eexists. split; [reflexivity|].
      change (cell_list (length C) st en) with range in HM, HRr. assert (Ecs : cs = range) by (unfold cs; rewrite Hci0; reflexivity). rewrite <- Ecs in HM, HRr.
      split; [left; reflexivity|]. split; [auto|]. split; [reflexivity|]. split; [destruct HB as (X & Y & _); split; auto|]. split; [discriminate|]. split; [intros I J HI HJ; apply HM; auto|].
      apply Hres; [left; reflexivity|exact HRr].
    - specialize (few eq_refl). specialize (Hn eq_refl). unfold fmt in *. destruct sss_format.
      + (* new, SSS *)
        assert (Hci0 : ci = None) by (destruct ci as [l|]; [destruct (Hci l eq_refl) as (_ & X & _); discriminate|reflexivity]).
        destruct (buildSymmetricSparsityPattern_ok argsort (length C) nb dm st en Hsort ok Hfits few reorder Hn) as (A0 & dm' & EB & HR & HP & Hz & Hdm & _).
        unfold assembleSymMatrix_SSS. rewrite EB, bind_Ok. cbv beta iota.
        destruct (renumbered_facts _ _ _ _ ok dis HR) as (E1 & E2 & ok' & dis'). fold n in E2. fold dpe in E1.
        destruct (fill_sss_ok dim mdim V C mok nb dm' ok' dis' lm informed loc) with (st := st) (en := en) (P := coupled (dm_dofs dm') (dm_dofs dm') (dm_dpe dm) (dm_dpe dm) range) (cell := alloc (A := nat) (lm_dim lm + 1))
           (bd := vec bd) (rhs := vec rhs0) (A := A0) as (B & rhs' & E & HB & HM & HRr); auto.
        { rewrite E1. exact ev. } { rewrite E1. exact sym. }  { rewrite E1. auto. } { rewrite E2. exact Hbr. } { rewrite E2. exact HP. }
        rewrite E. cbn [bind]. exists (OpSSS B), dm'. eexists. split; [reflexivity|].
        change (cell_list (length C) st en) with range in HM, HRr. assert (Ecs : cs = range) by (unfold cs; rewrite Hci0; reflexivity). rewrite <- Ecs in HM, HRr.
        rewrite E2 in HB, HM. rewrite E1 in HM.
        split; [exact HR|]. split; [intros [X|X]; [congruence|auto]|]. split; [reflexivity|]. split; [destruct HB as (X & Y & _); split; auto|]. split; [|split].
        * intros _ I J HI HJ. cbn [op_stores op_sss]. destruct HB as (_ & _ & HS).
          destruct (Nat.lt_trichotomy I J) as [L|[->|L]].
          -- rewrite Nat.max_r, Nat.min_l by lia. rewrite HS by auto. split; [intros [X|[X Y]]; [lia|left; apply coupled_sym; auto]|intros [X|[_ X]]; [right; split; [apply coupled_sym; auto|auto]|lia]].
          -- split; intros _; [right|left]; auto.
          -- rewrite Nat.max_l, Nat.min_r by lia. rewrite HS by auto. split; [intros [X|[X Y]]; [lia|left; auto]|intros [X|[_ X]]; [right; auto|lia]].
        * intros I J HI HJ. cbn [op_matrix]. rewrite HM, Hz by auto. reflexivity.
        * apply Hres; [exact HR|exact HRr].
      + (* new, CSR *)
        destruct (buildSparsityPattern_ok argsort (length C) nb dm st en Hsort ok Hfits few reorder Hn) as (A0 & dm' & EB & HR & HP & Hz & Hdm & _).
        unfold assembleSymMatrix_CSR. rewrite EB, bind_Ok. cbv beta iota.
        destruct (renumbered_facts _ _ _ _ ok dis HR) as (E1 & E2 & ok' & dis'). fold n in E2. fold dpe in E1.
        destruct (fill_csr_ok dim mdim V C mok nb dm' ok' dis' lm informed loc) with (st := st) (en := en) (P := coupled (dm_dofs dm') (dm_dofs dm') (dm_dpe dm) (dm_dpe dm) range) (cell := alloc (A := nat) (lm_dim lm + 1))
           (bd := vec bd) (rhs := vec rhs0) (A := A0) (ci := ci) as (B & rhs' & E & HB & HM & HRr); auto.
        { rewrite E1. exact ev. } { rewrite E1. exact sym. }  { rewrite E1. auto. } { rewrite E2. exact Hbr. } { rewrite E2. exact HP. }
        { intros i Hi. change (cell_list (length C) st en) with range in Hi. rewrite Hcs0 in Hi. apply Hcs; auto. }
        rewrite E. cbn [bind]. exists (OpCSR B), dm'. eexists. split; [reflexivity|].
        change (cell_list (length C) st en) with range in HM, HRr. rewrite Hcs0 in HM, HRr.
        rewrite E2 in HB, HM. rewrite E1 in HM.
        split; [exact HR|]. split; [intros [X|X]; [congruence|auto]|]. split; [reflexivity|]. split; [destruct HB as (X & Y & _); split; auto|]. split; [|split].
        * intros _ I J HI HJ. cbn [op_stores op_sss]. destruct HB as (_ & _ & HS). rewrite HS by auto. split; [auto|intros [X|[X _]]; [auto|discriminate]].
        * intros I J HI HJ. cbn [op_matrix]. rewrite HM, Hz by auto. reflexivity.
        * apply Hres; [exact HR|exact HRr].
  Qed.
End Assemble.
