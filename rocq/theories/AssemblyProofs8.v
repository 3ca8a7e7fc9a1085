(** Matrices that are not added up, and programs for which assembly fails. *)
From Verif Require Import Util Lin CSRModel CSRSpec SSSProofs OpsProofs OpsProofs4 MeshModel MeshSpec BaryModel BarySpec BaryProofs LocalSpec MeshProofs
  RestrictionProofs ReorderModel ReorderSpec ReorderProofs ReorderProofs2 AssemblyModel AssemblySpec AssemblyProofs AssemblyProofs2 AssemblyProofs3 AssemblyProofs4 AssemblyProofs5 AssemblyProofs6 AssemblyProofs7 FormsModel.
Set Default Proof Using "Type".

Lemma last_value_In evs I J v : last_value evs I J = Some v -> In (I, J, v) evs.
Proof.
  induction evs as [|[[a b] w] evs IH] using rev_ind; [discriminate|]. rewrite last_value_app. intros H. apply in_or_app.
  destruct ((a =? I) && (b =? J)) eqn:E; [|left; auto]. apply andb_prop in E as [E1 E2]. apply Nat.eqb_eq in E1, E2. injection H as <-. right. left. congruence.
Qed.
Lemma last_value_None evs I J v : last_value evs I J = None -> ~ In (I, J, v) evs.
Proof.
  induction evs as [|[[a b] w] evs IH] using rev_ind; [intros _ []|]. rewrite last_value_app. intros H Hin. apply in_app_or in Hin.
  destruct ((a =? I) && (b =? J)) eqn:E; [discriminate|]. destruct Hin as [Hin|[Hin|[]]]; [apply IH; auto|]. injection Hin as -> -> ->. rewrite !Nat.eqb_refl in E. discriminate.
Qed.

Section NonSym.
  Variables (dim mdim : nat) (V : list (list Qc)) (C : list (list nat)).
  Variables (dm dm' : dofmap) (nb nb' : nat).
  Variables (lm : local_matrix) (packed : bool) (loc : nat -> nat -> nat -> Qc).
  Variables (st en : option nat) (A : option csr) (ci : option (list nat)).

  Lemma nonsym_all : mesh_ok dim (mdim + 1) V C ->
    dofs_ok (length C) (dm_dpe dm) (dm_num dm) nb (dm_dofs dm) -> dofs_ok (length C) (dm_dpe dm') (dm_num dm') nb' (dm_dofs dm') ->
    evaluates (lm_eval lm) (lm_dim lm) (lm_needsCellInfo lm) (dm_dpe dm * dm_dpe dm') V C
      (fun i => if packed then upper_triangle (loc i) (seq 0 (dm_dpe dm)) else full_matrix (loc i) (seq 0 (dm_dpe dm)) (seq 0 (dm_dpe dm'))) ->
    (lm_needsCellInfo lm = true -> lm_dim lm = mdim) ->
    (packed = true -> dm_dpe dm' = dm_dpe dm /\ forall i j k, i < length C -> j < dm_dpe dm -> k < dm_dpe dm -> loc i j k = loc i k j) ->
    range_fits (length C) en ->
    (A = None -> few_coupled (dm_dofs dm) (dm_dofs dm') (dm_dpe dm) (dm_dpe dm') (cell_range (length C) st en)) ->
    (forall A0, A = Some A0 -> wf_csr (dm_num dm) (dm_num dm') A0 /\ sorted_csr (dm_num dm) A0 /\
      forall I J, coupled (dm_dofs dm) (dm_dofs dm') (dm_dpe dm) (dm_dpe dm') (cell_range (length C) st en) I J -> stored A0 I J) ->
    (forall l i, ci = Some l -> In i l -> In i (cell_range (length C) st en)) ->
    let cs := match ci with Some l => l | None => cell_range (length C) st en end in
    exists B, assembleNonSymMatrix_CSR dim mdim V C lm dm dm' A st en ci packed = Ok B /\ wf_csr (dm_num dm) (dm_num dm') B /\ sorted_csr (dm_num dm) B /\
      (A = None -> forall I J, I < dm_num dm -> (stored B I J <-> coupled (dm_dofs dm) (dm_dofs dm') (dm_dpe dm) (dm_dpe dm') (cell_range (length C) st en) I J)) /\
      (lm_additive lm = true -> forall I J, I < dm_num dm ->
        matrix B I J = ((match A with Some A0 => matrix A0 I J | None => 0 end) + assembled (dm_dofs dm) (dm_dofs dm') (dm_dpe dm) (dm_dpe dm') cs loc I J)%Qc) /\
      (lm_additive lm = false -> forall I J, I < dm_num dm ->
        (coupled (dm_dofs dm) (dm_dofs dm') (dm_dpe dm) (dm_dpe dm') cs I J ->
           exists i j k, In i cs /\ j < dm_dpe dm /\ k < dm_dpe dm' /\ dof (dm_dofs dm) i j = Z.of_nat I /\ dof (dm_dofs dm') i k = Z.of_nat J /\ matrix B I J = loc i j k) /\
        (~ coupled (dm_dofs dm) (dm_dofs dm') (dm_dpe dm) (dm_dpe dm') cs I J -> matrix B I J = match A with Some A0 => matrix A0 I J | None => 0%Qc end)).
  Proof.
    intros mok ok ok' ev dims sym fit few HA Hci cs.
    destruct (nonsym_general dim mdim V C mok dm dm' nb nb' ok ok' lm packed loc ev dims sym st en fit A ci few HA Hci) as (B & E & wf & srt & pat & M).
    exists B. split; [exact E|]. split; [exact wf|]. split; [exact srt|]. split; [exact pat|]. split; intros Had I J HI; specialize (M I J HI); rewrite Had in M; [exact M|].
    fold cs in M. destruct (last_value _ I J) as [v|] eqn:EL in M.
    - apply last_value_In in EL. apply nonsym_events_coupled in EL as (i & j & k & Hi & Hj & Hk & Ej & Ek & ->). split.
      + intros _. exists i, j, k. auto 10.
      + intros N. destruct N. exists i, j, k. auto.
    - split; [|auto]. intros (i & j & k & Hi & Hj & Hk & Ej & Ek). exfalso. eapply last_value_None; [exact EL|]. unfold cs. apply in_nonsym_events; eauto.
  Qed.
End NonSym.

(** ** Edge elements on one triangle *)
Definition tri_V : list (list Qc) := [[qz 0; qz 0]; [qz 1; qz 0]; [qz 0; qz 1]].
Definition tri_C : list (list nat) := [[2; 0; 1]].
Definition tri_dm : dofmap := DM [[0; 1; 2]%Z] 3 3 false.
Definition tri_dm_bd : dofmap := DM [[0; 1; -1]%Z] 2 3 false.

Lemma edge_elements_fail :
  assembleMass 2 tri_V tri_C ins_argsort N1e tri_dm None None None None None true false None = Err EUninit /\
  assembleMass 2 tri_V tri_C ins_argsort N1e tri_dm None None None None None false false (Some [0]) = Err EUninit /\
  assembleMass 2 tri_V tri_C ins_argsort N1e tri_dm_bd (Some [qz 0]) None None None None false false None = Err EUninit /\
  exists A, assembleMass 2 tri_V tri_C ins_argsort N1e tri_dm None None None None None false false None = Ok A.
Proof. split; [vm_compute; reflexivity|]. split; [vm_compute; reflexivity|]. split; [vm_compute; reflexivity|]. eexists. vm_compute. reflexivity. Qed.

(** ** A list of cells together with boundary data or symmetric storage *)
Definition seg_V : list (list Qc) := [[qz 0]; [qz 1]; [qz 2]].
Definition seg_C : list (list nat) := [[0; 1]; [1; 2]].
Definition seg_dm : dofmap := DM [[-1; 0]; [0; -2]]%Z 1 2 false.
Definition show_op (r : res (operator * dofmap * option (list Qc))) : option (list Q) :=
  match r with Ok (OpCSR A, _, _) => Some (map this (c_data A)) | Ok (OpSSS A, _, _) => Some (map this (s_diag A)) | Err _ => None end.
Lemma cell_list_ignored :
  show_op (assembleMass 1 seg_V seg_C ins_argsort P1 seg_dm None None None None None false false (Some [0])) = Some [1 # 3]%Q /\
  show_op (assembleMass 1 seg_V seg_C ins_argsort P1 seg_dm (Some [qz 0; qz 0]) None None None None false false (Some [0])) = Some [2 # 3]%Q /\
  show_op (assembleMass 1 seg_V seg_C ins_argsort P1 seg_dm None None None None None true false (Some [0])) = Some [2 # 3]%Q.
Proof. repeat split; vm_compute; reflexivity. Qed.

(** ** A degree of freedom twice in a cell *)
Definition loop_C : list (list nat) := [[0; 1]].
Definition loop_dm : dofmap := DM [[0; 0]]%Z 1 2 false.
Lemma repeated_dof :
  show_op (assembleMass 1 seg_V loop_C ins_argsort P1 loop_dm None None None None None false false None) = Some [5 # 6]%Q /\
  this (assembled (dm_dofs loop_dm) (dm_dofs loop_dm) 2 2 [0] (fun _ j k => Q2Qc (if j =? k then 1 # 3 else 1 # 6)) 0 0) = 1%Q.
Proof. split; vm_compute; reflexivity. Qed.

(** ** Reordering without degrees of freedom *)
Lemma reorder_nothing : assembleMass 1 seg_V loop_C ins_argsort P1 (DM [[-1; -2]]%Z 0 2 false) None None None None None false true None = Err EValue.
Proof. vm_compute. reflexivity. Qed.
