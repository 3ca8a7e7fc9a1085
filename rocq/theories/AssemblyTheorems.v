(** C38: assembly. *)
From Verif Require Import Util Lin CSRModel CSRSpec SSSProofs OpsProofs OpsProofs4 MeshModel MeshSpec BaryModel BarySpec BaryProofs LocalModel LocalSpec LocalProofs2
  ReorderModel ReorderSpec ReorderProofs2 AssemblyModel AssemblySpec AssemblyProofs6 AssemblyProofs8 FormsModel.

(** C38. For every mesh, every map of degrees of freedom without repetitions in a cell, every
    local matrix and every combination of the options, assembly terminates without error
    and returns a matrix in the format asked for (or that of the matrix given). Row and
    column numbers refer to the map after the call: the old one or, only if
    reordering was asked for, a renumbering of it. A new matrix stores exactly the entries
    of pairs that share a cell (and the diagonal, in symmetric storage). The entries are the
    old ones plus the sum of the local contributions of the cells; the contribution to the
    right-hand side is the old one minus the action of the boundary data. *)
Theorem C38_assemble : forall argsort dim mdim V C nb dm lm (informed : bool) loc st en bd rhs A sss_format reorder ci,
  is_argsort argsort -> mesh_ok dim (mdim + 1) V C ->
  dofs_ok (length C) (dm_dpe dm) (dm_num dm) nb (dm_dofs dm) -> dofs_distinct (dm_dpe dm) (dm_dofs dm) ->
  evaluates (lm_eval lm) (lm_dim lm) informed (dm_dpe dm * (dm_dpe dm + 1) / 2) V C (fun i => upper_triangle (loc i) (seq 0 (dm_dpe dm))) ->
  (lm_needsCellInfo lm = true -> lm_dim lm = mdim) ->
  (forall i j k, i < length C -> j < dm_dpe dm -> k < dm_dpe dm -> loc i j k = loc i k j) ->
  range_fits (length C) en ->
  let range := cell_range (length C) st en in
  let cs := match ci with Some l => l | None => range end in
  let fmt := match A with Some op => op_sss op | None => sss_format end in
  (A = None -> few_coupled (dm_dofs dm) (dm_dofs dm) (dm_dpe dm) (dm_dpe dm) range) ->
  (A = None -> reorder = true -> 0 < dm_num dm) ->
  (forall g, bd = Some g -> nb <= length g) ->
  (forall r, rhs = Some r -> length r = dm_num dm) ->
  (forall op, A = Some op -> op_ok (dm_num dm) op /\ forall I J, coupled (dm_dofs dm) (dm_dofs dm) (dm_dpe dm) (dm_dpe dm) range I J -> op_stores op I J) ->
  (forall l, ci = Some l -> bd = None /\ fmt = false /\ forall i, In i l -> In i range) ->
  (informed = true -> lm_needsCellInfo lm = true /\ bd = None /\ ci = None /\ fmt = false) ->
  exists op dm' r, assembleMatrix dim mdim V C argsort lm dm bd rhs A st en sss_format reorder ci = Ok (op, dm', r) /\
    renumbered dm dm' /\ ((A <> None \/ reorder = false \/ dm_reordered dm = true) -> dm' = dm) /\
    op_sss op = fmt /\ op_ok (dm_num dm) op /\
    (A = None -> forall I J, I < dm_num dm -> J < dm_num dm ->
      (op_stores op I J <-> coupled (dm_dofs dm') (dm_dofs dm') (dm_dpe dm) (dm_dpe dm) range I J \/ op_sss op = true /\ I = J)) /\
    (forall I J, I < dm_num dm -> J < dm_num dm ->
      op_matrix op I J = ((match A with Some op0 => op_matrix op0 I J | None => 0 end) + assembled (dm_dofs dm') (dm_dofs dm') (dm_dpe dm) (dm_dpe dm) cs loc I J)%Qc) /\
    match bd with
    | Some g => exists r', r = Some r' /\ length r' = dm_num dm /\
        forall I, I < dm_num dm -> vat r' I = ((match rhs with Some r0 => vat r0 I | None => 0 end) - boundary_action (dm_dofs dm') (dm_dpe dm) cs loc g I)%Qc
    | None => r = rhs
    end.
Proof.
  intros argsort dim mdim V C nb dm lm informed loc st en bd rhs A sss_format reorder ci Hsort mok ok dis ev dims sym fit range cs fmt few Hn Hbd Hrhs HA Hci Hinf.
  exact (assembleMatrix_ok argsort dim mdim V C Hsort mok nb dm ok dis lm informed loc ev dims sym st en fit bd rhs A sss_format reorder ci few Hn Hbd Hrhs HA Hci Hinf).
Qed.
Print Assumptions C38_assemble.

(** C38. The same for different rows and columns; a symmetric local matrix may be given by
    its upper triangle. Local matrices that are not added up leave in each entry the value that one of the
    cells has for it. *)
Theorem C38_nonsym : forall dim mdim V C dm dm' nb nb' lm (packed : bool) loc st en A ci,
  mesh_ok dim (mdim + 1) V C ->
  dofs_ok (length C) (dm_dpe dm) (dm_num dm) nb (dm_dofs dm) -> dofs_ok (length C) (dm_dpe dm') (dm_num dm') nb' (dm_dofs dm') ->
  evaluates (lm_eval lm) (lm_dim lm) (lm_needsCellInfo lm) (dm_dpe dm * dm_dpe dm') V C
    (fun i => if packed then upper_triangle (loc i) (seq 0 (dm_dpe dm)) else full_matrix (loc i) (seq 0 (dm_dpe dm)) (seq 0 (dm_dpe dm'))) ->
  (lm_needsCellInfo lm = true -> lm_dim lm = mdim) ->
  (packed = true -> dm_dpe dm' = dm_dpe dm /\ forall i j k, i < length C -> j < dm_dpe dm -> k < dm_dpe dm -> loc i j k = loc i k j) ->
  range_fits (length C) en ->
  (A = None -> few_coupled (dm_dofs dm) (dm_dofs dm') (dm_dpe dm) (dm_dpe dm') (cell_range (length C) st en)) ->
  (forall A0, A = Some A0 -> wf_csr (dm_num dm) (dm_num dm') A0 /\ sorted_csr (dm_num dm) A0 /\
    forall I J, coupled (dm_dofs dm) (dm_dofs dm') (dm_dpe dm) (dm_dpe dm') (cell_range (length C) st en) I J -> stored A0 I J) ->
  (forall l i, ci = Some l -> In i l -> In i (cell_range (length C) st en)) ->
  let cs := match ci with Some l => l | None => cell_range (length C) st en end in
  exists B, assembleNonSymMatrix_CSR dim mdim V C lm dm dm' A st en ci packed = Ok B /\ wf_csr (dm_num dm) (dm_num dm') B /\ sorted_csr (dm_num dm) B /\
    (A = None -> forall I J, I < dm_num dm -> (stored B I J <-> coupled (dm_dofs dm) (dm_dofs dm') (dm_dpe dm) (dm_dpe dm') (cell_range (length C) st en) I J)) /\
    (lm_additive lm = true -> forall I J, I < dm_num dm ->
      matrix B I J = ((match A with Some A0 => matrix A0 I J | None => 0 end) + assembled (dm_dofs dm) (dm_dofs dm') (dm_dpe dm) (dm_dpe dm') cs loc I J)%Qc) /\
    (lm_additive lm = false -> forall I J, I < dm_num dm ->
      (coupled (dm_dofs dm) (dm_dofs dm') (dm_dpe dm) (dm_dpe dm') cs I J ->
         exists i j k, In i cs /\ j < dm_dpe dm /\ k < dm_dpe dm' /\ dof (dm_dofs dm) i j = Z.of_nat I /\ dof (dm_dofs dm') i k = Z.of_nat J /\ matrix B I J = loc i j k) /\
      (~ coupled (dm_dofs dm) (dm_dofs dm') (dm_dpe dm) (dm_dpe dm') cs I J -> matrix B I J = match A with Some A0 => matrix A0 I J | None => 0%Qc end)).
Proof. exact nonsym_all. Qed.
Print Assumptions C38_nonsym.

(** C38 fails for local matrices that need to know the cell (those of edge elements) with
    symmetric storage, with a list of cells and with boundary data: they are never told
    which cell it is, and decide on the orientation of the edges by uninitialised memory. *)
Theorem C38_edge_elements_refuted :
  assembleMass 2 tri_V tri_C ins_argsort N1e tri_dm None None None None None true false None = Err EUninit /\
  assembleMass 2 tri_V tri_C ins_argsort N1e tri_dm None None None None None false false (Some [0]) = Err EUninit /\
  assembleMass 2 tri_V tri_C ins_argsort N1e tri_dm_bd (Some [qz 0]) None None None None false false None = Err EUninit /\
  exists A, assembleMass 2 tri_V tri_C ins_argsort N1e tri_dm None None None None None false false None = Ok A.
Proof. exact edge_elements_fail. Qed.
Print Assumptions C38_edge_elements_refuted.

(** C38 fails for a list of cells together with boundary data or symmetric storage: the list
    is ignored, and all cells contribute. *)
Theorem C38_cell_list_refuted :
  show_op (assembleMass 1 seg_V seg_C ins_argsort P1 seg_dm None None None None None false false (Some [0])) = Some [1 # 3]%Q /\
  show_op (assembleMass 1 seg_V seg_C ins_argsort P1 seg_dm (Some [qz 0; qz 0]) None None None None false false (Some [0])) = Some [2 # 3]%Q /\
  show_op (assembleMass 1 seg_V seg_C ins_argsort P1 seg_dm None None None None None true false (Some [0])) = Some [2 # 3]%Q.
Proof. exact cell_list_ignored. Qed.
Print Assumptions C38_cell_list_refuted.

(** C38 fails for a degree of freedom that a cell has twice: the two off-diagonal
    contributions are added once. *)
Theorem C38_repeated_refuted :
  show_op (assembleMass 1 seg_V loop_C ins_argsort P1 loop_dm None None None None None false false None) = Some [5 # 6]%Q /\
  this (assembled (dm_dofs loop_dm) (dm_dofs loop_dm) 2 2 [0] (fun _ j k => Q2Qc (if j =? k then 1 # 3 else 1 # 6)) 0 0) = 1%Q.
Proof. exact repeated_dof. Qed.
Print Assumptions C38_repeated_refuted.

(** C38 fails for reordering without interior degrees of freedom. *)
Theorem C38_reorder_nothing_refuted :
  assembleMass 1 seg_V loop_C ins_argsort P1 (DM [[-1; -2]]%Z 0 2 false) None None None None None false true None = Err EValue.
Proof. exact reorder_nothing. Qed.
Print Assumptions C38_reorder_nothing_refuted.

(** Three segments, two interior vertices, and the differences along the segments; the boundary values are 3 and 7. *)
Definition ex_V : list (list Qc) := [[qz 0]; [qz 1]; [qz 2]; [qz 3]].
Definition ex_C : list (list nat) := [[0; 1]; [1; 2]; [2; 3]].
Definition ex_dm : dofmap := DM [[-1; 0]; [0; 1]; [1; -2]]%Z 2 2 false.
Definition ex_lm : local_matrix := LM 1 false true (fun _ _ contrib => put [qz 1; qz (-1); qz 1] contrib).
Definition ex_loc (i j k : nat) : Qc := qz (if j =? k then 1 else -1).
Definition ex_show (r : res (operator * dofmap * option (list Qc))) :=
  match r with
  | Ok (OpCSR A, dm, r) => Some (c_indptr A, c_indices A, map this (c_data A), [], dm_dofs dm, option_map (map this) r)
  | Ok (OpSSS A, dm, r) => Some (s_indptr A, s_indices A, map this (s_data A), map this (s_diag A), dm_dofs dm, option_map (map this) r)
  | Err _ => None
  end.
Example C38_example_hypotheses : is_argsort ins_argsort /\ mesh_ok 1 2 ex_V ex_C /\ dofs_ok 3 2 2 2 (dm_dofs ex_dm) /\ dofs_distinct 2 (dm_dofs ex_dm) /\
  evaluates (lm_eval ex_lm) 1 false 3 ex_V ex_C (fun i => upper_triangle (ex_loc i) (seq 0 2)) /\
  few_coupled (dm_dofs ex_dm) (dm_dofs ex_dm) 2 2 (cell_range 3 None None).
Proof.
  split; [exact ins_argsort_ok|]. split; [|split; [|split; [|split]]].
  - split; [intros v Hv; cbn in Hv; intuition; subst; reflexivity|]. intros c Hc. cbn in Hc. destruct Hc as [<-|[<-|[<-|[]]]]; split; try reflexivity; intros v Hv; cbn in Hv; cbn; lia.
  - split; [reflexivity|]. split; [intros row H; cbn in H; destruct H as [<-|[<-|[<-|[]]]]; reflexivity|]. intros row d H Hd. cbn in H. destruct H as [<-|[<-|[<-|[]]]]; cbn in Hd; cbn; lia.
  - intros i j k Hj Hk. destruct i as [|[|[|i]]]; [| | |unfold dof; rewrite !(nth_overflow (dm_dofs ex_dm)) by (cbn; lia); rewrite nth_overflow by (cbn; lia); lia];
      destruct j as [|[|j]]; try lia; destruct k as [|[|k]]; try lia; cbn; lia.
  - intros i c cell contrib Hc Hl _ Hn. exists []. rewrite app_nil_r. split; [|reflexivity]. cbn [ex_lm lm_eval]. rewrite put_ok by exact Hn. reflexivity.
  - intros I Js ND H. apply Nat.le_lt_trans with (length [0; 1]); [|assert (H2 : 2 ^ 1 < 2 ^ 16) by (apply Nat.pow_lt_mono_r; lia); rewrite Nat.pow_1_r in H2; exact H2].
    apply NoDup_incl_length; auto. intros J HJ. destruct (H J HJ) as (i & j & k & Hi & Hj & Hk & _ & E). cbn in Hi. clear -Hi Hk E.
    destruct Hi as [<-|[<-|[<-|[]]]]; destruct k as [|[|k]]; try lia; cbn in E; cbn; lia.
Qed.
Example C38_example :
  ex_show (assembleMatrix 1 1 ex_V ex_C ins_argsort ex_lm ex_dm (Some [qz 3; qz 7]) None None None None false false None) =
    Some ([0; 2; 4], [0; 1; 0; 1], [2; -1; -1; 2]%Q, [], [[-1; 0]; [0; 1]; [1; -2]]%Z, Some [3; 7]%Q) /\
  ex_show (assembleMatrix 1 1 ex_V ex_C ins_argsort ex_lm ex_dm None None None None None true true None) =
    Some ([0; 0; 1], [0], [-1]%Q, [2; 2]%Q, [[-1; 0]; [0; 1]; [1; -2]]%Z, None) /\
  ex_show (assembleMatrix 1 1 ex_V ex_C ins_argsort ex_lm ex_dm None None None None None false false (Some [1; 1; 2])) =
    Some ([0; 2; 4], [0; 1; 0; 1], [2; -2; -2; 3]%Q, [], [[-1; 0]; [0; 1]; [1; -2]]%Z, None).
Proof. repeat split; vm_compute; reflexivity. Qed.
