(** Property C40: the discrete gradient and the discrete curl in the plane. *)
From Verif Require Import Util Lin CSRModel CSRSpec MeshModel MeshSpec ReorderModel AssemblyModel AssemblySpec FormsModel FormsSpec ExactSpec ExactProofs.
Local Open Scope Qc_scope.

(** C40. assembleDiscreteGradient returns the matrix that maps the values at the vertices
    to their differences along the edges; vertices on the boundary have value zero. *)
Theorem C40_gradient : forall V C dm dm' nb nb' st en E num, mesh_ok 2 3 V C -> triangles C -> dm_dpe dm = 3%nat -> dm_dpe dm' = 3%nat ->
  dofs_ok (length C) 3 (dm_num dm) nb (dm_dofs dm) -> dofs_ok (length C) 3 (dm_num dm') nb' (dm_dofs dm') ->
  range_fits (length C) en -> few_coupled (dm_dofs dm) (dm_dofs dm') 3 3 (cell_range (length C) st en) ->
  numbers_edges C (dm_dofs dm) E -> numbers_vertices C (dm_dofs dm') num -> all_used (dm_num dm) 3 (dm_dofs dm) (cell_range (length C) st en) ->
  exists G, assembleDiscreteGradient 2 V C dm dm' None st en = Ok G /\ wf_csr (dm_num dm) (dm_num dm') G /\
    forall u I, (I < dm_num dm)%nat -> sumf (dm_num dm') (fun J => matrix G I J * u J) = interior u (num (snd (E I))) - interior u (num (fst (E I))).
Proof. exact gradient_all. Qed.
Print Assumptions C40_gradient.

(** C40. assembleDiscreteCurl returns the matrix that maps values on the edges to their
    signed sums around the triangles. *)
Theorem C40_curl : forall V C dm dm' nb nb' st en E num, mesh_ok 2 3 V C -> triangles C -> dm_dpe dm = 1%nat -> dm_dpe dm' = 3%nat ->
  dofs_ok (length C) 1 (dm_num dm) nb (dm_dofs dm) -> dofs_ok (length C) 3 (dm_num dm') nb' (dm_dofs dm') ->
  range_fits (length C) en -> numbers_cells C (dm_dofs dm) num -> numbers_edges C (dm_dofs dm') E ->
  exists K, assembleDiscreteCurl 2 V C dm dm' None st en = Ok K /\ wf_csr (dm_num dm) (dm_num dm') K /\
    forall w i c, In i (cell_range (length C) st en) -> nth_error C i = Some c -> (0 <= num i)%Z ->
      sumf (dm_num dm') (fun J => matrix K (Z.to_nat (num i)) J * w J) = sumf 3 (fun k => sign c k * interior w (dof (dm_dofs dm') i k)).
Proof. exact curl_all. Qed.
Print Assumptions C40_curl.

(** C40. The curl of a gradient is zero in every triangle of which no edge was removed. *)
Theorem C40_exact : forall V C dmP dmE dmV nbP nbE nbV st en E num cnum, mesh_ok 2 3 V C -> triangles C -> dm_dpe dmP = 1%nat -> dm_dpe dmE = 3%nat -> dm_dpe dmV = 3%nat ->
  dofs_ok (length C) 1 (dm_num dmP) nbP (dm_dofs dmP) -> dofs_ok (length C) 3 (dm_num dmE) nbE (dm_dofs dmE) -> dofs_ok (length C) 3 (dm_num dmV) nbV (dm_dofs dmV) ->
  range_fits (length C) en -> let range := cell_range (length C) st en in
  few_coupled (dm_dofs dmE) (dm_dofs dmV) 3 3 range -> numbers_cells C (dm_dofs dmP) cnum -> numbers_edges C (dm_dofs dmE) E -> numbers_vertices C (dm_dofs dmV) num ->
  all_used (dm_num dmE) 3 (dm_dofs dmE) range ->
  exists G K, assembleDiscreteGradient 2 V C dmE dmV None st en = Ok G /\ assembleDiscreteCurl 2 V C dmP dmE None st en = Ok K /\
    forall u i, In i range -> (0 <= cnum i)%Z -> (forall k, (k < 3)%nat -> (0 <= dof (dm_dofs dmE) i k)%Z) ->
      sumf (dm_num dmE) (fun I => matrix K (Z.to_nat (cnum i)) I * sumf (dm_num dmV) (fun J => matrix G I J * u J)) = 0.
Proof. exact exact_all. Qed.
Print Assumptions C40_exact.

(** Two triangles; vertex 0 is on the boundary. *)
Definition ex_V : list (list Qc) := [[qz 0; qz 0]; [qz 1; qz 0]; [qz 0; qz 1]; [qz 1; qz 1]].
Definition ex_C : list (list nat) := [[0; 1; 2]; [1; 3; 2]]%nat.
Definition ex_dmV : dofmap := DM [[-1; 0; 1]; [0; 2; 1]]%Z 3 3 false.
Definition ex_dmE : dofmap := DM [[0; 1; 2]; [3; 4; 1]]%Z 5 3 false.
Definition ex_dmP : dofmap := DM [[0]; [1]]%Z 2 1 false.
Definition ex_E (i : nat) : nat * nat := nth i [(0, 1); (1, 2); (0, 2); (1, 3); (2, 3)]%nat (O, O).
Definition ex_num (v : nat) : Z := (Z.of_nat v - 1)%Z.
Example C40_example_hypotheses : mesh_ok 2 3 ex_V ex_C /\ triangles ex_C /\ dofs_ok 2 1 2 0 (dm_dofs ex_dmP) /\ dofs_ok 2 3 5 0 (dm_dofs ex_dmE) /\ dofs_ok 2 3 3 1 (dm_dofs ex_dmV) /\
  few_coupled (dm_dofs ex_dmE) (dm_dofs ex_dmV) 3 3 (cell_range 2 None None) /\ numbers_cells ex_C (dm_dofs ex_dmP) Z.of_nat /\ numbers_edges ex_C (dm_dofs ex_dmE) ex_E /\
  numbers_vertices ex_C (dm_dofs ex_dmV) ex_num /\ all_used 5 3 (dm_dofs ex_dmE) (cell_range 2 None None).
Proof.
  split; [|split; [|split; [|split; [|split; [|split; [|split; [|split; [|split]]]]]]]].
  - split; [intros v Hv; cbn in Hv; intuition; subst; reflexivity|]. intros c Hc. cbn in Hc. destruct Hc as [<-|[<-|[]]]; split; try reflexivity; intros v Hv; cbn in Hv; cbn; lia.
  - intros c Hc. cbn in Hc. destruct Hc as [<-|[<-|[]]]; (split; [reflexivity|]); repeat constructor; cbn; lia.
  - split; [reflexivity|]. split; [intros row H; cbn in H; destruct H as [<-|[<-|[]]]; reflexivity|]. intros row d H Hd. cbn in H. destruct H as [<-|[<-|[]]]; cbn in Hd; cbn; lia.
  - split; [reflexivity|]. split; [intros row H; cbn in H; destruct H as [<-|[<-|[]]]; reflexivity|]. intros row d H Hd. cbn in H. destruct H as [<-|[<-|[]]]; cbn in Hd; cbn; lia.
  - split; [reflexivity|]. split; [intros row H; cbn in H; destruct H as [<-|[<-|[]]]; reflexivity|]. intros row d H Hd. cbn in H. destruct H as [<-|[<-|[]]]; cbn in Hd; cbn; lia.
  - intros I Js ND H. apply Nat.le_lt_trans with (length [0; 1; 2; 3]%nat); [|change (2 ^ 2 < 2 ^ 16)%nat; apply Nat.pow_lt_mono_r; lia].
    apply NoDup_incl_length; auto. intros J HJ. destruct (H J HJ) as (i & j & k & Hi & Hj & Hk & _ & E). cbn in Hi. clear -Hi Hk E.
    destruct Hi as [<-|[<-|[]]]; destruct k as [|[|[|k]]]; try lia; cbn in E; cbn; lia.
  - split; [|intros i j _ H; lia]. intros i Hi. cbn in Hi. destruct i as [|[|i]]; [reflexivity|reflexivity|lia].
  - intros i c e Hc He _. destruct i as [|[|i]]; [| |destruct i; discriminate]; injection Hc as <-; destruct e as [|[|[|e]]]; try lia; reflexivity.
  - split; [|unfold ex_num; intros; lia]. intros i c e Hc He. destruct i as [|[|i]]; [| |destruct i; discriminate]; injection Hc as <-; destruct e as [|[|[|e]]]; try lia; reflexivity.
  - intros I HI. destruct I as [|[|[|[|[|I]]]]]; [exists O, O|exists O, 1%nat|exists O, 2%nat|exists 1%nat, O|exists 1%nat, 1%nat|lia]; (split; [cbn; lia|]; split; [lia|reflexivity]).
Qed.
Definition ex_show (r : res csr) := match r with Ok A => Some (c_indptr A, c_indices A, map this (c_data A)) | Err _ => None end.
Example C40_example :
  ex_show (assembleDiscreteGradient 2 ex_V ex_C ex_dmE ex_dmV None None None) =
    Some ([0; 2; 5; 7; 10; 13]%nat, [0; 1; 0; 1; 2; 0; 1; 0; 1; 2; 0; 1; 2]%nat, [1; 0;  -1; 1; 0;  0; 1;  -1; 0; 1;  0; -1; 1]%Q) /\
  ex_show (assembleDiscreteCurl 2 ex_V ex_C ex_dmP ex_dmE None None None) =
    Some ([0; 3; 6]%nat, [0; 1; 2; 1; 3; 4]%nat, [1; 1; -1;  -1; 1; -1]%Q).
Proof. split; vm_compute; reflexivity. Qed.
