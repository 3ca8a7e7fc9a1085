(** C53: DoFMaps made from a DoFMap, and the operators between them. *)
From Verif Require Import Util Lin CSRModel SparsitySpec CSRSpec SubMapModel SubMapSpec SubMapProofs2 SubMapProofs3 SubMapProofs5 SubMapProofs6 SubMapProofs7 SubMapProofs8.
From Coq Require Import Lia.
Local Open Scope Z_scope.

(** Three cells of an interval with both ends on the boundary, and two triangles
    with one node on the boundary. *)
Definition line := DM 3 2 [-1; 0; 0; 1; 1; -2] 2 2.
Definition square := DM 2 3 [1; 0; 2; 2; 0; -1] 3 1.
Ltac positions_of := repeat match goal with H : (?i < ?n)%nat |- _ => is_var i; destruct i; cbn in H; [try (exfalso; lia); clear H|apply Nat.succ_lt_mono in H || (exfalso; lia)] end; try (exfalso; lia).
Ltac find_at := first [exists 0%nat, 0%nat; (split; [|split]); cbn; lia | exists 0%nat, 1%nat; (split; [|split]); cbn; lia | exists 0%nat, 2%nat; (split; [|split]); cbn; lia |
  exists 1%nat, 0%nat; (split; [|split]); cbn; lia | exists 1%nat, 1%nat; (split; [|split]); cbn; lia | exists 1%nat, 2%nat; (split; [|split]); cbn; lia |
  exists 2%nat, 0%nat; (split; [|split]); cbn; lia | exists 2%nat, 1%nat; (split; [|split]); cbn; lia].
Example line_is : is_dofmap line.
Proof.
  split; [reflexivity|]. cbn [num_cells dofs_per_element num_dofs num_boundary_dofs line]. split; [lia|]. split; [lia|]. split.
  - intros i k Hi Hk. positions_of; cbn; lia.
  - intros v Hv. assert (C : v = -2 \/ v = -1 \/ v = 0 \/ v = 1) by lia. destruct C as [->|[->|[->| ->]]]; find_at.
Qed.
Example square_is : is_dofmap square.
Proof.
  split; [reflexivity|]. cbn [num_cells dofs_per_element num_dofs num_boundary_dofs square]. split; [lia|]. split; [lia|]. split.
  - intros i k Hi Hk. positions_of; cbn; lia.
  - intros v Hv. assert (C : v = -1 \/ v = 0 \/ v = 1 \/ v = 2) by lia. destruct C as [->|[->|[->| ->]]]; find_at.
Qed.

(** C53, indicators: resetUsingFEVector and getSubMap give the same DoFMap; its
    degrees of freedom are those with a positive indicator. *)
Theorem C53_indicator :
  forall dm ind, is_dofmap dm -> Z.of_nat (length ind) = num_dofs dm ->
    exists dm', getSubMap dm ind = Ok dm' /\ resetUsingFEVector dm ind = Ok dm' /\
      renumbers (num_cells dm) (dofs_per_element dm) (the_grid dm) (indicated_dofs ind) dm'.
Proof. exact (fun dm ind H L => match reset_ok dm ind H L with ex_intro _ dm' (conj E R) => ex_intro _ dm' (conj (eq_trans (getSubMap_same dm ind H L) E) (conj E R)) end). Qed.
Print Assumptions C53_indicator.
Example C53_indicator_example : is_dofmap square /\ getSubMap square [1%Qc; 0%Qc; 1%Qc] = Ok (DM 2 3 [-1; 0; 1; 1; 0; -2] 2 2).
Proof. split; [exact square_is|vm_compute; reflexivity]. Qed.

(** C53, parts of a mesh: the degrees of freedom of the cells of a sub-mesh. *)
Theorem C53_sub_mesh :
  forall dm sel, is_dofmap dm -> cells_of dm sel ->
    exists dm', splitter_getSubMap dm sel = Ok dm' /\ renumbers (length sel) (dofs_per_element dm) (on_cells (the_grid dm) sel) (fun z => 0 <= z) dm'.
Proof. exact splitter_ok. Qed.
Print Assumptions C53_sub_mesh.
Example C53_sub_mesh_example : cells_of line [2%nat; 1%nat] /\ splitter_getSubMap line [2%nat; 1%nat] = Ok (DM 2 2 [0; -1; 1; 0] 2 1).
Proof. split; [intros c [<-|[<-|[]]]; cbn; lia|vm_compute; reflexivity]. Qed.

(** C53, the same on the whole mesh: what is not on a selected cell is boundary. *)
Theorem C53_sub_map_full_mesh :
  forall dm sel, is_dofmap dm -> cells_of dm sel ->
    exists dm', splitter_getSubMapOnFullMesh dm (Some sel) = Ok dm' /\ renumbers (num_cells dm) (dofs_per_element dm) (the_grid dm) (on_selected dm sel) dm'.
Proof. exact full_mesh_ok. Qed.
Print Assumptions C53_sub_map_full_mesh.
Example C53_sub_map_full_mesh_example : cells_of line [2%nat] /\ splitter_getSubMapOnFullMesh line (Some [2%nat]) = Ok (DM 3 2 [-2; -3; -3; 0; 0; -1] 1 3).
Proof. split; [intros c [<-|[]]; cbn; lia|vm_compute; reflexivity]. Qed.
(** Asked before getSubMesh(label), it fails for every DoFMap. *)
Theorem C53_full_mesh_order_refuted : forall dm, splitter_getSubMapOnFullMesh dm None = Err EKey.
Proof. exact (fun dm => eq_refl). Qed.
Print Assumptions C53_full_mesh_order_refuted.

(** C53, the cells with degrees of freedom: the numbers of those are kept. *)
Theorem C53_reduced :
  forall dm, is_dofmap dm ->
    exists sel sub, getReducedMeshDoFMap dm None = Ok sub /\ selectCells dm = Ok sel /\ NoDup sel /\
      (forall c, In c sel <-> (c < num_cells dm)%nat /\ exists k, (k < dofs_per_element dm)%nat /\ 0 <= the_grid dm c k) /\
      keeps (length sel) (dofs_per_element dm) (on_cells (the_grid dm) sel) (num_dofs dm) sub /\ is_dofmap sub.
Proof. exact getSubMapOnSubMesh_ok. Qed.
Print Assumptions C53_reduced.
Definition far := DM 3 2 [-1; -2; -2; 0; 0; -3] 1 3.
Example C53_reduced_example : is_dofmap far /\ selectCells far = Ok [1%nat; 2%nat] /\ getReducedMeshDoFMap far None = Ok (DM 2 2 [-1; 0; 0; -2] 1 2).
Proof.
  split; [|split; vm_compute; reflexivity]. split; [reflexivity|]. cbn [num_cells dofs_per_element num_dofs num_boundary_dofs far]. split; [lia|]. split; [lia|]. split.
  - intros i k Hi Hk. positions_of; cbn; lia.
  - intros v Hv. assert (C : v = -3 \/ v = -2 \/ v = -1 \/ v = 0) by lia. destruct C as [->|[->|[->| ->]]]; find_at.
Qed.
(** With cells given: it succeeds if and only if they have all degrees of freedom. *)
Theorem C53_reduced_to_cells :
  forall dm sel, is_dofmap dm -> cells_of dm sel ->
    ((forall v, 0 <= v < num_dofs dm -> exists c k, In c sel /\ (k < dofs_per_element dm)%nat /\ the_grid dm c k = v) ->
       exists sub, getReducedMeshDoFMap dm (Some sel) = Ok sub /\
         keeps (length sel) (dofs_per_element dm) (on_cells (the_grid dm) sel) (num_dofs dm) sub /\ is_dofmap sub) /\
    ((exists v, 0 <= v < num_dofs dm /\ forall c k, In c sel -> (k < dofs_per_element dm)%nat -> the_grid dm c k <> v) ->
       getReducedMeshDoFMap dm (Some sel) = Err EAssert).
Proof. exact reduced_ok. Qed.
Print Assumptions C53_reduced_to_cells.
Example C53_reduced_to_cells_example : getReducedMeshDoFMap line (Some [2%nat; 0%nat]) = Ok (DM 2 2 [1; -1; -2; 0] 2 2) /\ getReducedMeshDoFMap line (Some [0%nat]) = Err EAssert.
Proof. split; vm_compute; reflexivity. Qed.

(** C53, complements. *)
Theorem C53_complement :
  forall dm, is_dofmap dm ->
    exists dm', getComplementDoFMap dm = Ok dm' /\ num_cells dm' = num_cells dm /\ dofs_per_element dm' = dofs_per_element dm /\
      num_dofs dm' = num_boundary_dofs dm /\ num_boundary_dofs dm' = num_dofs dm /\ is_dofmap dm' /\
      (forall i k, (i < num_cells dm)%nat -> (k < dofs_per_element dm)%nat -> the_grid dm' i k = - the_grid dm i k - 1) /\
      getComplementDoFMap dm' = Ok dm.
Proof. exact complement_ok. Qed.
Print Assumptions C53_complement.
Example C53_complement_example : getComplementDoFMap square = Ok (DM 2 3 [-2; -1; -3; -3; -1; 0] 1 3).
Proof. vm_compute. reflexivity. Qed.
(** C53, unions: all nodes become degrees of freedom, those of the first come first. *)
Theorem C53_combine :
  forall dm1 dm2, is_dofmap dm1 -> is_dofmap dm2 -> num_cells dm2 = num_cells dm1 -> dofs_per_element dm2 = dofs_per_element dm1 ->
    num_dofs dm1 = num_boundary_dofs dm2 -> num_boundary_dofs dm1 = num_dofs dm2 ->
    same_classes (num_cells dm1) (dofs_per_element dm1) (the_grid dm1) (the_grid dm2) ->
    (forall i k, (i < num_cells dm1)%nat -> (k < dofs_per_element dm1)%nat -> (0 <= the_grid dm1 i k <-> the_grid dm2 i k < 0)) ->
    exists dm, combine_maps dm1 dm2 = Ok dm /\ full_of dm1 dm /\ num_dofs dm = num_dofs dm1 + num_dofs dm2 /\
      (forall i k, (i < num_cells dm1)%nat -> (k < dofs_per_element dm1)%nat ->
         (0 <= the_grid dm1 i k -> the_grid dm i k = the_grid dm1 i k) /\ (0 <= the_grid dm2 i k -> the_grid dm i k = num_dofs dm1 + the_grid dm2 i k)).
Proof. exact combine_ok. Qed.
Print Assumptions C53_combine.
Definition line2 := DM 3 2 [1; -1; -1; -2; -2; 0] 2 2.
Example C53_combine_example :
  is_dofmap line2 /\ same_classes 3 2 (the_grid line) (the_grid line2) /\ (forall i k, (i < 3)%nat -> (k < 2)%nat -> (0 <= the_grid line i k <-> the_grid line2 i k < 0)) /\
  combine_maps line line2 = Ok (DM 3 2 [3; 0; 0; 1; 1; 2] 4 0).
Proof.
  split; [|split; [|split; [|vm_compute; reflexivity]]].
  - split; [reflexivity|]. cbn [num_cells dofs_per_element num_dofs num_boundary_dofs line2]. split; [lia|]. split; [lia|]. split.
    + intros i k Hi Hk. positions_of; cbn; lia.
    + intros v Hv. assert (C : v = -2 \/ v = -1 \/ v = 0 \/ v = 1) by lia. destruct C as [->|[->|[->| ->]]]; find_at.
  - intros i k i' k' H1 H2 H3 H4. positions_of; cbn; lia.
  - intros i k H1 H2. positions_of; cbn; lia.
Qed.

(** C53, all nodes: R and R_bc take a function with values in all nodes to its
    degrees of freedom and to its values on the boundary. *)
Theorem C53_full :
  forall dm full, is_dofmap dm -> full_of dm full ->
    exists R Rbc, getFullDoFMap dm full = Ok (R, Rbc) /\
      let n := Z.to_nat (num_dofs dm) in let nb := Z.to_nat (num_boundary_dofs dm) in let N := Z.to_nat (num_dofs full) in
      wf_csr n N R /\ takes (num_cells dm) (dofs_per_element dm) (the_grid full) (the_grid dm) N n (matrix R) /\
      copies (num_cells dm) (dofs_per_element dm) (the_grid full) (the_grid dm) N (matrix R) /\
      wf_csr nb N Rbc /\ takes (num_cells dm) (dofs_per_element dm) (the_grid full) (fun i k => - the_grid dm i k - 1) N nb (matrix Rbc) /\
      copies (num_cells dm) (dofs_per_element dm) (the_grid full) (fun i k => - the_grid dm i k - 1) N (matrix Rbc).
Proof. exact full_ok. Qed.
Print Assumptions C53_full.
Definition line_full := DM 3 2 [0; 1; 1; 2; 2; 3] 4 0.
Example C53_full_example : full_of line line_full /\
  getFullDoFMap line line_full = Ok (CSR 4 [0; 1; 2]%nat [1; 2]%nat [1%Qc; 1%Qc], CSR 4 [0; 1; 2]%nat [0; 3]%nat [1%Qc; 1%Qc]).
Proof.
  split; [|vm_compute; reflexivity]. split; [reflexivity|]. split; [reflexivity|]. split; [|split; [reflexivity|]].
  - split; [reflexivity|]. cbn [num_cells dofs_per_element num_dofs num_boundary_dofs line_full]. split; [lia|]. split; [lia|]. split.
    + intros i k Hi Hk. positions_of; cbn; lia.
    + intros v Hv. assert (C : v = 0 \/ v = 1 \/ v = 2 \/ v = 3) by lia. destruct C as [->|[->|[->| ->]]]; find_at.
  - intros i k i' k' H1 H2 H3 H4. cbn in H1, H2, H3, H4. positions_of; cbn; lia.
Qed.
(** C53, extension to all nodes by zero and by data on the boundary. *)
Theorem C53_augment_zero :
  forall dm full x, is_dofmap dm -> full_of dm full -> Z.of_nat (length x) = num_dofs dm ->
    exists y, augmentWithZero dm full x = Ok y /\ Z.of_nat (length y) = num_dofs full /\
      (forall i k, (i < num_cells dm)%nat -> (k < dofs_per_element dm)%nat ->
         vat y (Z.to_nat (the_grid full i k)) = if 0 <=? the_grid dm i k then vat x (Z.to_nat (the_grid dm i k)) else 0%Qc).
Proof. exact (fun dm full x H F L => augment_ok dm full x (fun _ => Ok 0%Qc) (fun _ => 0%Qc) H F L (fun z _ => eq_refl)). Qed.
Print Assumptions C53_augment_zero.
Theorem C53_augment_boundary :
  forall dm full x bd, is_dofmap dm -> full_of dm full -> Z.of_nat (length x) = num_dofs dm -> Z.of_nat (length bd) = num_boundary_dofs dm ->
    exists y, augmentWithBoundaryData dm full x bd = Ok y /\ Z.of_nat (length y) = num_dofs full /\
      (forall i k, (i < num_cells dm)%nat -> (k < dofs_per_element dm)%nat ->
         vat y (Z.to_nat (the_grid full i k)) = if 0 <=? the_grid dm i k then vat x (Z.to_nat (the_grid dm i k)) else vat bd (Z.to_nat (- the_grid dm i k - 1))).
Proof. exact (fun dm full x bd H F L LB => augment_boundary_ok dm full x bd H F L LB). Qed.
Print Assumptions C53_augment_boundary.
Example C53_augment_example :
  augmentWithZero line line_full [Q2Qc 5; Q2Qc 7] = Ok [0%Qc; Q2Qc 5; Q2Qc 7; 0%Qc] /\
  augmentWithBoundaryData line line_full [Q2Qc 5; Q2Qc 7] [Q2Qc 2; Q2Qc 3] = Ok [Q2Qc 2; Q2Qc 5; Q2Qc 7; Q2Qc 3].
Proof. split; vm_compute; reflexivity. Qed.

(** C53, restriction to the cells of a sub-mesh, and prolongation. *)
Theorem C53_splitter_restriction :
  forall dm sub sel, is_dofmap dm -> NoDup sel -> cells_of dm sel ->
    renumbers (length sel) (dofs_per_element dm) (on_cells (the_grid dm) sel) (fun z => 0 <= z) sub ->
    exists R P, splitter_getRestrictionProlongation dm sub sel = Ok (R, P) /\
      let n := Z.to_nat (num_dofs dm) in let n' := Z.to_nat (num_dofs sub) in
      wf_csr n' n R /\ takes (length sel) (dofs_per_element dm) (on_cells (the_grid dm) sel) (the_grid sub) n n' (matrix R) /\
      copies (length sel) (dofs_per_element dm) (on_cells (the_grid dm) sel) (the_grid sub) n (matrix R) /\
      wf_csr n n' P /\ transposed n n' (matrix R) (matrix P).
Proof. exact splitter_restriction_ok. Qed.
Print Assumptions C53_splitter_restriction.
Example C53_splitter_restriction_example :
  NoDup [2%nat; 1%nat] /\ (sub <- splitter_getSubMap line [2%nat; 1%nat] ;; splitter_getRestrictionProlongation line sub [2%nat; 1%nat])
    = Ok (CSR 2 [0; 1; 2]%nat [1; 0]%nat [1%Qc; 1%Qc], CSR 2 [0; 1; 2]%nat [1; 0]%nat [1%Qc; 1%Qc]).
Proof. split; [repeat constructor; cbn; lia|vm_compute; reflexivity]. Qed.

(** C53, restriction between DoFMaps on the same mesh, without an indicator. *)
Theorem C53_restriction :
  forall dm sub, is_dofmap dm -> is_dofmap sub -> num_cells sub = num_cells dm -> dofs_per_element sub = dofs_per_element dm ->
    same_classes (num_cells dm) (dofs_per_element dm) (the_grid dm) (the_grid sub) ->
    (forall i k, (i < num_cells dm)%nat -> (k < dofs_per_element dm)%nat -> 0 <= the_grid sub i k -> 0 <= the_grid dm i k) ->
    exists R P, getSubMapRestrictionProlongation dm sub None = Ok (R, P) /\
      let n := Z.to_nat (num_dofs dm) in let n' := Z.to_nat (num_dofs sub) in
      wf_csr n' n R /\ takes (num_cells dm) (dofs_per_element dm) (the_grid dm) (the_grid sub) n n' (matrix R) /\
      copies (num_cells dm) (dofs_per_element dm) (the_grid dm) (the_grid sub) n (matrix R) /\
      wf_csr n n' P /\ transposed n n' (matrix R) (matrix P).
Proof. exact same_mesh_restriction_ok. Qed.
Print Assumptions C53_restriction.
Example C53_restriction_example :
  (sub <- getSubMap square [1%Qc; 0%Qc; 1%Qc] ;; '(R, _) <- getSubMapRestrictionProlongation square sub None ;; Ok R) = Ok (CSR 3 [0; 1; 2]%nat [0; 2]%nat [1%Qc; 1%Qc]).
Proof. vm_compute. reflexivity. Qed.
(** If a degree of freedom of the second is on the boundary of the first, it fails. *)
Theorem C53_restriction_boundary_refuted :
  ~ (forall dm sub, is_dofmap dm -> is_dofmap sub -> num_cells sub = num_cells dm -> dofs_per_element sub = dofs_per_element dm ->
     same_classes (num_cells dm) (dofs_per_element dm) (the_grid dm) (the_grid sub) -> exists RP, getSubMapRestrictionProlongation dm sub None = Ok RP).
Proof. exact restriction_boundary_refuted. Qed.
Print Assumptions C53_restriction_boundary_refuted.

(** C53, restriction with an indicator: right if the numbers of [sub] increase with those of [dm]. *)
Theorem C53_indicator_restriction_partial :
  forall dm v sub, is_dofmap dm -> Z.of_nat (length v) = num_dofs dm ->
    renumbers (num_cells dm) (dofs_per_element dm) (the_grid dm) (indicated_dofs v) sub ->
    (forall i k i' k', (i < num_cells dm)%nat -> (k < dofs_per_element dm)%nat -> (i' < num_cells dm)%nat -> (k' < dofs_per_element dm)%nat ->
       0 <= the_grid sub i k -> 0 <= the_grid sub i' k' -> the_grid dm i k < the_grid dm i' k' -> the_grid sub i k < the_grid sub i' k') ->
    exists R P, getSubMapRestrictionProlongation dm sub (Some v) = Ok (R, P) /\
      let n := Z.to_nat (num_dofs dm) in let n' := Z.to_nat (num_dofs sub) in
      wf_csr n' n R /\ takes (num_cells dm) (dofs_per_element dm) (the_grid dm) (the_grid sub) n n' (matrix R) /\
      copies (num_cells dm) (dofs_per_element dm) (the_grid dm) (the_grid sub) n (matrix R) /\
      wf_csr n n' P /\ transposed n n' (matrix R) (matrix P).
Proof. exact indicator_restriction_ok. Qed.
Print Assumptions C53_indicator_restriction_partial.
Example C53_indicator_restriction_example :
  getSubMap square [1%Qc; 0%Qc; 1%Qc] = Ok (DM 2 3 [-1; 0; 1; 1; 0; -2] 2 2) /\
  (forall i k i' k', (i < 2)%nat -> (k < 3)%nat -> (i' < 2)%nat -> (k' < 3)%nat -> let S := the_grid (DM 2 3 [-1; 0; 1; 1; 0; -2] 2 2) in
     0 <= S i k -> 0 <= S i' k' -> the_grid square i k < the_grid square i' k' -> S i k < S i' k') /\
  getSubMapRestrictionProlongation square (DM 2 3 [-1; 0; 1; 1; 0; -2] 2 2) (Some [1%Qc; 0%Qc; 1%Qc]) =
    Ok (CSR 3 [0; 1; 2]%nat [0; 2]%nat [1%Qc; 1%Qc], CSR 2 [0; 1; 1; 2]%nat [0; 1]%nat [1%Qc; 1%Qc]).
Proof.
  split; [vm_compute; reflexivity|]. split; [|vm_compute; reflexivity]. intros i k i' k' H1 H2 H3 H4. positions_of; cbn; lia.
Qed.
(** Not so for every DoFMap and what getSubMap makes of it. *)
Theorem C53_indicator_restriction_refuted :
  ~ (forall dm v sub, is_dofmap dm -> Z.of_nat (length v) = num_dofs dm -> getSubMap dm v = Ok sub ->
     exists R P, getSubMapRestrictionProlongation dm sub (Some v) = Ok (R, P) /\
       takes (num_cells dm) (dofs_per_element dm) (the_grid dm) (the_grid sub) (Z.to_nat (num_dofs dm)) (Z.to_nat (num_dofs sub)) (matrix R)).
Proof. exact indicator_restriction_refuted. Qed.
Print Assumptions C53_indicator_restriction_refuted.

(** C53, components of vector valued functions. *)
Theorem C53_component :
  forall scalar nC dm c, is_dofmap scalar -> product_of scalar nC dm -> (c < nC)%nat ->
    exists R P, product_getRestrictionProlongation dm scalar nC c = Ok (R, P) /\
      let n := Z.to_nat (num_dofs dm) in let n' := Z.to_nat (num_dofs scalar) in
      wf_csr n' n R /\ (forall s j, (s < n')%nat -> (j < n)%nat -> matrix R s j = if (j =? nC * s + c)%nat then 1%Qc else 0%Qc) /\
      wf_csr n n' P /\ transposed n n' (matrix R) (matrix P).
Proof. exact product_restriction_ok. Qed.
Print Assumptions C53_component.
Definition line_product := DM 3 4 [-1; -2; 0; 1;  0; 1; 2; 3;  2; 3; -3; -4] 4 4.
Example C53_component_example : product_of line 2 line_product /\
  product_getRestrictionProlongation line_product line 2 1 = Ok (CSR 4 [0; 1; 2]%nat [1; 3]%nat [1%Qc; 1%Qc], CSR 2 [0; 0; 1; 1; 2]%nat [0; 1]%nat [1%Qc; 1%Qc]).
Proof.
  split; [|vm_compute; reflexivity]. split; [reflexivity|]. split; [reflexivity|]. split; [reflexivity|]. split; [reflexivity|].
  intros i k c H1 H2 H3. cbn in H1, H2. positions_of; reflexivity.
Qed.
