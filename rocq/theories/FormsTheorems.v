(** C39: mass and stiffness matrices. *)
From Verif Require Import Util Lin CSRModel MeshModel MeshSpec LocalModel LocalSpec ReorderSpec ReorderProofs2 AssemblyModel AssemblySpec FormsModel FormsSpec FormsProofs3.
Local Open Scope Qc_scope.

(** C39. assembleMass returns the matrix of the L2 inner product: for all coefficients
    v and u, the matrix multiplied by them is the sum over the cells of the integrals of the products of the two finite element
    functions; all elements, dimensions, formats and options, accumulation into a given matrix, and boundary data included. *)
Theorem C39_mass : forall argsort d el V C nb dm bd rhs A st en sss_format reorder ci ps Js, (1 <= d <= 3)%nat -> el <> N1e ->
  arguments_ok argsort d V C (length (shapes el d)) nb dm bd rhs A st en sss_format reorder ci ->
  solid d V C -> determinants d V C Js -> functions d (shapes el d) ps ->
  exists op dm' r, assembleMass d V C argsort el dm bd rhs A st en sss_format reorder ci = Ok (op, dm', r) /\
    represents_form d C (fun i p q => Js i * integral d (pmul d p q)) (on_cell d ps) dm bd rhs A st en sss_format reorder ci op dm' r.
Proof. exact mass_form. Qed.
Print Assumptions C39_mass.

(** C39. assembleStiffness returns the matrix of the integrals of the products of the gradients. *)
Theorem C39_stiffness : forall argsort d el V C nb dm bd rhs A st en sss_format reorder ci ps Js gs, (1 <= d <= 3)%nat -> el <> N1e -> el <> P0 ->
  arguments_ok argsort d V C (length (shapes el d)) nb dm bd rhs A st en sss_format reorder ci ->
  solid d V C -> determinants d V C Js -> gradients d V C gs -> functions d (shapes el d) ps ->
  exists op dm' r, assembleStiffness d V C argsort el dm bd rhs A st en sss_format reorder ci = Ok (op, dm', r) /\
    represents_form d C (fun i => stiffness_entry d (Js i) (gs i)) (on_cell d ps) dm bd rhs A st en sss_format reorder ci op dm' r.
Proof. exact stiffness_form. Qed.
Print Assumptions C39_stiffness.

(** C39. The mass matrix of edge elements in the plane is that of the inner product of the
    vector fields; in CSR format and without boundary data or lists of cells (see C38_edge_elements_refuted). *)
Theorem C39_edge_mass_partial : forall argsort V C nb dm rhs A st en reorder Js gs,
  arguments_ok argsort 2 V C 3 nb dm None rhs A st en false reorder None -> (forall op, A = Some op -> op_sss op = false) ->
  solid 2 V C -> determinants 2 V C Js -> gradients 2 V C gs ->
  exists op dm' r, assembleMass 2 V C argsort N1e dm None rhs A st en false reorder None = Ok (op, dm', r) /\
    represents_form 2 C (fun i => field_product 2 (Js i) (gs i)) (field_on_cell C) dm None rhs A st en false reorder None op dm' r.
Proof. exact edge_mass_form. Qed.
Print Assumptions C39_edge_mass_partial.

(** C39. Without boundary degrees of freedom the entries of the mass matrix add up to the
    volume of the cells, and every row of the stiffness matrix adds up to zero. *)
Theorem C39_volume : forall argsort d el V C dm rhs st en sss_format reorder ci, (1 <= d <= 3)%nat -> el <> N1e ->
  arguments_ok argsort d V C (length (shapes el d)) 0 dm None rhs None st en sss_format reorder ci -> solid d V C ->
  forall Js, determinants d V C Js ->
  exists op dm' r, assembleMass d V C argsort el dm None rhs None st en sss_format reorder ci = Ok (op, dm', r) /\
    sumf (dm_num dm) (fun I => sumf (dm_num dm) (fun J => op_matrix op I J)) = suml (map (fun i => Js i / qz (Z.of_nat (fact d))) (chosen_cells C st en ci)).
Proof. exact mass_total. Qed.
Print Assumptions C39_volume.

Theorem C39_constants : forall argsort d el V C dm rhs st en sss_format reorder ci, (1 <= d <= 3)%nat -> el <> N1e ->
  arguments_ok argsort d V C (length (shapes el d)) 0 dm None rhs None st en sss_format reorder ci -> solid d V C -> el <> P0 ->
  exists op dm' r, assembleStiffness d V C argsort el dm None rhs None st en sss_format reorder ci = Ok (op, dm', r) /\
    forall I, (I < dm_num dm)%nat -> sumf (dm_num dm) (fun J => op_matrix op I J) = 0.
Proof. exact stiffness_constants. Qed.
Print Assumptions C39_constants.

(** The square of side 2, made of two triangles, without boundary degrees of freedom. *)
Definition ex_V : list (list Qc) := [[qz 0; qz 0]; [qz 2; qz 0]; [qz 0; qz 2]; [qz 2; qz 2]].
Definition ex_C : list (list nat) := [[0; 1; 3]; [3; 2; 0]]%nat.
Definition ex_dm : dofmap := DM [[0; 1; 3]; [3; 2; 0]]%Z 4 3 false.
Example C39_example_hypotheses : arguments_ok ins_argsort 2 ex_V ex_C (length (shapes P1 2)) 0 ex_dm None None None None None false false None /\
  solid 2 ex_V ex_C /\ determinants 2 ex_V ex_C (fun _ => qz 4).
Proof.
  split; [|split].
  - repeat apply conj.
    + exact ins_argsort_ok.
    + intros p H. cbn in H. destruct H as [<-|[<-|[<-|[<-|[]]]]]; reflexivity.
    + intros c H. cbn in H. destruct H as [<-|[<-|[]]]; (split; [reflexivity|]); intros v H; cbn in H; cbn; lia.
    + reflexivity.
    + reflexivity.
    + intros row H. cbn in H. destruct H as [<-|[<-|[]]]; reflexivity.
    + intros row d H Hd. cbn in H. destruct H as [<-|[<-|[]]]; cbn in Hd; cbn; lia.
    + cbn [shapes shapesP1 map seq length]. intros i j k Hj Hk. destruct i as [|[|i]]; [| |unfold dof; rewrite !(nth_overflow (dm_dofs ex_dm)) by (cbn; lia); rewrite nth_overflow by (cbn; lia); lia];
        destruct j as [|[|[|j]]]; try lia; destruct k as [|[|[|k]]]; try lia; cbn; lia.
    + exact I.
    + intros _ I' Js ND H. assert (H2 : (2 ^ 2 < 2 ^ 16)%nat) by (apply Nat.pow_lt_mono_r; lia). apply Nat.le_lt_trans with (2 ^ 2)%nat; auto. change (2 ^ 2)%nat with (length [0; 1; 2; 3]%nat).
      apply NoDup_incl_length; auto. intros J HJ. destruct (H J HJ) as (i & j & k & Hi & Hj & Hk & _ & E). cbn in Hi, Hk. clear -Hi Hk E.
      destruct Hi as [<-|[<-|[]]]; destruct k as [|[|[|k]]]; try lia; cbn in E; cbn; lia.
    + discriminate.
    + discriminate.
    + discriminate.
    + discriminate.
    + discriminate.
  - intros c H. cbn in H. destruct H as [<-|[<-|[]]]; (split; [reflexivity|]; split; [intros v H; cbn in H; intuition; subst; reflexivity|]);
      intros E; apply (f_equal this) in E; vm_compute in E; discriminate.
  - intros i c H. destruct i as [|[|i]]; [| |destruct i; discriminate]; injection H as <-; (split; [discriminate|left; apply Qc_is_canon; vm_compute; reflexivity]).
Qed.
Definition ex_show (r : res (operator * dofmap * option (list Qc))) :=
  match r with Ok (OpCSR A, _, _) => Some (c_indices A, map this (c_data A)) | _ => None end.
Example C39_example :
  ex_show (assembleMass 2 ex_V ex_C ins_argsort P1 ex_dm None None None None None false false None) =
    Some ([0; 1; 2; 3; 0; 1; 3; 0; 2; 3; 0; 1; 2; 3]%nat,
          [2 # 3; 1 # 6; 1 # 6; 1 # 3;  1 # 6; 1 # 3; 1 # 6;  1 # 6; 1 # 3; 1 # 6;  1 # 3; 1 # 6; 1 # 6; 2 # 3]%Q) /\
  ex_show (assembleStiffness 2 ex_V ex_C ins_argsort P1 ex_dm None None None None None false false None) =
    Some ([0; 1; 2; 3; 0; 1; 3; 0; 2; 3; 0; 1; 2; 3]%nat,
          [1; -1 # 2; -1 # 2; 0;  -1 # 2; 1; -1 # 2;  -1 # 2; 1; -1 # 2;  0; -1 # 2; -1 # 2; 1]%Q).
Proof. split; vm_compute; reflexivity. Qed.
