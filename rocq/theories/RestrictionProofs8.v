(** A weight that is not exact. *)
From Verif Require Import Util Lin MeshSpec DoFMapSpec DoFMapModel DoFMapProofs6 MeshModel LocalModel CSRModel CSRSpec
  RestrictionTables RestrictionModel RestrictionSpec RestrictionProofs7.
Set Default Proof Using "Type".
Local Open Scope Qc_scope.

Lemma not_exact : exists d dim V C b b' dofsC dofsF nC nF R P u,
  (1 <= d <= 3)%nat /\ mesh_ok dim (S d) V C /\ distinct_vertices C /\ distinct_cells C /\ fe_numbering P1 d C b dofsC nC /\ fe_numbering P3 d C b' dofsF nF /\
  boundary_contained P1 d (length V) [] C C b b' /\ few_couplings 1 dofsC dofsF /\
  buildRestrictionProlongation d P1 P3 (length C) C dofsC nC dofsF nF = Ok (R, P) /\
  ~ same_fe_function 1 dim d P1 P3 V C dofsC u V C dofsF (tab nF (mv nC (matrix P) (vat u))).
Proof.
  exists 1%nat, 1%nat, [[0]; [1]], [[0; 1]]%nat, ([], [], []), ([], [], []), [[0; 1]]%Z, [[0; 1; 2; 3]]%Z, 2%nat, 4%nat.
  assert (HM : mesh_ok 1 2 [[0]; [1]] [[0; 1]]%nat) by (split; [intros p [<-|[<-|[]]]; reflexivity|intros c [<-|[]]; split; [reflexivity|cbn; lia]]).
  assert (HDC : distinct_cells [[0; 1]]%nat) by (intros i j c c' Hi Hj _; destruct i as [|[|]], j as [|[|]]; try discriminate; reflexivity).
  assert (HI : dofmap_input 1 2 [[0; 1]]%nat [] [] []).
  { split; [lia|]. split; [intros c [<-|[]]; split; [reflexivity|cbn; lia]|]. split; [constructor|]. split; [intros v []|]. split; [constructor|]. split; [constructor|]. apply count_occ_bounded. reflexivity. }
  assert (EV : match buildRestrictionProlongation 1 P1 P3 1 [[0; 1]]%nat [[0; 1]]%Z 2 [[0; 1; 2; 3]]%Z 4 with
    | Ok (R, P) => Qeq_bool (this (fe_value P3 1 [0; 1; 2; 3]%Z (tab 4 (mv 2 (matrix P) (vat [1; 0]))) [qf 2 3; qf 1 3])) (this (fe_value P1 1 [0; 1]%Z [1; 0] [qf 2 3; qf 1 3])) = false
    | Err _ => False end) by (vm_compute; reflexivity).
  destruct (buildRestrictionProlongation 1 P1 P3 1 [[0; 1]]%nat [[0; 1]]%Z 2 [[0; 1; 2; 3]]%Z 4) as [[R P]|] eqn:EB; [|destruct EV].
  exists R, P, [1; 0].
  split; [lia|]. split; [exact HM|]. split; [intros c [<-|[]]; repeat constructor; cbn; lia|].
  split; [exact HDC|].
  split; [apply (dofmap_fe_numbering P1 1 2 _ [] [] [] _ 2 0%Z); [lia|exact HI|cbn; split; [repeat split; lia|]; split; [lia|]; split; [cbv; congruence|vm_compute; reflexivity]]|].
  split; [apply (dofmap_fe_numbering P3 1 2 _ [] [] [] _ 4 0%Z); [lia|exact HI|cbn; split; [repeat split; lia|]; split; [lia|]; split; [cbv; congruence|vm_compute; reflexivity]]|].
  split; [apply contained_spec; reflexivity|]. split; [apply few_small, Nat.ltb_lt; vm_compute; reflexivity|]. split; [exact EB|].
  intros HS. specialize (HS 0%nat [0; 1]%nat [0; 1]%Z 0%nat [0; 1]%nat [0; 1; 2; 3]%Z [qf 2 3; qf 1 3] [qf 2 3; qf 1 3]).
  assert (Q : fe_value P3 1 [0; 1; 2; 3]%Z (tab 4 (mv 2 (matrix P) (vat [1; 0]))) [qf 2 3; qf 1 3] = fe_value P1 1 [0; 1]%Z [1; 0] [qf 2 3; qf 1 3]).
  { apply HS; try reflexivity; try lia; try (split; [reflexivity|apply Qc_is_canon; reflexivity]).
    intros l l' Ll Ll' Tl Tl' HE. destruct l as [|x [|y [|]]]; try discriminate Ll. destruct l' as [|x' [|y' [|]]]; try discriminate Ll'.
    specialize (HE 0%nat ltac:(lia)). unfold vat in HE. cbn [combination corners map point nth] in HE. unfold vat in HE. cbn [nth total] in *.
    assert (y = y'). { transitivity (x * 0 + (y * 1 + 0)); [ring|]. rewrite HE. ring. }
    assert (x = x'). { transitivity (x + (y + 0) - y); [ring|]. rewrite Tl, <- Tl'. subst. ring. }
    congruence. }
  rewrite Q in EV. apply Qeq_bool_neq in EV. apply EV. reflexivity.
Qed.
