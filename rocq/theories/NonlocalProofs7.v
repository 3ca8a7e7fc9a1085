(** Local matrices given by tables, and two operators for which getEntry and getDense differ. *)
From Verif Require Import Util Lin LocalSpec AssemblyModel AssemblySpec DenseModel DenseSpec NonlocalModel NonlocalModel2 NonlocalSpec NonlocalProofs.
From Coq Require Import Lia.
Set Default Proof Using "Type".
Local Open Scope Qc_scope.

(** eval writes the entries of the mask and leaves the others. *)
Definition table_local (sym symCells : bool) (panel : Z -> Z -> Z) (n : nat) (C : nat -> nat -> nat -> nat -> Qc) : double_local :=
  DLM sym symCells panel (fun s _ mask con =>
    let vals := stored_values sym n (C (Z.to_nat (l_c1 s)) (Z.to_nat (l_c2 s))) in
    Ok (map (fun '(k, old) => if N.testbit mask (N.of_nat k) then Some (nth k vals 0) else old) (combine (seq 0 (length con)) con))).
Lemma table_evaluates ign sym symCells panel n C n1 n2 : evaluates_pairs ign (table_local sym symCells panel n C) n1 n2 n C.
Proof.
  intros K1 K2 s con mask H1 H2 (E1 & E2 & _) Hl _. cbn [dl_symLocal dl_eval table_local] in *. rewrite E1, E2, !Nat2Z.id. eexists. split; [reflexivity|].
  split; [rewrite map_length, combine_length, seq_length; lia|]. intros k Hk Hm. rewrite nth_error_map.
  assert (E : exists o, nth_error (combine (seq 0 (length con)) con) k = Some (k, o)).
  { rewrite <- Hl in Hk. clear - Hk. enough (G : forall l lo k, (k < length l)%nat -> exists o : option Qc, nth_error (combine (seq lo (length l)) l) k = Some (lo + k, o)%nat)
      by (destruct (G con 0%nat k Hk) as (o & E); exists o; exact E).
    induction l as [|x l IH]; intros lo j Hj; cbn [length] in *; [lia|]. cbn [seq combine]. destruct j as [|j]; [exists x; rewrite Nat.add_0_r; reflexivity|].
    cbn [nth_error]. rewrite <- Nat.add_succ_comm. apply IH. lia. }
  destruct E as (o & ->). cbn [option_map]. rewrite Hm. reflexivity.
Qed.

(** Two cells, one degree of freedom each; jumps between the cells cost. *)
Definition jump (K1 K2 p q : nat) : Qc := if (K1 =? K2)%nat then 0 else if (p =? q)%nat then 1 else - (1).
Definition jump_local : double_local := table_local true true (fun _ _ => 0%Z) 2 jump.
Definition two_cells : dofmap := DM [[0%Z]; [1%Z]] 2 1 false.
Lemma two_cells_ok : dofs_ok 2 1 2 0 (dm_dofs two_cells).
Proof.
  split; [reflexivity|]. cbn [two_cells dm_dofs]. split.
  - intros row [<-|[<-|[]]]; reflexivity.
  - intros row d [<-|[<-|[]]] [<-|[]]; cbn; lia.
Qed.
Lemma jump_ok : interior_ok jump_local 1 2 jump.
Proof.
  split; [apply table_evaluates|]. split; [intros K1 K2 _ _ E; discriminate E|]. split.
  - intros _ K1 K2 p q _ _ _ _. unfold jump. rewrite (Nat.eqb_sym q p). reflexivity.
  - intros _ K1 K2 p q H1 H2 Hp Hq. unfold jump, other. rewrite (Nat.eqb_sym K2 K1). destruct (K1 =? K2)%nat; [reflexivity|].
    destruct p as [|[|p]], q as [|[|q]]; try lia; reflexivity.
Qed.
Definition jump_con : buf Qc := alloc 3.
(** Without exterior part: the pair (cell 0, cell 1) is not visited for the entry (0, 0). *)
Lemma getEntry_regional : exists v A, getEntry 6%nat two_cells 2%nat jump_local false fresh jump_con None 0%nat 0%nat = Ok v /\
  getDense 6%nat two_cells 2%nat jump_local fresh jump_con None None = Ok A /\ v = 0 /\ dmat A 0%nat 0%nat = 1 + 1.
Proof. eexists. eexists. split; [vm_compute; reflexivity|]. split; [vm_compute; reflexivity|]. split; [apply Qc_is_canon; reflexivity|apply Qc_is_canon; reflexivity]. Qed.
(** For variable kernels it is visited, but counted once. *)
Lemma getEntry_variable : exists v A, getEntry 6%nat two_cells 2%nat jump_local true fresh jump_con None 0%nat 0%nat = Ok v /\
  getDense 6%nat two_cells 2%nat jump_local fresh jump_con None None = Ok A /\ v = 1 /\ dmat A 0%nat 0%nat = 1 + 1.
Proof. eexists. eexists. split; [vm_compute; reflexivity|]. split; [vm_compute; reflexivity|]. split; [apply Qc_is_canon; reflexivity|apply Qc_is_canon; reflexivity]. Qed.
Lemma getEntry_regional_differs : exists nc nb dm L C B lm con v A,
  dofs_ok nc (dm_dpe dm) (dm_num dm) nb (dm_dofs dm) /\ interior_ok L (dm_dpe dm) nc C /\
  (stored_size (dl_symLocal L) (2 * dm_dpe dm) <= B)%nat /\ coherent lm /\ length con = stored_size (dl_symLocal L) (2 * dm_dpe dm) /\
  getEntry B dm nc L false lm con None 0%nat 0%nat = Ok v /\ getDense B dm nc L lm con None None = Ok A /\ v <> dmat A 0%nat 0%nat.
Proof.
  destruct getEntry_regional as (v & A & Ev & EA & Hv & HA). exists 2%nat, 0%nat, two_cells, jump_local, jump, 6%nat, fresh, jump_con, v, A.
  split; [apply two_cells_ok|]. split; [apply jump_ok|]. split; [cbn; lia|]. split; [split; left; reflexivity|]. split; [reflexivity|]. split; [exact Ev|]. split; [exact EA|].
  rewrite Hv, HA. intros K. apply (f_equal this) in K. discriminate K.
Qed.
Lemma getEntry_variable_differs : exists nc nb dm L C B lm con v A,
  dofs_ok nc (dm_dpe dm) (dm_num dm) nb (dm_dofs dm) /\ interior_ok L (dm_dpe dm) nc C /\
  (stored_size (dl_symLocal L) (2 * dm_dpe dm) <= B)%nat /\ coherent lm /\ length con = stored_size (dl_symLocal L) (2 * dm_dpe dm) /\
  getEntry B dm nc L true lm con None 0%nat 0%nat = Ok v /\ getDense B dm nc L lm con None None = Ok A /\ v <> dmat A 0%nat 0%nat.
Proof.
  destruct getEntry_variable as (v & A & Ev & EA & Hv & HA). exists 2%nat, 0%nat, two_cells, jump_local, jump, 6%nat, fresh, jump_con, v, A.
  split; [apply two_cells_ok|]. split; [apply jump_ok|]. split; [cbn; lia|]. split; [split; left; reflexivity|]. split; [reflexivity|]. split; [exact Ev|]. split; [exact EA|].
  rewrite Hv, HA. intros K. apply (f_equal this) in K. discriminate K.
Qed.
