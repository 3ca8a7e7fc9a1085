(** C50: assembly of nonlocal operators from pairs of cells. *)
From Verif Require Import Util Lin CSRModel CSRSpec LocalSpec AssemblyModel AssemblySpec DenseModel DenseSpec NonlocalModel NonlocalModel2 NonlocalSpec
  NonlocalProofs3 NonlocalProofs4 NonlocalProofs6 NonlocalProofs7.
From Coq Require Import Lia.
Local Open Scope Qc_scope.

(** C50, the dense operator. For every map of degrees of freedom, every local matrix that tells
    the truth about its symmetries (symmetric or not, with or without exchangeable cells, and which
    may ignore pairs of cells that do not contribute), with or without an exterior part, on one
    rank or any number of them: the entry (I, J) is the sum of the contributions of all ordered pairs of
    cells, plus that of the pairs of cells and facets. *)
Theorem C50_dense : forall nc nb dm L C D ext B lm con comm,
  dofs_ok nc (dm_dpe dm) (dm_num dm) nb (dm_dofs dm) ->
  interior_ok L (dm_dpe dm) nc C -> ext_ok ext (dm_dpe dm) nc D ->
  (stored_size (dl_symLocal L) (2 * dm_dpe dm) <= B)%nat -> coherent lm -> length con = stored_size (dl_symLocal L) (2 * dm_dpe dm) ->
  comm <> Some 0%nat ->
  exists A, getDense B dm nc L lm con ext comm = Ok A /\ wf_dense (dm_num dm) (dm_num dm) A /\
    forall I J, (I < dm_num dm)%nat -> (J < dm_num dm)%nat ->
      dmat A I J = nl_entry (dm_dofs dm) (dm_dofs dm) (dm_dpe dm) nc C I J + ext_entry ext (dm_dofs dm) (dm_dofs dm) (dm_dpe dm) nc D I J.
Proof. exact (fun nc nb dm L C D ext B lm con comm ok HL HE HB Hlm Hcon => getDense_ok nc nb dm L C D ext ok HL HE B lm con HB Hlm Hcon comm). Qed.
Print Assumptions C50_dense.

(** C50, two maps of degrees of freedom. With a second map that has the degrees of freedom that the
    first one lacks, rows belong to the first map and columns to the second. *)
Theorem C50_two_maps : forall nc dm dm2 L C D ext B lm con,
  dm_dpe dm2 = dm_dpe dm ->
  dofs_ok nc (dm_dpe dm) (dm_num dm) (dm_num dm2) (dm_dofs dm) -> dofs_ok nc (dm_dpe dm) (dm_num dm2) (dm_num dm) (dm_dofs dm2) ->
  complementary (dm_dofs dm) (dm_dofs dm2) nc (dm_dpe dm) ->
  interior_ok L (dm_dpe dm) nc C -> ext_ok ext (dm_dpe dm) nc D ->
  (stored_size (dl_symLocal L) (2 * dm_dpe dm) <= B)%nat -> coherent lm -> length con = stored_size (dl_symLocal L) (2 * dm_dpe dm) ->
  exists A, getDense2 B dm dm2 (dm_num dm2) (dm_num dm) nc L lm con ext = Ok A /\ wf_dense (dm_num dm) (dm_num dm2) A /\
    forall I J, (I < dm_num dm)%nat -> (J < dm_num dm2)%nat ->
      dmat A I J = nl_entry (dm_dofs dm) (dm_dofs dm2) (dm_dpe dm) nc C I J + ext_entry ext (dm_dofs dm) (dm_dofs dm2) (dm_dpe dm) nc D I J.
Proof. exact (fun nc dm dm2 L C D ext B lm con Hd O1 O2 Hc HL HE HB Hlm Hcon => getDense2_ok nc dm dm2 L C D ext Hd O1 O2 Hc B lm con HL HE HB Hlm Hcon). Qed.
Print Assumptions C50_two_maps.

(** C50, the sparse operator. If only pairs of cells of the near field contribute, the sparse
    operator has the same entries as the dense one for all pairs of degrees of freedom of the near field,
    and no others, no matter in how many pairs of clusters a pair of cells occurs. *)
Theorem C50_sparse : forall nc nb dm L C Pcells Pdofs B lm con,
  dofs_ok nc (dm_dpe dm) (dm_num dm) nb (dm_dofs dm) ->
  interior_ok L (dm_dpe dm) nc C -> near_field_ok Pcells (dm_dpe dm) nc C -> near_dofs_ok Pdofs (dm_num dm) ->
  (stored_size (dl_symLocal L) (2 * dm_dpe dm) <= B)%nat -> coherent lm -> length con = stored_size (dl_symLocal L) (2 * dm_dpe dm) ->
  exists A, sparse_operator B dm nc L lm con Pcells Pdofs = Ok A /\ wf_csr (dm_num dm) (dm_num dm) A /\
    forall I J, (I < dm_num dm)%nat ->
      (near_dofs Pdofs I J -> matrix A I J = nl_entry (dm_dofs dm) (dm_dofs dm) (dm_dpe dm) nc C I J) /\
      (~ near_dofs Pdofs I J -> matrix A I J = 0).
Proof. exact (fun nc nb dm L C Pc Pd B lm con ok HL HN HD => sparse_operator_ok nc nb dm L C Pc Pd ok HL HN HD B lm con). Qed.
Print Assumptions C50_sparse.
(** C50, symmetric storage; the near field is symmetric. *)
Theorem C50_sparse_symmetric : forall nc nb dm L C Pcells Pdofs B lm con,
  dofs_ok nc (dm_dpe dm) (dm_num dm) nb (dm_dofs dm) ->
  interior_ok L (dm_dpe dm) nc C -> near_field_ok Pcells (dm_dpe dm) nc C -> near_dofs_ok Pdofs (dm_num dm) ->
  (stored_size (dl_symLocal L) (2 * dm_dpe dm) <= B)%nat -> coherent lm -> length con = stored_size (dl_symLocal L) (2 * dm_dpe dm) ->
  dl_symLocal L = true -> (forall I J, near_dofs Pdofs I J -> near_dofs Pdofs J I) ->
  exists A, sparse_operator_sym B dm nc L lm con Pcells Pdofs = Ok A /\ wf_sss (dm_num dm) A /\
    forall I J, (I < dm_num dm)%nat -> (J < dm_num dm)%nat ->
      (I = J \/ near_dofs Pdofs I J -> sym_matrix A I J = nl_entry (dm_dofs dm) (dm_dofs dm) (dm_dpe dm) nc C I J) /\
      (I <> J -> ~ near_dofs Pdofs I J -> sym_matrix A I J = 0).
Proof. exact (fun nc nb dm L C Pc Pd B lm con ok HL HN HD => sparse_operator_sym_ok nc nb dm L C Pc Pd ok HL HN HD B lm con). Qed.
Print Assumptions C50_sparse_symmetric.

(** C50, single entries without exterior part: false of the code. For kernels that are not
    variable, getEntry leaves out the pairs of a cell in the supports and one outside. *)
Theorem C50_entry_regional_refuted : exists nc nb dm L C B lm con v A,
  dofs_ok nc (dm_dpe dm) (dm_num dm) nb (dm_dofs dm) /\ interior_ok L (dm_dpe dm) nc C /\
  (stored_size (dl_symLocal L) (2 * dm_dpe dm) <= B)%nat /\ coherent lm /\ length con = stored_size (dl_symLocal L) (2 * dm_dpe dm) /\
  getEntry B dm nc L false lm con None 0%nat 0%nat = Ok v /\ getDense B dm nc L lm con None None = Ok A /\ v <> dmat A 0%nat 0%nat.
Proof. exact getEntry_regional_differs. Qed.
Print Assumptions C50_entry_regional_refuted.
(** C50, single entries for variable kernels: false of the code. Pairs of a cell in the supports and one
    outside are counted once instead of twice. *)
Theorem C50_entry_variable_refuted : exists nc nb dm L C B lm con v A,
  dofs_ok nc (dm_dpe dm) (dm_num dm) nb (dm_dofs dm) /\ interior_ok L (dm_dpe dm) nc C /\
  (stored_size (dl_symLocal L) (2 * dm_dpe dm) <= B)%nat /\ coherent lm /\ length con = stored_size (dl_symLocal L) (2 * dm_dpe dm) /\
  getEntry B dm nc L true lm con None 0%nat 0%nat = Ok v /\ getDense B dm nc L lm con None None = Ok A /\ v <> dmat A 0%nat 0%nat.
Proof. exact getEntry_variable_differs. Qed.
Print Assumptions C50_entry_variable_refuted.

(** ** Examples *)

(** Four cells of a line, linear elements, both ends fixed; a kernel of the horizon of one cell. *)
Definition weight (K1 K2 : nat) : Qc := if (K1 <=? S K2)%nat && (K2 <=? S K1)%nat then Q2Qc (inject_Z (Z.of_nat (K1 + K2 + 1))) else 0.
Definition slope (p : nat) : Qc := match p with 0 => 1 | 1 => 1 + 1 | 2 => - (1) | _ => - (1 + 1) end.
Definition line_C (K1 K2 p q : nat) : Qc := weight K1 K2 * (slope p * slope q).
Definition line_panel (z1 z2 : Z) : Z := if (z1 <=? z2 + 1)%Z && (z2 <=? z1 + 1)%Z then 0%Z else IGNORED.
Definition line_local : double_local := table_local true true line_panel 4 line_C.
Definition line_dm : dofmap := DM [[(-1)%Z; 0%Z]; [0%Z; 1%Z]; [1%Z; 2%Z]; [2%Z; (-2)%Z]] 3 2 false.
Lemma weight_sym K1 K2 : weight K1 K2 = weight K2 K1.
Proof. unfold weight. rewrite andb_comm, (Nat.add_comm K1 K2). reflexivity. Qed.
Lemma slope_other p : (p < 4)%nat -> slope (other 2 p) = - slope p.
Proof. intros H. destruct p as [|[|[|[|p]]]]; try lia; apply Qc_is_canon; reflexivity. Qed.
Example line_dm_ok : dofs_ok 4 2 3 2 (dm_dofs line_dm).
Proof.
  split; [reflexivity|]. cbn [line_dm dm_dofs]. split.
  - intros row [<-|[<-|[<-|[<-|[]]]]]; reflexivity.
  - intros row d [<-|[<-|[<-|[<-|[]]]]] [<-|[<-|[]]]; cbn; lia.
Qed.
Lemma weight_far K1 K2 : ~ ((K1 <= S K2)%nat /\ (K2 <= S K1)%nat) -> weight K1 K2 = 0.
Proof. intros H. unfold weight. destruct (Nat.leb_spec K1 (S K2)), (Nat.leb_spec K2 (S K1)); cbn [andb]; try reflexivity. lia. Qed.
Example line_ok : interior_ok line_local 2 4 line_C.
Proof.
  split; [apply table_evaluates|]. split; [|split].
  - intros K1 K2 H1 H2 E. right. intros p q _ _. cbn [line_local table_local dl_panel] in E. unfold line_panel in E. unfold line_C.
    rewrite weight_far; [ring|]. destruct (Z.leb_spec (Z.of_nat K1) (Z.of_nat K2 + 1)), (Z.leb_spec (Z.of_nat K2) (Z.of_nat K1 + 1)); cbn [andb] in E; try discriminate E; lia.
  - intros _ K1 K2 p q _ _ _ _. unfold line_C. ring.
  - intros _ K1 K2 p q _ _ Hp Hq. unfold line_C. rewrite weight_sym, !slope_other by assumption. ring.
Qed.
(** The exterior: two facets. *)
Definition line_D (K e p q : nat) : Qc := Q2Qc (inject_Z (Z.of_nat (K + e + 1))) * (slope p * slope q).
Definition line_ext : option (double_local * nat * lmstate * buf Qc) :=
  Some (table_local true false (fun _ _ => IGNORED) 2 line_D, 2%nat, fresh, alloc 3).
Example line_ext_ok : ext_ok line_ext 2 4 line_D.
Proof.
  split; [|reflexivity]. split; [apply table_evaluates|]. split; [reflexivity|]. intros K e p q _ _ _ _. unfold line_D. ring.
Qed.
Definition line_con : buf Qc := alloc 10.
Definition ints (o : res dense) : option (list Z) := match o with Ok A => Some (map (fun q => Qnum (this q)) (d_data A)) | Err _ => None end.
Example line_hypotheses : (stored_size (dl_symLocal line_local) (2 * dm_dpe line_dm) <= 10)%nat /\ coherent fresh /\
  length line_con = stored_size (dl_symLocal line_local) (2 * dm_dpe line_dm).
Proof. split; [cbn; lia|]. split; [split; left; reflexivity|reflexivity]. Qed.
Example line_serial : ints (getDense 10%nat line_dm 4%nat line_local fresh line_con None None) = Some [12; 0; -16; 0; 36; -4; -16; -4; 44]%Z.
Proof. vm_compute. reflexivity. Qed.
Example line_ranks : ints (getDense 10%nat line_dm 4%nat line_local fresh line_con line_ext (Some 3%nat)) = Some [29; 10; -16; 10; 63; 10; -16; 10; 81]%Z.
Proof. vm_compute. reflexivity. Qed.
(** Neither symmetric nor exchangeable; a pair may be ignored in one order only. *)
Definition skew_C (K1 K2 p q : nat) : Qc := if (K1 =? 2)%nat && (K2 =? 0)%nat then 0 else Q2Qc (inject_Z (Z.of_nat (K1 + 2 * K2 + 3 * p + 5 * q))).
Definition skew_local : double_local := table_local false false (fun z1 z2 => if (z1 =? 2)%Z && (z2 =? 0)%Z then IGNORED else 1%Z) 4 skew_C.
Example skew_ok : interior_ok skew_local 2 4 skew_C.
Proof.
  split; [apply table_evaluates|]. split; [|split; intros E; discriminate E].
  intros K1 K2 H1 H2 E. right. intros p q _ _. cbn [skew_local table_local dl_panel] in E. unfold skew_C.
  destruct (Z.eqb_spec (Z.of_nat K1) 2), (Z.eqb_spec (Z.of_nat K2) 0); cbn [andb] in E; try discriminate E.
  assert (K1 = 2%nat) as -> by lia. assert (K2 = 0%nat) as -> by lia. reflexivity.
Qed.
Example skew_dense : exists A, getDense 16%nat line_dm 4%nat skew_local fresh (alloc 16) None None = Ok A /\
  dmat A 0%nat 2%nat = nl_entry (dm_dofs line_dm) (dm_dofs line_dm) 2 4 skew_C 0 2 /\ dmat A 0%nat 2%nat <> dmat A 2%nat 0%nat.
Proof.
  eexists. split; [vm_compute; reflexivity|]. split; [apply Qc_is_canon; vm_compute; reflexivity|]. intros E. apply (f_equal this) in E. vm_compute in E. discriminate E.
Qed.

(** The fixed ends as a second map. *)
Definition ends_dm : dofmap := DM [[0%Z; (-1)%Z]; [(-1)%Z; (-2)%Z]; [(-2)%Z; (-3)%Z]; [(-3)%Z; 1%Z]] 2 2 false.
Example ends_ok : dofs_ok 4 2 3 2 (dm_dofs line_dm) /\ dofs_ok 4 2 2 3 (dm_dofs ends_dm) /\ complementary (dm_dofs line_dm) (dm_dofs ends_dm) 4 2.
Proof.
  split; [apply line_dm_ok|]. split.
  - split; [reflexivity|]. cbn [ends_dm dm_dofs]. split.
    + intros row [<-|[<-|[<-|[<-|[]]]]]; reflexivity.
    + intros row d [<-|[<-|[<-|[<-|[]]]]] [<-|[<-|[]]]; cbn; lia.
  - intros c p Hc Hp. destruct c as [|[|[|[|c]]]]; try lia; destruct p as [|[|p]]; try lia; cbn; lia.
Qed.
Example line_ends : ints (getDense2 10%nat line_dm ends_dm 2 3 4%nat line_local fresh line_con line_ext) = Some [10; 0; -8; -24; 0; -6]%Z.
Proof. vm_compute. reflexivity. Qed.

(** Pairs of clusters that share cells. *)
Definition line_cells : list (list nat * list nat) := [([0; 1], [0; 1]); ([0; 1], [1; 2]); ([2; 3], [2; 3]); ([1; 2], [1; 2; 3])]%nat.
Definition line_near : list (list nat * list nat) := [([0; 1], [0; 1]); ([1; 2], [1; 2])]%nat.
Example line_cells_ok : near_field_ok line_cells 2 4 line_C.
Proof.
  assert (R : forall K1 K2, near_cells line_cells K1 K2 -> (K1 < 4)%nat /\ (K2 < 4)%nat).
  { intros K1 K2 (l1 & l2 & Hin & H1 & H2). cbn [line_cells In] in Hin.
    repeat (destruct Hin as [E|Hin]; [injection E as <- <-; cbn [In] in H1, H2; lia|]). destruct Hin. }
  split; [exact R|]. split.
  - intros K1 Ks ND H. assert (I4 : incl Ks (seq 0 4)) by (intros K2 HK; apply in_seq; destruct (R _ _ (H K2 HK)); lia).
    apply NoDup_incl_length in I4; [|exact ND]. rewrite seq_length in I4. apply Nat.le_lt_trans with (1 := I4). apply Nat.lt_le_trans with (2 ^ 3)%nat; [cbn; lia|apply Nat.pow_le_mono_r; lia].
  - intros K1 K2 p q Hle Hlt Hn _ _. unfold line_C. rewrite (weight_sym K2 K1).
    assert (W : weight K1 K2 = 0).
    { apply weight_far. intros [_ H]. apply Hn. assert (K2 = K1 \/ K2 = S K1) as [->| ->] by lia.
      - destruct K1 as [|[|[|[|K1]]]]; try lia; [exists [0;1]%nat, [0;1]%nat|exists [0;1]%nat, [0;1]%nat|exists [2;3]%nat, [2;3]%nat|exists [2;3]%nat, [2;3]%nat]; cbn; tauto.
      - destruct K1 as [|[|[|K1]]]; try lia; [exists [0;1]%nat, [0;1]%nat|exists [0;1]%nat, [1;2]%nat|exists [2;3]%nat, [2;3]%nat]; cbn; tauto. }
    rewrite W. split; ring.
Qed.
Example line_near_ok : near_dofs_ok line_near 3 /\ forall I J, near_dofs line_near I J -> near_dofs line_near J I.
Proof.
  assert (R : forall K1 K2, near_dofs line_near K1 K2 -> (K1 < 3)%nat /\ (K2 < 3)%nat).
  { intros K1 K2 (l1 & l2 & Hin & H1 & H2). cbn [line_near In] in Hin.
    repeat (destruct Hin as [E|Hin]; [injection E as <- <-; cbn [In] in H1, H2; lia|]). destruct Hin. }
  split; [split; [exact R|]|].
  - intros K1 Ks ND H. assert (I4 : incl Ks (seq 0 3)) by (intros K2 HK; apply in_seq; destruct (R _ _ (H K2 HK)); lia).
    apply NoDup_incl_length in I4; [|exact ND]. rewrite seq_length in I4. apply Nat.le_lt_trans with (1 := I4). apply Nat.lt_le_trans with (2 ^ 3)%nat; [cbn; lia|apply Nat.pow_le_mono_r; lia].
  - intros I J (l1 & l2 & Hin & H1 & H2). exists l2, l1. cbn [line_near In] in Hin. destruct Hin as [E|[E|[]]]; injection E as <- <-; cbn; auto.
Qed.
Example line_sparse : match sparse_operator 10%nat line_dm 4%nat line_local fresh line_con line_cells line_near with
  | Ok A => c_indptr A = [0; 2; 5; 7]%nat /\ c_indices A = [0; 1; 0; 1; 2; 1; 2]%nat /\ map (fun q => Qnum (this q)) (c_data A) = [12; 0; 0; 36; -4; -4; 44]%Z
  | Err _ => False end.
Proof. vm_compute. auto. Qed.
Example line_sparse_sym : match sparse_operator_sym 10%nat line_dm 4%nat line_local fresh line_con line_cells line_near with
  | Ok A => s_indptr A = [0; 0; 1; 2]%nat /\ s_indices A = [0; 1]%nat /\ map (fun q => Qnum (this q)) (s_data A) = [0; -4]%Z /\ map (fun q => Qnum (this q)) (s_diag A) = [12; 36; 44]%Z
  | Err _ => False end.
Proof. vm_compute. auto. Qed.
