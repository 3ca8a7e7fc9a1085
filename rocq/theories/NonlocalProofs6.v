(** Sparse nonlocal assembly: the near field pattern and the operator. *)
From Verif Require Import Util Lin MeshModel LocalSpec ReorderProofs SparsityModel SparsitySpec SparsityProofs SparsityProofs2 CSRModel CSRSpec CSRProofs Rows SSSProofs OpsProofs OpsProofs4
  AssemblyModel AssemblySpec AssemblyProofs AssemblyProofs2 AssemblyProofs3 
  RestrictionProofs DenseModel NonlocalModel NonlocalModel2 NonlocalSpec NonlocalProofs5.
From Coq Require Import Lia Sorted Permutation.
Set Default Proof Using "Type".
Local Open Scope nat_scope.

(** The arrays of a pattern, with zeros. *)
Lemma plain_pattern n m ps ip indz : pairs_fit n m ps -> is_csr_of n (map zpair ps) ip indz ->
  let ind := map Z.to_nat indz in let dat := repeat 0%Qc (length ind) in
  wf_rows n m ip ind dat /\ (forall i, i < n -> StronglySorted lt (map fst (rowlist ip ind dat i))) /\
  (forall i j, ent (rowlist ip ind dat i) j = 0%Qc) /\ (forall i j, i < n -> (In j (map fst (rowlist ip ind dat i)) <-> In (i, j) ps)).
Proof.
  intros Hf HP ind dat. pose proof HP as HP'. rewrite <- with_values_pairs in HP. pose proof (with_values_range n m ps Hf) as HR.
  assert (Hd : length dat = length ind) by (apply repeat_length).
  split; [apply (pat_wf n m (with_values ps) ip indz HR HP dat Hd)|]. split; [intros i Hi; apply (pat_sorted n m (with_values ps) ip indz HR HP dat i Hd Hi)|]. split.
  - intros i j. unfold ent. apply suml_map_zero. intros [a v] Hin. apply filter_In in Hin as [Hin _]. unfold rowlist, slice in Hin.
    assert (F : forall (l : list (nat * Qc)) a, incl (firstn a l) l). { intros l b x Hx. rewrite <- (firstn_skipn b l). apply in_or_app; auto. }
    assert (G : forall (l : list (nat * Qc)) a, incl (skipn a l) l). { intros l b x Hx. rewrite <- (firstn_skipn b l). apply in_or_app; auto. }
    apply F in Hin. apply G in Hin. apply in_combine_r in Hin. unfold dat in Hin. apply repeat_spec in Hin. exact Hin.
  - intros i j Hi. unfold ind, dat. rewrite (RestrictionProofs.row_cols n ip indz) by auto. destruct HP' as (_ & _ & _ & _ & _ & HP'). destruct (HP' i Hi) as [_ Hin]. rewrite in_map_iff. split.
    + intros (z & <- & Hz). apply Hin in Hz. apply in_map_iff in Hz as ([a b] & Ez & Hz). unfold zpair in Ez. cbn in Ez. injection Ez as -> <-. rewrite Nat2Z.id. auto.
    + intros Hij. exists (Z.of_nat j). split; [apply Nat2Z.id|]. apply Hin. apply in_map_iff. exists (i, j). split; auto.
Qed.

Definition near_list (symmetric : bool) (Pdofs : list (list nat * list nat)) : list (nat * nat) :=
  flat_map (fun '(dofs1, dofs2) => flat_map (fun I => flat_map (fun J => if symmetric && negb (J <? I) then [] else [(I, J)]) dofs2) dofs1) Pdofs.
Lemma near_list_in sym Pdofs I J : In (I, J) (near_list sym Pdofs) <-> near_dofs Pdofs I J /\ (sym = true -> J < I).
Proof.
  unfold near_list, near_dofs. rewrite in_flat_map. split.
  - intros ([l1 l2] & Hin & H). apply in_flat_map in H. destruct H as (i & H1 & H). apply in_flat_map in H. destruct H as (j & H2 & H).
    destruct (Nat.ltb_spec j i); destruct sym; cbn [andb negb] in H; try (destruct H as []; fail); destruct H as [E|[]]; injection E as <- <-; (split; [exists l1, l2; auto|intros ?; try discriminate; lia]).
  - intros ((l1 & l2 & Hin & H1 & H2) & Hs). exists (l1, l2). split; [exact Hin|]. apply in_flat_map. exists I. split; [exact H1|]. apply in_flat_map. exists J. split; [exact H2|].
    destruct sym; cbn [andb]; [|left; reflexivity]. destruct (Nat.ltb_spec J I); [left; reflexivity|]. specialize (Hs eq_refl). lia.
Qed.
Lemma near_arrays_ok sym n Pdofs : near_dofs_ok Pdofs n -> exists ip indz, near_arrays sym n Pdofs = Ok (ip, map Z.to_nat indz) /\
  is_csr_of n (map zpair (near_list sym Pdofs)) ip indz /\ pairs_fit n n (near_list sym Pdofs).
Proof.
  intros [Hr Hf]. assert (Fit : pairs_fit n n (near_list sym Pdofs)) by (intros I J H; apply near_list_in in H; apply Hr; tauto).
  destruct (build_ok n n (near_list sym Pdofs)) as (s & ip & indz & E & Ef & HP).
  - exact Fit.
  - intros I Js ND H. apply (Hf I Js ND). intros J HJ. apply H in HJ. apply near_list_in in HJ. tauto.
  - exists ip, indz. split; [|auto]. unfold near_arrays.
    assert (G : forall s0, for_list Pdofs (fun '(dofs1, dofs2) sP => for_list dofs1 (fun I sP => for_list dofs2 (fun J sP =>
        if sym then if J <? I then add_pair I J sP else Ok sP else add_pair I J sP) sP) sP) s0 = for_list (near_list sym Pdofs) (fun p => add_pair (fst p) (snd p)) s0).
    { intros s0. unfold near_list. rewrite for_list_flat. apply for_list_ext. intros [l1 l2] s1 _. rewrite for_list_flat. apply for_list_ext. intros I s2 _.
      rewrite for_list_flat. apply for_list_ext. intros J s3 _. destruct sym; cbn [andb negb]; [destruct (J <? I)|]; cbn [negb for_list fst snd]; try reflexivity; destruct (add_pair I J s3); reflexivity. }
    rewrite G, E, bind_Ok. exact Ef.
Qed.
Lemma getSparseNearField_ok n Pdofs : near_dofs_ok Pdofs n -> exists A, getSparseNearField n Pdofs = Ok A /\ wf_csr n n A /\ sorted_csr n A /\
  (forall i j, matrix A i j = 0%Qc) /\ (forall i j, i < n -> (stored A i j <-> near_dofs Pdofs i j)).
Proof.
  intros H. destruct (near_arrays_ok false n Pdofs H) as (ip & indz & E & HP & Fit). unfold getSparseNearField. rewrite E, bind_Ok.
  destruct (plain_pattern n n _ ip indz Fit HP) as (W & Sd & M0 & St). eexists. split; [reflexivity|].
  assert (Hip : length ip - 1 = n) by (destruct HP as (Hl & _); lia).
  split; [split; [exact Hip|exact W]|]. split; [exact Sd|]. split; [exact M0|]. intros i j Hi. unfold stored. cbn [c_indptr c_indices c_data].
  rewrite St by exact Hi. rewrite near_list_in. intuition discriminate.
Qed.
Lemma getSparseNearField_sym_ok n Pdofs : near_dofs_ok Pdofs n -> exists A, getSparseNearField_sym n Pdofs = Ok A /\ wf_sss n A /\ sorted_sss n A /\
  (forall i j, i < n -> sym_matrix A i j = 0%Qc) /\ (forall i j, i < n -> (stored_lower A i j <-> near_dofs Pdofs i j /\ j < i)).
Proof.
  intros H. destruct (near_arrays_ok true n Pdofs H) as (ip & indz & E & HP & Fit). unfold getSparseNearField_sym. rewrite E, bind_Ok.
  destruct (plain_pattern n n _ ip indz Fit HP) as (W & Sd & M0 & St). eexists. split; [reflexivity|].
  split; [|split; [exact Sd|split]].
  - split; [exact W|]. split; [apply repeat_length|]. cbn [s_indptr s_indices s_data]. intros i p Hi Hp. apply (in_map fst) in Hp. rewrite St in Hp by exact Hi.
    apply near_list_in in Hp. apply Hp. reflexivity.
  - intros i j Hi. unfold sym_matrix, lower. cbn [s_indptr s_indices s_data s_diag]. rewrite !M0. unfold vat. rewrite nth_repeat. destruct (i =? j); ring.
  - intros i j Hi. unfold stored_lower. cbn [s_indptr s_indices s_data]. rewrite St by exact Hi. rewrite near_list_in. intuition.
Qed.

Local Open Scope Qc_scope.
Section Operator.
  Variables (nc nb : nat) (dm : dofmap) (L : double_local) (C : nat -> nat -> nat -> nat -> Qc) (Pcells Pdofs : list (list nat * list nat)).
  Notation dpe := (dm_dpe dm).
  Hypothesis ok : dofs_ok nc dpe (dm_num dm) nb (dm_dofs dm).
  Hypothesis HL : interior_ok L dpe nc C.
  Hypothesis HN : near_field_ok Pcells dpe nc C.
  Hypothesis HD : near_dofs_ok Pdofs (dm_num dm).
  Variables (B : nat) (lm : lmstate) (con : buf Qc).
  Hypotheses (HB : (stored_size (dl_symLocal L) (2 * dpe) <= B)%nat) (Hlm : coherent lm) (Hcon : length con = stored_size (dl_symLocal L) (2 * dpe)).
  Lemma sparse_operator_ok : exists A, sparse_operator B dm nc L lm con Pcells Pdofs = Ok A /\ wf_csr (dm_num dm) (dm_num dm) A /\
    forall I J, (I < dm_num dm)%nat -> (near_dofs Pdofs I J -> matrix A I J = nl_entry (dm_dofs dm) (dm_dofs dm) dpe nc C I J) /\
      (~ near_dofs Pdofs I J -> matrix A I J = 0).
  Proof using ok HL HN HD HB Hlm Hcon.
    destruct (getSparseNearField_ok _ _ HD) as (A0 & E0 & W0 & S0 & Z0 & P0).
    destruct (getSparse_csr_ok nc nb dm L C Pcells HL HN ok B lm con HB Hlm Hcon A0 W0 S0) as (A & E & W & V & V').
    exists A. unfold sparse_operator. rewrite E0, bind_Ok. split; [exact E|]. split; [exact W|]. intros I J HI. split; intros H.
    - rewrite V by (auto; apply P0; auto). rewrite Z0. ring.
    - rewrite V', Z0; auto. rewrite P0; auto.
  Qed.
  Lemma sparse_operator_sym_ok : dl_symLocal L = true -> (forall I J, near_dofs Pdofs I J -> near_dofs Pdofs J I) ->
    exists A, sparse_operator_sym B dm nc L lm con Pcells Pdofs = Ok A /\ wf_sss (dm_num dm) A /\
    forall I J, (I < dm_num dm)%nat -> (J < dm_num dm)%nat ->
      (I = J \/ near_dofs Pdofs I J -> sym_matrix A I J = nl_entry (dm_dofs dm) (dm_dofs dm) dpe nc C I J) /\
      (I <> J -> ~ near_dofs Pdofs I J -> sym_matrix A I J = 0).
  Proof using ok HL HN HD HB Hlm Hcon.
    intros Hsym Hs. destruct (getSparseNearField_sym_ok _ _ HD) as (A0 & E0 & W0 & S0 & Z0 & P0).
    destruct (getSparse_sss_ok nc nb dm L C Pcells HL HN ok B lm con HB Hlm Hcon A0 Hsym W0 S0) as (A & E & W & V & V').
    exists A. unfold sparse_operator_sym. rewrite E0, bind_Ok. split; [exact E|]. split; [exact W|]. intros I J HI HJ.
    assert (Hh : held A0 (Nat.max I J) (Nat.min I J) <-> I = J \/ near_dofs Pdofs I J).
    { unfold held. rewrite P0 by lia. destruct (Nat.le_ge_cases I J) as [H|H].
      - rewrite Nat.max_r, Nat.min_l by exact H. split; [intros [->|[K1 [K2 _]]]; auto|]. intros [->|K]; [auto|]. destruct (Nat.eq_dec I J) as [->|Hne]; [auto|right; split; [lia|split; [auto|lia]]].
      - rewrite Nat.max_l, Nat.min_r by exact H. split; [intros [->|[K1 [K2 _]]]; auto|]. intros [->|K]; [auto|]. destruct (Nat.eq_dec I J) as [->|Hne]; [auto|right; split; [lia|split; [auto|lia]]]. }
    split; [intros H|intros Hne H].
    - rewrite V by (auto; apply Hh; exact H). rewrite Z0 by exact HI. ring.
    - rewrite V', Z0; auto. rewrite Hh. tauto.
  Qed.
End Operator.
