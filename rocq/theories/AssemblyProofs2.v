(** The loops over the cells, and what they add up to. *)
From Coq Require Import Sorted Permutation.
From Verif Require Import Util Lin SparsityModel CSRModel CSRSpec CSRProofs Rows SSSProofs OpsProofs OpsProofs4 MeshModel MeshSpec BaryModel BarySpec BaryProofs LocalSpec MeshProofs MeshProofs4 ReorderProofs RestrictionProofs
  ReorderModel AssemblyModel AssemblySpec AssemblyProofs.
Set Default Proof Using "Type".

(** ** A full local matrix *)
Lemma enter_nonsym_ok {M} (add : M -> nat -> nat -> Qc -> res M) nc nb nb' dm dm' loc i contrib rest A :
  dofs_ok nc (dm_dpe dm) (dm_num dm) nb (dm_dofs dm) -> dofs_ok nc (dm_dpe dm') (dm_num dm') nb' (dm_dofs dm') -> i < nc ->
  contrib = map Some (full_matrix (loc i) (seq 0 (dm_dpe dm)) (seq 0 (dm_dpe dm'))) ++ rest ->
  enter_nonsym add dm dm' i contrib A = for_list (full_events (events_nonsym (dm_dofs dm) (dm_dofs dm') loc) (dm_dpe dm) (dm_dpe dm') i) (do_add add) A.
Proof.
  intros ok ok' Hi Hc. unfold enter_nonsym. set (n := dm_dpe dm) in *. set (n' := dm_dpe dm') in *.
  set (d := dof (dm_dofs dm) i). set (d' := dof (dm_dofs dm') i).
  set (step := fun j k v A => if ((d j <? 0) || (d' k <? 0))%Z then Ok A else add A (Z.to_nat (d j)) (Z.to_nat (d' k)) v).
  set (row := fun (j : nat) (st : nat * M) => _).
  assert (inner : forall j, j < n -> (0 <= d j)%Z -> forall m k s A t, k + m = n' -> skipn s contrib = map Some (map (loc i j) (seq k m) ++ t) ++ rest ->
    for_list (seq k m) (fun k '(s, A) => J <- get2 (dm_dofs dm') i k ;; if (J <? 0)%Z then Ok (S s, A) else v <- rd contrib s ;; A <- add_at add A (d j) J v ;; Ok (S s, A)) (s, A) =
    bind (for_list (seq k m) (fun k => step j k (loc i j k)) A) (fun A => Ok (s + m, A))).
  { intros j Hj Lj. induction m as [|m IH]; intros k s A0 t Hk Hs.
    - cbn [seq for_list]. rewrite bind_Ok, Nat.add_0_r. reflexivity.
    - cbn [seq map app] in Hs. destruct (read_next contrib s _ _ _ Hs) as [Hr Hs']. cbn [seq for_list].
      rewrite (dof_get nc nb' dm' ok' i k Hi) by (fold n'; lia). rewrite bind_Ok. fold d'. fold (d' k). unfold step at 1.
      destruct (Z.ltb_spec (d j) 0); [lia|]. cbn [orb]. destruct (Z.ltb_spec (d' k) 0) as [L|L].
      + rewrite !bind_Ok. rewrite (IH (S k) (S s) A0 t); auto; [|lia]. rewrite Nat.add_succ_r. reflexivity.
      + rewrite Hr, bind_Ok. unfold add_at. rewrite !bind_assoc. apply bind_ext. intros A1. rewrite bind_Ok. fold (add_at add A1).
        change (fun (k0 : nat) '(s0, A2) => _) with (fun (k0 : nat) '(s0, A2) => J <- get2 (dm_dofs dm') i k0 ;; if (J <? 0)%Z then Ok (S s0, A2) else v <- rd contrib s0 ;; A <- add_at add A2 (d j) J v ;; Ok (S s0, A)).
        rewrite (IH (S k) (S s) A1 t); auto; [|lia]. rewrite Nat.add_succ_r. reflexivity. }
  assert (outer : forall m j s, j + m = n -> skipn s contrib = map Some (full_matrix (loc i) (seq j m) (seq 0 n')) ++ rest ->
    exists s', forall A, for_list (seq j m) row (s, A) =
      bind (for_list (seq j m) (fun j A => for_list (seq 0 n') (fun k => step j k (loc i j k)) A) A) (fun A => Ok (s', A))).
  { induction m as [|m IH]; intros j s Hj Hs.
    - exists s. reflexivity.
    - cbn [seq] in Hs. unfold full_matrix in Hs. cbn [flat_map] in Hs. fold (full_matrix (loc i) (seq (S j) m) (seq 0 n')) in Hs.
      destruct (IH (S j) (s + n')) as (s' & E'); [lia| |].
      { pose proof (skip_many _ _ _ _ _ Hs) as Q. rewrite map_length, seq_length in Q. exact Q. }
      exists s'. intros A0. cbn [seq for_list].
      assert (Er : row j (s, A0) = bind (for_list (seq 0 n') (fun k => step j k (loc i j k)) A0) (fun A => Ok (s + n', A))).
      { unfold row. rewrite (dof_get nc nb dm ok i j Hi) by (fold n; lia). rewrite bind_Ok. fold d. fold (d j). destruct (Z.ltb_spec (d j) 0) as [L|L].
        - rewrite (for_list_ext _ (fun _ A => Ok A)); [rewrite for_list_id; reflexivity|]. intros k A1 _. unfold step. destruct (Z.ltb_spec (d j) 0); [reflexivity|lia].
        - rewrite for_range_list, Nat.sub_0_r. apply (inner j ltac:(lia) L n' 0 s A0 _ eq_refl Hs). }
      rewrite Er. destruct (for_list (seq 0 n') _ A0); [|reflexivity]. rewrite !bind_Ok. apply E'. }
  rewrite for_range_list, Nat.sub_0_r. destruct (outer n 0 0 eq_refl) as (s' & E); [exact Hc|]. rewrite E, bind_assoc.
  etransitivity; [apply (drop_pos _ s')|]. unfold full_events. rewrite for_list_flat. apply for_list_ext.
  intros j A0 Hj. rewrite for_list_flat. apply for_list_ext. intros k A1 Hk. unfold step, events_nonsym. fold d d'. fold (d j) (d' k).
  destruct (_ || _); [reflexivity|]. cbn [for_list do_add]. destruct (add A1 _ _ _); reflexivity.
Qed.

(** ** Cells *)
Section Cells.
  Variables (dim mdim : nat) (V : list (list Qc)) (C : list (list nat)).
  Hypothesis mok : mesh_ok dim (mdim + 1) V C.
  Variables (lm : local_matrix) (informed : bool) (size : nat) (vals : nat -> list Qc).
  Hypothesis ev : evaluates (lm_eval lm) (lm_dim lm) informed size V C vals.
  Hypothesis dims : lm_needsCellInfo lm = true -> lm_dim lm = mdim.

  Definition scratch_ok (w : scratch) : Prop :=
    shape (mdim + 1) dim (fst (fst w)) /\ length (snd (fst w)) = size /\ length (snd w) = S (lm_dim lm).
  Lemma new_scratch_ok cell : length cell = S (lm_dim lm) -> scratch_ok (new_scratch dim mdim size cell).
  Proof using Type.
    intros H. unfold new_scratch, scratch_ok. cbn [fst snd]. split; [|split; [apply alloc_length|exact H]].
    split; [apply repeat_length|]. intros r Hr. apply repeat_spec in Hr. subst. apply alloc_length.
  Qed.

  Lemma setCell_ok c cell : length c = mdim + 1 -> lm_dim lm = mdim -> length cell = S (lm_dim lm) -> setCell lm c cell = Ok (map Some c).
  Proof using Type.
    clear dims. intros Hc Hd Hl. unfold setCell. rewrite Hd, <- Hc.
    loop_inv (fun k (b : buf nat) => b = map Some (firstn k c) ++ skipn k cell) b E HI.
    - lia.
    - reflexivity.
    - intros k b Hk ->. destruct (nth_error_lt c k) as (x & Hx); [lia|]. rewrite (aget_ok _ _ _ Hx), bind_Ok.
      assert (Hs : exists y, skipn k cell = y :: skipn (S k) cell).
      { destruct (nth_error_lt cell k) as (y & Hy); [lia|]. exists y. clear -Hy. revert k Hy. induction cell as [|z l IH]; intros [|k] H; cbn in *; try discriminate; [congruence|auto]. }
      destruct Hs as (y & Hs). rewrite Hs. assert (Hf : length (firstn k c) = k) by (rewrite firstn_length; lia).
      rewrite wr_ok by (rewrite app_length, map_length, Hf; cbn; lia). eexists; split; [reflexivity|].
      rewrite upd_at by (rewrite map_length; auto). 
      rewrite (firstn_S_nth c k x Hx). rewrite map_app, <- app_assoc. reflexivity.
    - rewrite E, HI. rewrite firstn_all, skipn_all2 by lia. rewrite app_nil_r. reflexivity.
  Qed.

  Lemma corners_shape c : In c C -> shape (mdim + 1) dim (map (map (@Some Qc)) (corners V c)).
  Proof using mok.
    intros Hc. destruct mok as [HV HC]. destruct (HC c Hc) as [Hl Hv]. split.
    - unfold corners. rewrite !map_length. auto.
    - intros r Hr. apply in_map_iff in Hr as (p & <- & Hp). rewrite map_length. unfold corners in Hp. apply in_map_iff in Hp as (v & <- & Hv').
      apply HV. apply nth_In. auto.
  Qed.

  (** One cell. *)
  Lemma eval_cell_ok set i w : (informed = true -> lm_needsCellInfo lm = true /\ set = true) -> i < length C -> scratch_ok w ->
    exists w' rest, eval_cell dim V C lm set i w = Ok w' /\ scratch_ok w' /\ snd (fst w') = map Some (vals i) ++ rest.
  Proof using mok ev dims.
    intros Hinf Hi (Hs & Hk & Hl). destruct w as [[simplex contrib] cell]. cbn [fst snd] in *.
    destruct (nth_error_lt C i Hi) as (c & Hc). pose proof (nth_error_In _ _ Hc) as Hin. destruct (proj2 mok c Hin) as [Hcl _].
    unfold eval_cell. rewrite (getSimplex_ok dim (mdim + 1) V C i c simplex mok Hc Hs), bind_Ok.
    assert (Hcell : exists cell', (if set && lm_needsCellInfo lm then c <- aget C i ;; setCell lm c cell else Ok cell) = Ok cell' /\
      length cell' = S (lm_dim lm) /\ (informed = true -> cell' = map Some c)).
    { destruct (lm_needsCellInfo lm) eqn:Hn.
      - specialize (dims eq_refl). destruct set; cbn [andb].
        + rewrite (aget_ok _ _ _ Hc), bind_Ok. rewrite setCell_ok by auto. exists (map Some c).
          split; [reflexivity|]. split; [|auto]. rewrite map_length, dims. lia.
        + exists cell. repeat split; auto. intros Q. destruct (Hinf Q). discriminate.
      - rewrite andb_false_r. exists cell. repeat split; auto. intros Q. destruct (Hinf Q). discriminate. }
    destruct Hcell as (cell' & -> & Hl' & Hc'). rewrite bind_Ok.
    destruct (ev i c cell' contrib Hc Hl' Hc' Hk) as (rest & -> & Hsz). rewrite bind_Ok.
    exists (map (map Some) (corners V c), map Some (vals i) ++ rest, cell'), rest. split; [reflexivity|]. split; [|reflexivity].
    split; [apply corners_shape; auto|]. cbn [fst snd]. rewrite app_length, map_length. auto.
  Qed.

  (** All of them: what has to be shown of [enter] is that it does [E], whatever follows the
      local matrix in the buffer. *)
  Lemma cells_loop {S} (enter : nat -> buf Qc -> S -> res S) (E : nat -> S -> res S) set l w s s' :
    (informed = true -> lm_needsCellInfo lm = true /\ set = true) -> (forall i, In i l -> i < length C) ->
    (forall i rest s s1, In i l -> E i s = Ok s1 -> enter i (map Some (vals i) ++ rest) s = Ok s1) ->
    scratch_ok w -> for_list l E s = Ok s' ->
    exists w', for_list l (assemble_step dim V C lm set enter) (w, s) = Ok (w', s').
  Proof using mok ev dims.
    intros Hinf. revert w s. induction l as [|i l IH]; intros w s Hl He Hw Hs; cbn [for_list] in *.
    - injection Hs as <-. exists w. reflexivity.
    - destruct (eval_cell_ok set i w Hinf (Hl i (or_introl eq_refl)) Hw) as (w' & rest & E1 & Hw' & Hr).
      destruct (E i s) as [s1|] eqn:Es; [|discriminate]. cbn [bind] in Hs.
      unfold assemble_step at 1. rewrite E1, bind_Ok, Hr, (He i rest s s1 (or_introl eq_refl) Es), !bind_Ok.
      apply (IH w' s1); auto; intros; [apply Hl|apply He]; auto; right; auto.
  Qed.
End Cells.

Lemma two_loops {X S T} (fA : X -> S -> res S) (fR : X -> T -> res T) (h : X -> S * T -> res (S * T)) :
  (forall x A r A' r', fA x A = Ok A' -> fR x r = Ok r' -> h x (A, r) = Ok (A', r')) ->
  forall l A r A' r', for_list l fA A = Ok A' -> for_list l fR r = Ok r' -> for_list l h (A, r) = Ok (A', r').
Proof.
  intros Hh. induction l as [|x l IH]; intros A r A' r' EA ER; cbn [for_list] in *; [congruence|].
  destruct (fA x A) as [A1|] eqn:E1; [|discriminate]. destruct (fR x r) as [r1|] eqn:E2; [|discriminate]. rewrite (Hh x A r A1 r1 E1 E2), bind_Ok.
  apply IH; auto.
Qed.

(** ** Additions to stored entries *)
Definition at_entry (i j : nat) (t : contribution) : Qc := let '(a, b, v) := t in if (a =? i) && (b =? j) then v else 0%Qc.

Lemma map_fst_rows n m ip ind dat dat' i : wf_rows n m ip ind dat -> length dat' = length dat -> i < n ->
  map fst (rowlist ip ind dat' i) = map fst (rowlist ip ind dat i).
Proof.
  intros wf Hl Hi. rewrite (rowlist_tab n m _ _ _ (wf_data n m _ _ _ wf _ Hl)), (rowlist_tab n m _ _ _ wf) by auto.
  unfold tab. rewrite !map_map. reflexivity.
Qed.

(** B has the pattern of A *)
Definition same_pattern (n : nat) (A B : csr) : Prop :=
  c_indptr B = c_indptr A /\ c_indices B = c_indices A /\ length (c_data B) = length (c_data A).
Lemma same_pattern_stored n m A B I J : wf_csr n m A -> same_pattern n A B -> I < n -> (stored B I J <-> stored A I J).
Proof.
  intros [_ wf] (E1 & E2 & E3) HI. unfold stored. rewrite E1, E2, (map_fst_rows n m _ _ _ _ I wf E3 HI). reflexivity.
Qed.
Lemma same_pattern_sorted n m A B : wf_csr n m A -> same_pattern n A B -> sorted_csr n A -> sorted_csr n B.
Proof.
  intros [_ wf] (E1 & E2 & E3) H i Hi. rewrite E1, E2, (map_fst_rows n m _ _ _ _ i wf E3 Hi). auto.
Qed.
Lemma csr_addToEntry_pattern n A I J v B : csr_addToEntry A I J v = Ok B -> same_pattern n A B.
Proof.
  unfold csr_addToEntry. destruct (entry_find _ _ _ _) as [[[k|] lin]|]; cbn [bind]; [| |discriminate].
  - destruct (aget (c_data A) k) eqn:Eg; cbn [bind]; [|discriminate]. unfold aset. destruct (k <? length (c_data A)); cbn [bind]; [|discriminate].
    intros H. injection H as <-. split; [reflexivity|]. split; [reflexivity|]. cbn [c_data]. apply upd_length.
  - intros H. injection H as <-. repeat split.
Qed.
Lemma csr_setEntry_pattern n A I J v B : csr_setEntry A I J v = Ok B -> same_pattern n A B.
Proof.
  unfold csr_setEntry. destruct (entry_find _ _ _ _) as [[[k|] lin]|]; cbn [bind]; [| |discriminate].
  - unfold aset. destruct (k <? length (c_data A)); cbn [bind]; [|discriminate].
    intros H. injection H as <-. split; [reflexivity|]. split; [reflexivity|]. cbn [c_data]. apply upd_length.
  - destruct lin; cbn [guard bind]; [|discriminate]. intros H. injection H as <-. repeat split.
Qed.

Lemma csr_adds n m evs : forall A, wf_csr n m A -> sorted_csr n A -> (forall a b v, In (a, b, v) evs -> a < n /\ stored A a b) ->
  exists B, for_list evs (do_add csr_addToEntry) A = Ok B /\ wf_csr n m B /\ same_pattern n A B /\
    forall i j, i < n -> matrix B i j = (matrix A i j + suml (map (at_entry i j) evs))%Qc.
Proof.
  induction evs as [|[[a b] v] evs IH]; intros A wf srt H.
  - exists A. repeat split; auto; try apply wf. intros i j Hi. cbn. ring.
  - destruct (H a b v (or_introl eq_refl)) as [Ha Hs]. destruct (csr_addToEntry_ok n m A wf srt a b v Ha Hs) as (A1 & E1 & wf1 & M1).
    pose proof (csr_addToEntry_pattern n A a b v A1 E1) as P1.
    destruct (IH A1 wf1 (same_pattern_sorted n m A A1 wf P1 srt)) as (B & E & wfB & PB & MB).
    { intros a' b' v' Hin. destruct (H a' b' v' (or_intror Hin)) as [Ha' Hs']. split; auto. apply (same_pattern_stored n m A A1); auto. }
    exists B. split; [|split; [auto|split]].
    + cbn [for_list]. unfold do_add at 1. rewrite E1. exact E.
    + destruct P1 as (Q1 & Q2 & Q3), PB as (R1 & R2 & R3). repeat split; congruence.
    + intros i j Hi. rewrite MB, M1 by auto. cbn [map suml fold_right]. change (fold_right Qcplus 0%Qc (map (at_entry i j) evs)) with (suml (map (at_entry i j) evs)).
      unfold at_entry at 2. rewrite (Nat.eqb_sym i a), (Nat.eqb_sym j b). destruct (_ && _); ring.
Qed.

Lemma csr_sets n m evs : forall A, wf_csr n m A -> sorted_csr n A -> (forall a b v, In (a, b, v) evs -> a < n /\ stored A a b) ->
  exists B, for_list evs (do_add csr_setEntry) A = Ok B /\ wf_csr n m B /\ same_pattern n A B /\
    forall i j, i < n -> matrix B i j = match last_value evs i j with Some v => v | None => matrix A i j end.
Proof.
  induction evs as [|[[a b] v] evs IH] using rev_ind; intros A wf srt H.
  - exists A. repeat split; auto; apply wf.
  - destruct (IH A wf srt) as (A1 & E1 & wf1 & P1 & M1). { intros a' b' v' Hin. apply (H a' b' v'). apply in_or_app; auto. }
    destruct (H a b v) as [Ha Hs]; [apply in_or_app; right; left; reflexivity|].
    destruct (csr_setEntry_ok n m A1 wf1 (same_pattern_sorted n m A A1 wf P1 srt) a b v Ha) as (B & E & wfB & MB).
    { apply (same_pattern_stored n m A A1); auto. }
    pose proof (csr_setEntry_pattern n A1 a b v B E) as PB.
    exists B. split; [|split; [auto|split]].
    + rewrite for_list_app, E1. cbn [bind for_list]. unfold do_add. rewrite E. reflexivity.
    + destruct P1 as (Q1 & Q2 & Q3), PB as (R1 & R2 & R3). repeat split; congruence.
    + intros i j Hi. rewrite MB, M1, last_value_app by auto. rewrite (Nat.eqb_sym i a), (Nat.eqb_sym j b). destruct (_ && _); reflexivity.
Qed.

(** Symmetric storage *)
Definition at_sym (i j : nat) (t : contribution) : Qc := let '(a, b, v) := t in if ((i =? a) && (j =? b)) || ((i =? b) && (j =? a)) then v else 0%Qc.
Definition same_sss (A B : sss) : Prop := s_indptr B = s_indptr A /\ s_indices B = s_indices A /\ length (s_data B) = length (s_data A).
Lemma same_sss_stored n A B I J : wf_sss n A -> same_sss A B -> I < n -> (stored_lower B I J <-> stored_lower A I J).
Proof.
  intros [wf _] (E1 & E2 & E3) HI. unfold stored_lower. rewrite E1, E2, (map_fst_rows n n _ _ _ _ I wf E3 HI). reflexivity.
Qed.
Lemma same_sss_sorted n A B : wf_sss n A -> same_sss A B -> sorted_sss n A -> sorted_sss n B.
Proof.
  intros [wf _] (E1 & E2 & E3) H i Hi. rewrite E1, E2, (map_fst_rows n n _ _ _ _ i wf E3 Hi). auto.
Qed.
Lemma sss_addToEntry_pattern A I J v B : sss_addToEntry A I J v = Ok B -> same_sss A B.
Proof.
  unfold sss_addToEntry. destruct (I =? J).
  - destruct (aget (s_diag A) I); cbn [bind]; [|discriminate]. unfold aset. destruct (I <? length (s_diag A)); cbn [bind]; [|discriminate].
    intros H. injection H as <-. repeat split.
  - destruct (J <? I).
    + destruct (entry_find _ _ _ _) as [[[k|] lin]|]; cbn [bind]; [| |discriminate].
      * destruct (aget (s_data A) k) eqn:Eg; cbn [bind]; [|discriminate]. unfold aset. destruct (k <? length (s_data A)); cbn [bind]; [|discriminate].
        intros H. injection H as <-. split; [reflexivity|]. split; [reflexivity|]. cbn [s_data]. apply upd_length.
      * intros H. injection H as <-. repeat split.
    + intros H. injection H as <-. repeat split.
Qed.
Lemma sss_adds n evs : forall A, wf_sss n A -> sorted_sss n A -> (forall a b v, In (a, b, v) evs -> a < n /\ b <= a /\ (b < a -> stored_lower A a b)) ->
  exists B, for_list evs (do_add sss_addToEntry) A = Ok B /\ wf_sss n B /\ same_sss A B /\
    forall i j, i < n -> j < n -> sym_matrix B i j = (sym_matrix A i j + suml (map (at_sym i j) evs))%Qc.
Proof.
  induction evs as [|[[a b] v] evs IH]; intros A wf srt H.
  - exists A. repeat split; auto; try apply wf. intros i j Hi Hj. cbn. ring.
  - destruct (H a b v (or_introl eq_refl)) as (Ha & Hb & Hs). destruct (sss_addToEntry_ok n A wf srt a b v Ha Hb Hs) as (A1 & E1 & wf1 & M1).
    pose proof (sss_addToEntry_pattern A a b v A1 E1) as P1.
    destruct (IH A1 wf1 (same_sss_sorted n A A1 wf P1 srt)) as (B & E & wfB & PB & MB).
    { intros a' b' v' Hin. destruct (H a' b' v' (or_intror Hin)) as (Ha' & Hb' & Hs'). split; [auto|split]; auto. intros L. apply (same_sss_stored n A A1); auto. }
    exists B. split; [|split; [auto|split]].
    + cbn [for_list]. unfold do_add at 1. rewrite E1. exact E.
    + destruct P1 as (Q1 & Q2 & Q3), PB as (R1 & R2 & R3). repeat split; congruence.
    + intros i j Hi Hj. rewrite MB, M1 by auto. cbn [map suml fold_right]. change (fold_right Qcplus 0%Qc (map (at_sym i j) evs)) with (suml (map (at_sym i j) evs)).
      unfold at_sym at 2. destruct (_ || _); ring.
Qed.

(** Right-hand sides *)
Lemma sub_ats n evs : forall rhs, length rhs = n -> (forall a v, In (a, v) evs -> a < n) ->
  exists rhs', for_list evs sub_at rhs = Ok rhs' /\ length rhs' = n /\
    forall i, i < n -> vat rhs' i = (vat rhs i - suml (map (fun t => if fst t =? i then snd t else 0) evs))%Qc.
Proof.
  induction evs as [|[a v] evs IH]; intros rhs Hl H.
  - exists rhs. repeat split; auto. intros i Hi. cbn. ring.
  - pose proof (H a v (or_introl eq_refl)) as Ha. cbn [for_list]. unfold sub_at at 1.
    cbn [fst snd]. rewrite (aget_nth rhs _ 0%Qc) by lia. rewrite bind_Ok, aset_ok by lia.
    destruct (IH (upd rhs a (nth a rhs 0 - v)%Qc)) as (rhs' & E & Hl' & HV). { rewrite upd_length; auto. } { intros; eapply H; right; eauto. }
    exists rhs'. split; [exact E|]. split; [auto|]. intros i Hi. rewrite HV, vat_upd by lia.
    cbn [map suml fold_right fst snd].
    rewrite (Nat.eqb_sym i a). destruct (Nat.eqb_spec a i) as [->|]; [unfold vat|]; ring.
Qed.
