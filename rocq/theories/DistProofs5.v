(** Accumulating, distributing and diagonals; what does not work. *)
From Verif Require Import Util Lin CSRModel CSRSpec CSRProofs OpsProofs OverlapModel OverlapSpec OverlapProofs5 DistModel DistSpec DistProofs DistProofs2 DistProofs3 DistProofs4.
Set Default Proof Using "Type".
Local Open Scope nat_scope.

Section Consistent.
  Context {P N : nat} {size : nat -> nat} {mgr : nat -> manager} {glob : nat -> list nat}.
  Hypothesis Hc : consistent P N size mgr glob.
  Let Hv := con_valid _ _ _ _ _ Hc.

  Lemma accumulate_ok K m a ret x : (forall p, p < P -> shaped K (size p) (m p)) -> a < K -> (match ret with Some b => b < K | None => True end) ->
    represents P N glob false (fun p => reg (m p) a) x ->
    always P mgr [Round nothing (Acc a ret)] m (fun p r => reg r (match ret with Some b => b | None => a end) = restricted glob x p).
  Proof using Hc.
    intros Hm Ha Hr Hx. cbn [represents] in Hx. apply (always_ok P K size); auto.
    - constructor; [|constructor]. split; [apply keeps_nothing|]. cbn. destruct ret; auto.
    - repeat constructor.
    - intros p Hp. cbn [program_spec fold_left]. unfold round_spec. cbn [pre what call_spec]. unfold nothing.
      destruct (Hm p Hp) as (L & HL).
      assert (accumulated mgr p (reg (m p) a) (fun q => reg (m q) a) = restricted glob x p) as E.
      { rewrite (accumulated_ok Hc p (fun q => reg (m q) a)) by auto. apply (restricted_ext Hc); auto. }
      destruct ret as [b|]; rewrite reg_eq by lia; exact E.
  Qed.

  Lemma distribute_represents v u w x : represents P N glob true v x -> (forall p, p < P -> length (u p) = size p) ->
    (forall p, p < P -> distribute (prepareDistribute (mgr p)) (size p) (v p) (Some (u p)) = Ok (w p)) -> represents P N glob false w x.
  Proof using Hc.
    intros Hx Hu Hw I HI. cbn [represents] in Hx. rewrite <- (weighted_ok Hc x I HI). apply assembled_ext. intros q Hq.
    assert (length (v q) = size q) as Lq by (rewrite Hx by auto; apply (restricted_length Hc); auto).
    specialize (Hw q Hq). rewrite (distribute_spec Hc q v (u q)) in Hw by auto. injection Hw as <-. apply weighted_ext. auto.
  Qed.
  Lemma distribute_total v u p : p < P -> length (v p) = size p -> length u = size p ->
    exists w, distribute (prepareDistribute (mgr p)) (size p) (v p) (Some u) = Ok w /\ length w = size p.
  Proof using Hc. intros Hp Hl Hu. rewrite (distribute_spec Hc) by auto. eexists. split; [reflexivity|apply weighted_length]. Qed.

  Lemma diagonal_assembled (Mat : nat -> mat) I : assembled P glob (fun q => tab (size q) (fun i => Mat q i i)) I = assembled_matrix P glob Mat I I.
  Proof using Hc.
    unfold assembled, assembled_matrix. apply sumf_ext. intros q Hq. apply sumf_ext. intros i Hi. rewrite vat_tab by (rewrite <- (con_size _ _ _ _ _ Hc q Hq); auto).
    destruct (Nat.eqb_spec (at_ glob q i) I) as [<-|Hn].
    - symmetry. cbn [andb]. apply (sumf_pick (glob q) (fun j => Mat q i j) i (con_once _ _ _ _ _ Hc q Hq) Hi).
    - symmetry. apply sumf_zero. auto.
  Qed.
  Lemma dist_diagonal_ok K m diag (Mat : nat -> mat) : (forall p, p < P -> shaped K (size p) (m p)) -> 2 <= K ->
    (forall p, p < P -> diag p = Ok (tab (size p) (fun i => Mat p i i))) ->
    always P mgr (dist_diagonal diag) m (fun p r => reg r 0 = reg (m p) 0 /\ reg r 1 = restricted glob (fun I => assembled_matrix P glob Mat I I) p).
  Proof using Hc.
    intros Hm HK Hd. apply (always_ok P K size); auto.
    - constructor; [|constructor]. split; [|cbn; lia]. intros p r Hp Hr. cbn [pre]. unfold attempt. rewrite Hd by auto. cbn [bind]. rewrite (shaped_aset K (size p)) by (auto; lia).
      apply shaped_set; auto using tab_length.
    - repeat constructor.
    - intros p Hp. cbn [dist_diagonal program_spec fold_left]. unfold round_spec. cbn [pre what call_spec].
      set (st := fun (q : nat) (r : mem) => attempt (fun p m0 => d <- diag p ;; aset m0 1 d) q r).
      assert (forall q, q < P -> st q (m q) = set_reg (m q) 1 (tab (size q) (fun i => Mat q i i))) as Hst.
      { intros q Hq. unfold st, attempt. rewrite Hd by auto. cbn [bind]. rewrite (shaped_aset K (size q)) by (auto; lia). auto. }
      destruct (Hm p Hp) as (L & _). fold (st p (m p)). rewrite (reg_neq _ _ 0) by lia. rewrite (reg_eq (st p (m p))) by (rewrite Hst by auto; unfold set_reg; rewrite upd_length; lia).
      split; [rewrite Hst by auto; apply reg_neq; lia|].
      rewrite (accumulated_ok Hc p (fun q => reg (st q (m q)) 1)) by (auto; rewrite Hst by auto; rewrite reg_eq by lia; apply tab_length).
      apply (restricted_ext Hc); auto. intros I HI. rewrite <- diagonal_assembled. apply assembled_ext. intros q Hq. rewrite Hst by auto. apply reg_eq. destruct (Hm q Hq). lia.
  Qed.
  Lemma csr_dist_diagonal_ok K m (A : nat -> csr) : (forall p, p < P -> shaped K (size p) (m p)) -> 2 <= K ->
    (forall p, p < P -> wf_csr (size p) (size p) (A p) /\ nodup_csr (size p) (A p)) ->
    always P mgr (dist_diagonal (fun p => csr_get_diagonal (A p))) m
      (fun p r => reg r 0 = reg (m p) 0 /\ reg r 1 = restricted glob (fun I => assembled_matrix P glob (fun q => matrix (A q)) I I) p).
  Proof using Hc. intros Hm HK HA. apply (dist_diagonal_ok K); auto. intros p Hp. destruct (HA p Hp). eapply csr_get_diagonal_ok; eauto. Qed.
End Consistent.

(** * What does not work *)

Definition two_mgr (p : nat) : manager := [Ov (1 - p) [0]].
Lemma two_consistent : consistent 2 1 (fun _ => 1) two_mgr (fun _ => [0]).
Proof.
  constructor.
  - exact race_valid.
  - auto.
  - intros. repeat constructor. intros [].
  - intros p I _ [<-|[]]. lia.
  - intros I HI. exists 0. split; [lia|]. left. lia.
  - intros [|[|p]] [|[|q]] Hp Hq; try lia; cbn; repeat constructor; intros [].
  - intros [|[|p]] [|[|q]] Hp Hq; try lia; reflexivity.
  - intros [|[|p]] [|[|q]] I Hp Hq Hne [<-|[]] _; try lia; left; reflexivity.
Qed.
Lemma diagonal_own_changes : exists P N size mgr glob m, consistent P N size mgr glob /\ (forall p, p < P -> shaped 1 (size p) (m p)) /\
  always P mgr dist_diagonal_own m (fun p r => reg r 0 <> reg (m p) 0).
Proof.
  exists 2, 1, (fun _ => 1), two_mgr, (fun _ => [0]), (fun p => [[1%Qc]]). split; [apply two_consistent|].
  assert (forall p, p < 2 -> shaped 1 1 [[1%Qc]]) as Hm by (intros p Hp; split; auto; intros [|k] Hk; [auto|lia]). split; auto.
  destruct (accumulate_ok two_consistent 1 (fun _ => [[1%Qc]]) 0 None (fun _ => qn 2)) as (B & H); auto.
  - intros I HI. replace I with 0 by lia. vm_compute. reflexivity.
  - exists B. intros buf n w R. destruct (H buf n w R) as (H1 & H2 & H3 & H4). split; auto. split; auto. split; auto. intros p Hp Hd. rewrite (H4 p Hp Hd). cbn. intros E. injection E as E. discriminate E.
Qed.

Definition one_csr : csr := CSR 1 [0; 1] [0] [1%Qc].
Definition one_start : mem := [[1%Qc]; [0%Qc]; [0%Qc]; [0%Qc]].
Lemma one_consistent : consistent 1 1 (fun _ => 1) (fun _ => []) (fun _ => [0]).
Proof.
  constructor.
  - constructor.
    + intros. constructor.
    + intros p q _ [].
    + intros p q Hp Hq [].
    + reflexivity.
    + intros p q i _ [].
  - auto.
  - intros. repeat constructor. intros [].
  - intros p I _ [<-|[]]. lia.
  - intros I HI. exists 0. split; [lia|]. left. lia.
  - intros. constructor.
  - reflexivity.
  - intros p q I Hp Hq. lia.
Qed.
Lemma csr_distribute_fails : exists P N size mgr glob A idx m x, consistent P N size mgr glob /\ (forall p, p < P -> shaped 4 (size p) (m p)) /\
  (forall p, p < P -> wf_csr (size p) (size p) (A p)) /\ (forall p i, p < P -> In i (idx p) <-> In i (flat_map o_shared (mgr p))) /\ represents P N glob true (fun p => reg (m p) 0) x /\
  ~ always P mgr (csr_dist_matvec true false A idx) m (fun p r => reg r 1 = restricted glob (mv N (assembled_matrix P glob (fun q => matrix (A q))) (fun I => (x I / qn (multiplicity P glob I))%Qc)) p).
Proof.
  exists 1, 1, (fun _ => 1), (fun _ => []), (fun _ => [0]), (fun _ => one_csr), (fun _ => []), (fun _ => one_start), (fun _ => 1%Qc).
  split; [apply one_consistent|]. split; [|split; [|split; [|split]]].
  - intros p _. split; auto. intros [|[|[|[|k]]]] Hk; auto; lia.
  - intros p _. repeat split; cbn; try lia. intros [|i] Hi; cbn; lia.
  - intros p i _. cbn. tauto.
  - intros p _. reflexivity.
  - intros (B & H).
    set (w0 := start (fun _ => []) (csr_dist_matvec true false (fun _ => one_csr) (fun _ => [])) (fun _ => one_start)) in *.
    destruct (take_all 1 (fun _ => []) (repeat (CRank 0 0) 5) w0) as [w|] eqn:E; [|vm_compute in E; discriminate].
    assert (runs 1 (fun _ => []) true 5 w0 w) as R by (apply (take_runs 1 (fun _ => []) (repeat (CRank 0 0) 5)); auto).
    destruct (H true 5 w R) as (_ & _ & _ & H4). specialize (H4 0 (Nat.lt_0_succ 0)).
    assert (option_map (fun w => (length (r_ops (w_rank w 0)), r_mem (w_rank w 0))) (take_all 1 (fun _ => []) (repeat (CRank 0 0) 5) w0) = Some (0, [])) as F by (vm_compute; reflexivity).
    rewrite E in F. cbn [option_map] in F. injection F as E1 E2.
    destruct (r_ops (w_rank w 0)); [|discriminate]. specialize (H4 eq_refl). rewrite E2 in H4. apply (f_equal (@length Qc)) in H4. unfold restricted in H4. rewrite map_length in H4. discriminate H4.
Qed.
