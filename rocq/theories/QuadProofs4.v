(** Products of two rules; boxes. *)
From Verif Require Import Util Lin MeshModel MeshSpec MeshProofs BaryModel BarySpec LocalModel LocalSpec LocalProofs LocalProofs2 QuadModel QuadSpec QuadProofs QuadProofs2 QuadProofs3.
Set Default Proof Using "Type".
Local Open Scope Qc_scope.

(** ** Numbering of pairs *)
Lemma pair_div i j m : (j < m)%nat -> ((i * m + j) / m = i)%nat.
Proof. intros H. rewrite Nat.div_add_l by lia. rewrite Nat.div_small by auto. lia. Qed.
Lemma pair_mod i j m : (j < m)%nat -> ((i * m + j) mod m = j)%nat.
Proof. intros H. rewrite Nat.add_comm, Nat.mod_add by lia. apply Nat.mod_small. auto. Qed.
Lemma sumf_pairs n m (g : nat -> Qc) : sumf (n * m) g = sumf n (fun i => sumf m (fun j => g (i * m + j)%nat)).
Proof.
  induction n as [|n IH]; [reflexivity|]. replace (S n * m)%nat with (n * m + m)%nat by lia. rewrite sumf_app, IH. reflexivity.
Qed.
Definition listing (m l : nat) (h : nat -> nat -> Qc) : list Qc := tab l (fun q => h (q / m)%nat (q mod m)%nat).
Lemma listing_next m N i j h : (j < m)%nat -> (i * m + j < N)%nat ->
  wr (map Some (listing m (i * m + j) h) ++ alloc (N - (i * m + j))) (i * m + j) (h i j)
  = Ok (map Some (listing m (i * m + S j) h) ++ alloc (N - (i * m + S j))).
Proof.
  intros Hj HN. replace (N - (i * m + j))%nat with (S (N - (i * m + S j))) by lia. rewrite wr_next_at by (unfold listing; rewrite tab_length; reflexivity).
  unfold listing. replace (i * m + S j)%nat with (S (i * m + j)) by lia. rewrite tab_S, pair_div, pair_mod by auto. reflexivity.
Qed.
Lemma listing_full m n h : map Some (listing m (n * m) h) ++ alloc (n * m - n * m) = map Some (listing m (n * m) h).
Proof. rewrite Nat.sub_diag. cbn. apply app_nil_r. Qed.

(** A double loop that writes h i j at place i * m + j. *)
Lemma double_loop {T} n m (h : nat -> nat -> Qc) (ok : T -> Prop) (body : nat -> nat -> T * buf Qc * nat -> res (T * buf Qc * nat)) t0 :
  ok t0 ->
  (forall i j t b l, (i < n)%nat -> (j < m)%nat -> ok t -> exists t', ok t' /\ body i j (t, b, l) = (b <- wr b l (h i j) ;; Ok (t', b, (l + 1)%nat))) ->
  exists t, for_range 0 n (fun i st => for_range 0 m (body i) st) (t0, alloc (n * m), 0%nat) = Ok (t, map Some (listing m (n * m) h), (n * m)%nat).
Proof.
  intros H0 HB.
  destruct (for_range_inv (fun i st => exists t, ok t /\ st = (t, map Some (listing m (i * m) h) ++ alloc (n * m - i * m), (i * m)%nat))
    (fun i st => for_range 0 m (body i) st) 0 n (t0, alloc (n * m), 0%nat)) as (st & E & t & Ht & ->); [lia| | |].
  - exists t0. split; auto. cbn. rewrite Nat.sub_0_r. reflexivity.
  - intros i st Hi (t & Ht & ->).
    destruct (for_range_inv (fun j st => exists t, ok t /\ st = (t, map Some (listing m (i * m + j) h) ++ alloc (n * m - (i * m + j)), (i * m + j)%nat))
      (body i) 0 m (t, map Some (listing m (i * m) h) ++ alloc (n * m - i * m), (i * m)%nat)) as (st & E & t' & Ht' & ->); [lia| | |].
    + exists t. split; auto. rewrite Nat.add_0_r. reflexivity.
    + intros j st Hj (t' & Ht' & ->). destruct (HB i j t' (map Some (listing m (i * m + j) h) ++ alloc (n * m - (i * m + j))) (i * m + j)%nat) as (t2 & H2 & ->); auto; [lia|lia|].
      rewrite listing_next by nia. cbn [bind]. eexists. split; [reflexivity|]. exists t2. split; auto. replace (i * m + j + 1)%nat with (i * m + S j)%nat by lia. reflexivity.
    + eexists. split; [exact E|]. exists t'. split; auto. replace (S i * m)%nat with (i * m + m)%nat by lia. reflexivity.
  - exists t. rewrite E, listing_full. reflexivity.
Qed.

Section Double.
  Variables (d1 d2 n1 n2 : nat) (nodes1 nodes2 vs1 vs2 : list (list Qc)) (weights1 weights2 : list Qc).
  Hypothesis HT1 : node_table d1 n1 nodes1 weights1.
  Hypothesis HT2 : node_table d2 n2 nodes2 weights2.
  Let r := Rule d1 nodes1 weights1.
  Let s := Rule d2 nodes2 weights2.

  Lemma double_weights_ok : double_weights r s = Ok (map Some (listing n2 (n1 * n2) (fun i j => vat weights1 i * vat weights2 j))).
  Proof using HT1 HT2.
    unfold double_weights. replace (num_nodes r) with n1 by (symmetry; apply (table_columns _ _ _ _ HT1)). replace (num_nodes s) with n2 by (symmetry; apply (table_columns _ _ _ _ HT2)).
    cbn [q_weights r s]. set (h := fun i j => vat weights1 i * vat weights2 j).
    destruct (for_range_inv (fun i st => st = (map Some (listing n2 (i * n2) h) ++ alloc (n1 * n2 - i * n2), (i * n2)%nat))
      (fun i st => for_range 0 n2 (fun j '(weights, k) => a <- aget weights1 i ;; b <- aget weights2 j ;; weights <- wr weights k (a * b) ;; Ok (weights, (k + 1)%nat)) st)
      0 n1 (alloc (n1 * n2), 0%nat)) as (st & E & ->); [lia| | |].
    - cbn. rewrite Nat.sub_0_r. reflexivity.
    - intros i st Hi ->.
      destruct (for_range_inv (fun j st => st = (map Some (listing n2 (i * n2 + j) h) ++ alloc (n1 * n2 - (i * n2 + j)), (i * n2 + j)%nat))
        (fun j '(weights, k) => a <- aget weights1 i ;; b <- aget weights2 j ;; weights <- wr weights k (a * b) ;; Ok (weights, (k + 1)%nat))
        0 n2 (map Some (listing n2 (i * n2) h) ++ alloc (n1 * n2 - i * n2), (i * n2)%nat)) as (st & E & ->); [lia| | |].
      + rewrite Nat.add_0_r. reflexivity.
      + intros j st Hj ->. destruct HT1 as (_ & _ & L1), HT2 as (_ & _ & L2). rewrite (aget_nth weights1 i 0), (aget_nth weights2 j 0) by lia. cbn [bind].
        change (nth i weights1 0 * nth j weights2 0) with (h i j). rewrite listing_next by nia. cbn [bind]. eexists. split; [reflexivity|]. f_equal. lia.
      + eexists. split; [exact E|]. replace (S i * n2)%nat with (i * n2 + n2)%nat by lia. reflexivity.
    - rewrite E, listing_full. reflexivity.
  Qed.

  Hypothesis Hv1 : length vs1 = S d1.
  Hypothesis Hw1 : forall v, In v vs1 -> length v = d1.
  Hypothesis Hv2 : length vs2 = S d2.
  Hypothesis Hw2 : forall v, In v vs2 -> length v = d2.

  Lemma double_point i j x : (i < n1)%nat -> (j < n2)%nat -> length x = (d1 + d2)%nat ->
    (x <- add_node nodes1 vs1 d1 i 0 (zero_all x) ;; add_node nodes2 vs2 d2 j d1 x)
    = Ok (map Some (point_at d1 vs1 (coordinates nodes1 i) ++ point_at d2 vs2 (coordinates nodes2 j))).
  Proof using HT1 HT2 Hv1 Hw1 Hv2 Hw2.
    intros Hi Hj Lx. destruct HT1 as (A1 & A2 & A3), HT2 as (B1 & B2 & B3). rewrite (zero_all_tab (d1 + d2)) by auto.
    rewrite (add_node_ok nodes1 vs1 d1 n1 i) by (auto; lia). cbn [bind]. rewrite (add_node_ok nodes2 vs2 d2 n2 j) by (auto; lia).
    f_equal. f_equal. symmetry. apply eq_tab with (d := 0); [unfold point_at; rewrite app_length, !tab_length; reflexivity|].
    intros q Hq. destruct (Nat.lt_ge_cases q d1) as [H|H].
    - rewrite app_nth1 by (unfold point_at; rewrite tab_length; auto). unfold point_at. rewrite nth_tab by auto. unfold inside. cases.
      + destruct (d1 <=? q)%nat eqn:E; [apply Nat.leb_le in E; lia|]. cbn [andb Nat.leb]. rewrite Nat.sub_0_r. ring.
    - rewrite app_nth2 by (unfold point_at; rewrite tab_length; auto). unfold point_at. rewrite tab_length, nth_tab by lia. unfold inside. cases.
      rewrite (proj2 (Nat.leb_le _ _)) by lia. cbn [andb Nat.leb]. ring.
  Qed.

  Lemma double_evalFun_ok f : double_evalFun r s f vs1 vs2 (alloc (n1 * n2))
    = Ok (map Some (listing n2 (n1 * n2) (fun i j => f (point_at d1 vs1 (coordinates nodes1 i) ++ point_at d2 vs2 (coordinates nodes2 j))))).
  Proof using HT1 HT2 Hv1 Hw1 Hv2 Hw2.
    unfold double_evalFun. replace (num_nodes r) with n1 by (symmetry; apply (table_columns _ _ _ _ HT1)). replace (num_nodes s) with n2 by (symmetry; apply (table_columns _ _ _ _ HT2)).
    cbn [q_dim q_nodes r s].
    destruct (double_loop n1 n2 (fun i j => f (point_at d1 vs1 (coordinates nodes1 i) ++ point_at d2 vs2 (coordinates nodes2 j))) (fun x : buf Qc => length x = (d1 + d2)%nat)
      (fun i j '(x, fun_vals, l) =>
        x <- add_node nodes1 vs1 d1 i 0 (zero_all x) ;;
        x <- add_node nodes2 vs2 d2 j d1 x ;;
        xs <- all_init x ;;
        fun_vals <- wr fun_vals l (f xs) ;;
        Ok (x, fun_vals, (l + 1)%nat)) (alloc (d1 + d2))) as (t & E); [apply alloc_length| |rewrite E; reflexivity].
    intros i j t b l Hi Hj Ht. pose proof (double_point i j t Hi Hj Ht) as P.
    eexists. split; [|].
    2:{ destruct (add_node nodes1 vs1 d1 i 0 (zero_all t)) as [y|e]; cbn [bind] in P |- *; [|discriminate P]. rewrite P. cbn [bind]. rewrite all_init_some. cbn [bind]. reflexivity. }
    rewrite map_length, app_length. unfold point_at. rewrite !tab_length. reflexivity.
  Qed.

  Lemma double_integrate_ok f span1 span2 v1 v2 : (1 <= d1 <= 3)%nat -> (1 <= d2 <= 3)%nat -> is_simplex d1 vs1 -> is_simplex d2 vs2 ->
    shape d1 d1 span1 -> shape d2 d2 span2 -> is_volume d1 vs1 v1 -> is_volume d2 vs2 v2 ->
    double_integrate r s f vs1 vs2 span1 span2
    = Ok (weighted d1 n1 nodes1 weights1 vs1 (fun x => weighted d2 n2 nodes2 weights2 vs2 (fun y => f (x ++ y))) * (v1 * v2)).
  Proof using HT1 HT2 Hv1 Hw1 Hv2 Hw2.
    intros D1 D2 S1 S2 P1 P2 V1 V2. unfold double_integrate. rewrite double_weights_ok. cbn [bind]. rewrite all_init_some. cbn [bind].
    replace (num_nodes r) with n1 by (symmetry; apply (table_columns _ _ _ _ HT1)). replace (num_nodes s) with n2 by (symmetry; apply (table_columns _ _ _ _ HT2)).
    rewrite double_evalFun_ok. cbn [bind]. unfold r, s. rewrite (getSimplexVolume_ok d1 _ _ _ _ v1), (getSimplexVolume_ok d2 _ _ _ _ v2) by auto. cbn [bind].
    unfold listing at 2. rewrite eval_rule_ok by (unfold listing; apply tab_length). f_equal. f_equal. unfold weighted. rewrite sumf_pairs. apply sumf_ext. intros i Hi.
    rewrite <- sumf_scal. apply sumf_ext. intros j Hj. unfold listing. rewrite vat_tab by nia. rewrite pair_div, pair_mod by auto. ring.
  Qed.
End Double.

(** ** Boxes *)
Lemma box_fails a b row v u f fun_vals : length fun_vals = S (S (length row)) ->
  box_evalFun [a :: b :: row] f [[v]; [u]] fun_vals = Err EOob.
Proof.
  intros L. destruct fun_vals as [|x [|y t]]; try discriminate L. unfold box_evalFun, columns. cbn [length nth]. unfold for_range at 1. cbn [Nat.sub for_n].
  cbn -[Qcplus Qcmult Qcminus for_n]. reflexivity.
Qed.

(** ** In terms of rules *)
Lemma volume_exists d vs : exists vol, is_volume d vs vol.
Proof.
  assert (P : qz (Z.of_nat (fact d)) <> 0).
  { intros E. apply (proj1 (Q2Qc_eq_iff (inject_Z (Z.of_nat (fact d))) 0)) in E. pose proof (lt_O_fact d). unfold Qeq in E. cbn [Qnum Qden inject_Z] in E. lia. }
  exists (qabs (det d vs) / qz (Z.of_nat (fact d))). unfold is_volume.
  replace (qabs (det d vs) / qz (Z.of_nat (fact d)) * qz (Z.of_nat (fact d))) with (qabs (det d vs)); [apply qabs_magnitude|]. field. exact P.
Qed.
Lemma table_2D : node_table 2 3 quad_point2D_order2 weights2D_order2.
Proof. split; [reflexivity|]. split; [|reflexivity]. intros row [<-|[<-|[<-|[]]]]; reflexivity. Qed.
Lemma table_3D : node_table 3 5 quad_point3D_order3 weights3D_order3.
Proof. split; [reflexivity|]. split; [|reflexivity]. intros row [<-|[<-|[<-|[<-|[]]]]]; reflexivity. Qed.
Lemma exact_rules (r : rule) (d k : nat) vs f p tempVec span :
  (Gauss2D_order2 = Ok r /\ d = 2%nat /\ k = 2%nat \/ Gauss3D_order3 = Ok r /\ d = 3%nat /\ k = 3%nat) ->
  is_simplex d vs -> length tempVec = d -> shape d d span -> is_polynomial d vs f p -> deg_le d k p = true ->
  exists v, integrate r f vs tempVec span = Ok v /\ integral_over d vs p v.
Proof.
  intros HR H Lt HS HP HD. destruct (volume_exists d vs) as (vol & HV). destruct HR as [(E & -> & ->)|(E & -> & ->)]; injection E as <-; eexists.
  - split; [apply (integrate_ok 2 3) with (vol := vol); auto; apply table_2D|].
    apply (exact_on 2 2 3); auto using exact_2D.
  - split; [apply (integrate_ok 3 5) with (vol := vol); auto; apply table_3D|].
    apply (exact_on 3 3 5); auto using exact_3D.
Qed.
Lemma add_integrates d n n' nodes nodes' weights weights' :
  (1 <= d <= 3)%nat -> node_table d n nodes weights -> node_table d n' nodes' weights' ->
  exists r, add_rules (Rule d nodes weights) (Rule d nodes' weights') = Ok r /\
  forall vs f tempVec span, is_simplex d vs -> length tempVec = d -> shape d d span ->
  exists a b, integrate (Rule d nodes weights) f vs tempVec span = Ok a /\ integrate (Rule d nodes' weights') f vs tempVec span = Ok b /\
    integrate r f vs tempVec span = Ok (a + b).
Proof.
  intros Hd HT HT'. destruct (add_rules_ok d n n' nodes nodes' weights weights' Hd HT HT') as (c & E & HC & N). eexists. split; [exact E|].
  intros vs f tempVec span H Lt HS. destruct (volume_exists d vs) as (vol & HV). do 2 eexists. split; [eapply integrate_ok; eauto|]. split; [eapply integrate_ok; eauto|].
  rewrite (integrate_ok d (n + n') c (weights ++ weights') vs f tempVec span vol) by auto. f_equal.
  rewrite (weighted_add d n n' nodes nodes' weights weights' c) by auto. ring.
Qed.
Lemma transform_integrates nodes weights d n A b : (1 <= d <= 3)%nat -> node_table d n nodes weights ->
  length A = S d -> (forall row, In row A -> length row = S d) -> length b = S d ->
  exists r, transformed (Rule d nodes weights) A b = Ok r /\
  forall vs f tempVec span vol, is_simplex d vs -> length tempVec = d -> shape d d span -> is_volume d vs vol ->
  integrate r f vs tempVec span
  = Ok (sumf n (fun i => vat weights i * f (point_at d vs (fun k => vat b k + sumf (S d) (fun j => vat (nth k A []) j * coordinates nodes i j)))) * vol).
Proof.
  intros Hd HT HA HA' Hb. destruct (transformed_ok nodes weights d n HT A b HA HA' Hb Hd) as (nodes' & E & HN & C). eexists. split; [exact E|].
  intros vs f tempVec span vol H Lt HS HV. rewrite (integrate_ok d n nodes' weights vs f tempVec span vol) by auto. f_equal. f_equal. unfold weighted.
  apply sumf_ext. intros i Hi. f_equal. f_equal. unfold point_at. apply tab_ext. intros m Hm. apply sumf_ext. intros k Hk. rewrite C by auto. reflexivity.
Qed.
Lemma double_integrates d1 d2 n1 n2 nodes1 nodes2 vs1 vs2 weights1 weights2 f span1 span2 v1 v2 :
  node_table d1 n1 nodes1 weights1 -> node_table d2 n2 nodes2 weights2 -> (1 <= d1 <= 3)%nat -> (1 <= d2 <= 3)%nat ->
  is_simplex d1 vs1 -> is_simplex d2 vs2 -> shape d1 d1 span1 -> shape d2 d2 span2 -> is_volume d1 vs1 v1 -> is_volume d2 vs2 v2 ->
  double_integrate (Rule d1 nodes1 weights1) (Rule d2 nodes2 weights2) f vs1 vs2 span1 span2
  = Ok (weighted d1 n1 nodes1 weights1 vs1 (fun x => weighted d2 n2 nodes2 weights2 vs2 (fun y => f (x ++ y))) * (v1 * v2)).
Proof. intros T1 T2 D1 D2 S1 S2 P1 P2 V1 V2. apply double_integrate_ok; auto; try apply S1; apply S2. Qed.
Lemma reference_exact d k n nodes weights : (1 <= d <= 3)%nat -> node_table d n nodes weights -> exact_on_reference d k n nodes weights ->
  forall vs f p tempVec span, is_simplex d vs -> length tempVec = d -> shape d d span -> is_polynomial d vs f p -> deg_le d k p = true ->
  exists v, integrate (Rule d nodes weights) f vs tempVec span = Ok v /\ integral_over d vs p v.
Proof.
  intros Hd HT (HS & HE) vs f p tempVec span H Lt Hs HP HD. destruct (volume_exists d vs) as (vol & HV). eexists. split; [apply (integrate_ok d n) with (vol := vol); auto|].
  exists (vol * qz (Z.of_nat (fact d))). split; [exact HV|]. unfold weighted.
  rewrite (sumf_ext n _ (fun i => vat weights i * value d p (fun k => coordinates nodes i (S k)))) by (intros i Hi; f_equal; apply HP; auto).
  rewrite HE by auto. ring.
Qed.
Lemma check_reference d k n nodes weights : exact_check d k n nodes weights = true -> exact_on_reference d k n nodes weights.
Proof.
  intros HC. apply andb_prop in HC as [C1 C2]. rewrite forallb_forall in C1, C2. split.
  - intros i Hi. apply Qc_eq_bool_correct. apply C2. apply in_seq. lia.
  - intros p HD. assert (E : rule_error d n nodes weights p = 0).
    { apply (vanish d k); auto; [apply rule_error_functional|]. intros m Hm. apply Qc_eq_bool_correct. apply C1. auto. }
    unfold rule_error in E. set (S1 := sumf n _) in *. transitivity ((S1 + - (qz (Z.of_nat (fact d)) * integral d p)) + qz (Z.of_nat (fact d)) * integral d p); [ring|]. rewrite E. ring.
Qed.
