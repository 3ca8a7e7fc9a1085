(** Proofs about building the cluster tree. *)
From Coq Require Import Sorting.Permutation Sorting.Sorted Lqa.
From Verif Require Import Util Lin MeshGeom ClusterModel ClusterSpec.
Local Open Scope nat_scope.
Set Default Proof Using "Type".

(** ** Induction on trees *)
Section TreeInd.
  Variable Pr : tree -> Prop.
  Hypothesis H : forall x own cs, Forall Pr cs -> Pr (Tree x own cs).
  Fixpoint tree_ind2 (t : tree) : Pr t :=
    match t with Tree x own cs =>
      H x own cs ((fix go (l : list tree) : Forall Pr l :=
                     match l with [] => Forall_nil _ | c :: r => Forall_cons _ (tree_ind2 c) (go r) end) cs) end.
End TreeInd.

Lemma subtree_trans r s t : subtree r s -> subtree s t -> subtree r t.
Proof. intros H1 H2. induction H2; auto. econstructor; eauto. Qed.
Lemma subtree_inv s t : subtree s t -> s = t \/ exists c, In c (children t) /\ subtree s c.
Proof. intros H. inversion H; subst; eauto. Qed.

(** ** Comparisons *)
Lemma qle_true a b : qle a b = true <-> (a <= b)%Qc.
Proof. unfold qle, Qcle. apply Qle_bool_iff. Qed.
Lemma qle_false a b : qle a b = false <-> (b < a)%Qc.
Proof.
  unfold qle, Qclt. split; intros H.
  - apply Qnot_le_lt. intros C. apply Qle_bool_iff in C. congruence.
  - destruct (Qle_bool a b) eqn:E; auto. apply Qle_bool_iff in E. exfalso. eapply Qle_not_lt; eauto.
Qed.
Lemma qlt_true a b : qlt a b = true <-> (a < b)%Qc.
Proof. unfold qlt. rewrite negb_true_iff. apply qle_false. Qed.
Lemma qlt_false a b : qlt a b = false <-> (b <= a)%Qc.
Proof. unfold qlt. rewrite negb_false_iff. apply qle_true. Qed.
Lemma qmin_le_l a b : (qmin a b <= a)%Qc.
Proof. unfold qmin. destruct (qle a b) eqn:E; [apply Qcle_refl|]. apply qle_false in E. qclra. Qed.
Lemma qmin_le_r a b : (qmin a b <= b)%Qc.
Proof. unfold qmin. destruct (qle a b) eqn:E; [|apply Qcle_refl]. apply qle_true in E. auto. Qed.
Lemma qmin_cases a b : qmin a b = a \/ qmin a b = b.
Proof. unfold qmin. destruct (qle a b); auto. Qed.
Lemma qmax_ge_l a b : (a <= qmax a b)%Qc.
Proof. unfold qmax. destruct (qle a b) eqn:E; [|apply Qcle_refl]. apply qle_true in E. auto. Qed.
Lemma qmax_ge_r a b : (b <= qmax a b)%Qc.
Proof. unfold qmax. destruct (qle a b) eqn:E; [apply Qcle_refl|]. apply qle_false in E. qclra. Qed.
Lemma qmax_cases a b : qmax a b = a \/ qmax a b = b.
Proof. unfold qmax. destruct (qle a b); auto. Qed.

(** ** Increasing lists *)
Lemma insert_in i j l : In j (insert i l) <-> j = i \/ In j l.
Proof.
  induction l as [|a l IH]; cbn [insert].
  - cbn. intuition.
  - destruct (Nat.ltb_spec i a); [cbn; intuition|]. destruct (Nat.eqb_spec i a); [subst; cbn; intuition|].
    cbn [In]. rewrite IH. intuition.
Qed.
Lemma insert_inc i l : increasing l -> increasing (insert i l).
Proof.
  unfold increasing. induction l as [|a l IH]; cbn [insert]; intros H.
  - repeat constructor.
  - inversion H; subst. destruct (Nat.ltb_spec i a).
    + constructor; auto. constructor; auto. eapply Forall_impl; [|exact H3]. intros; lia.
    + destruct (Nat.eqb_spec i a); auto. constructor; auto. apply Forall_forall. intros j Hj.
      apply insert_in in Hj as [->|Hj]; [lia|]. rewrite Forall_forall in H3. auto.
Qed.
Lemma union_in a b j : In j (union a b) <-> In j a \/ In j b.
Proof.
  unfold union. induction a as [|i a IH]; cbn [fold_right]; [cbn; tauto|].
  rewrite insert_in, IH. cbn. intuition.
Qed.
Lemma union_inc a b : increasing b -> increasing (union a b).
Proof. intros H. unfold union. induction a as [|i a IH]; cbn [fold_right]; auto using insert_inc. Qed.
Lemma unions_in ls : forall a j, In j (fold_left union ls a) <-> In j a \/ exists l, In l ls /\ In j l.
Proof.
  induction ls as [|l ls IH]; intros a j; cbn [fold_left].
  - split; [auto|]. intros [H|(l & [] & _)]; auto.
  - rewrite IH, union_in. split.
    + intros [[H|H]|(m & Hm & H)]; [auto|right; exists l; cbn; auto|right; exists m; cbn; auto].
    + intros [H|(m & [->|Hm] & H)]; eauto.
Qed.
Lemma unions_inc ls : forall a, increasing a -> Forall increasing ls -> increasing (fold_left union ls a).
Proof.
  induction ls as [|l ls IH]; intros a Ha H; cbn [fold_left]; auto.
  inversion H; subst. apply IH; auto. apply union_inc; auto.
Qed.
Lemma inc_nodup l : increasing l -> NoDup l.
Proof.
  induction l as [|a l IH]; intros H; constructor; inversion H; subst; auto.
  intros C. rewrite Forall_forall in H3. apply H3 in C. lia.
Qed.
Lemma inc_ext a : forall b, increasing a -> increasing b -> (forall i, In i a <-> In i b) -> a = b.
Proof.
  induction a as [|x a IH]; intros [|y b] Ha Hb E; auto.
  - exfalso. apply (E y). left; auto.
  - exfalso. apply (E x). left; auto.
  - inversion Ha as [|? ? Ha1 Ha2]; inversion Hb as [|? ? Hb1 Hb2]; subst. rewrite Forall_forall in Ha2, Hb2.
    assert (x = y).
    { destruct (proj1 (E x) (or_introl eq_refl)) as [|Hx]; auto. destruct (proj2 (E y) (or_introl eq_refl)) as [|Hy]; auto.
      apply Hb2 in Hx. apply Ha2 in Hy. lia. }
    subst y. f_equal. apply IH; auto. intros i. split; intros Hi.
    + destruct (proj1 (E i) (or_intror Hi)) as [<-|]; auto. apply Ha2 in Hi. lia.
    + destruct (proj2 (E i) (or_intror Hi)) as [<-|]; auto. apply Hb2 in Hi. lia.
Qed.
Lemma filter_inc f l : increasing l -> increasing (filter f l).
Proof.
  unfold increasing. induction l as [|a l IH]; cbn [filter]; intros H; auto. inversion H; subst.
  destruct (f a); auto. constructor; auto. apply Forall_forall. intros j Hj. apply filter_In in Hj as [Hj _].
  rewrite Forall_forall in H3. auto.
Qed.

(** ** Splitting a list by a test or by a key *)
Lemma filter_split {A} (f g : A -> bool) l : (forall i, In i l -> g i = negb (f i)) ->
  Permutation l (filter f l ++ filter g l).
Proof.
  induction l as [|a l IH]; intros H; cbn [filter]; auto.
  rewrite (H a) by (left; auto). destruct (f a); cbn [negb app].
  - constructor. apply IH. intros; apply H; right; auto.
  - apply Permutation_cons_app. apply IH. intros; apply H; right; auto.
Qed.
Lemma filter_filter {A} (f g : A -> bool) l : filter f (filter g l) = filter (fun i => g i && f i) l.
Proof. induction l as [|a l IH]; cbn [filter]; auto. destruct (g a); cbn [filter andb]; [destruct (f a)|]; rewrite IH; auto. Qed.
Lemma filter_key (f : nat -> nat) l n : Permutation (filter (fun i => f i <? n) l)
  (flat_map (fun k => filter (fun i => f i =? k) l) (seq 0 n)).
Proof.
  induction n as [|n IH].
  - cbn. replace (filter _ l) with (@nil nat); auto. induction l as [|a l IHl]; cbn [filter]; auto.
  - rewrite seq_S, flat_map_app. cbn [flat_map plus]. rewrite app_nil_r, <- IH.
    rewrite (filter_split (fun i => f i <? n) (fun i => negb (f i <? n)) (filter (fun i => f i <? S n) l)) by auto.
    rewrite !filter_filter. apply Permutation_app.
    + apply Permutation_refl', filter_ext. intros i. destruct (Nat.ltb_spec (f i) (S n)), (Nat.ltb_spec (f i) n); cbn; auto; lia.
    + apply Permutation_refl', filter_ext. intros i.
      destruct (Nat.ltb_spec (f i) (S n)), (Nat.ltb_spec (f i) n), (Nat.eqb_spec (f i) n); cbn; auto; lia.
Qed.
Lemma filter_all {A} (f : A -> bool) l : (forall i, In i l -> f i = true) -> filter f l = l.
Proof. induction l as [|a l IH]; cbn [filter]; intros H; auto. rewrite H by (left; auto). f_equal. apply IH. intros; apply H; right; auto. Qed.

(** ** Degrees of freedom of a node *)
Lemma get_dofs_node x own c cs : get_dofs (Tree x own (c :: cs)) = fold_left union (map get_dofs (c :: cs)) [].
Proof. reflexivity. Qed.
Lemma get_num_node x own c cs : get_num_dofs (Tree x own (c :: cs)) = fold_left Nat.add (map get_num_dofs (c :: cs)) 0.
Proof. reflexivity. Qed.
Lemma fold_add l : forall a, fold_left Nat.add l a = a + list_sum l.
Proof.
  induction l as [|x l IH]; intros a; cbn [fold_left]; [cbn; lia|]. rewrite IH.
  change (list_sum (x :: l)) with (x + list_sum l). lia.
Qed.
Lemma get_dofs_split x own cs dofs : cs <> [] -> increasing dofs -> Forall (fun c => increasing (get_dofs c)) cs ->
  Permutation dofs (flat_map get_dofs cs) -> get_dofs (Tree x own cs) = dofs.
Proof.
  intros Hn Hd Hc Hp. destruct cs as [|c cs]; [congruence|]. rewrite get_dofs_node.
  apply inc_ext; auto.
  - apply unions_inc; [constructor|]. apply Forall_map. auto.
  - intros i. rewrite unions_in. split.
    + intros [[]|(l & Hl & Hi)]. apply in_map_iff in Hl as (s & <- & Hs).
      apply (Permutation_in i (Permutation_sym Hp)). apply in_flat_map. eauto.
    + intros Hi. right. apply (Permutation_in i Hp) in Hi. apply in_flat_map in Hi as (s & Hs & Hi).
      exists (get_dofs s). split; auto. apply in_map. auto.
Qed.
Lemma get_num_split x own cs : cs <> [] -> Forall (fun c => get_num_dofs c = length (get_dofs c)) cs ->
  get_num_dofs (Tree x own cs) = length (flat_map get_dofs cs).
Proof.
  intros Hn H. destruct cs as [|c cs]; [congruence|]. rewrite get_num_node, fold_add. cbn [plus].
  clear Hn. induction H as [|s l E _ IH]; auto. cbn [map list_sum fold_right flat_map]. rewrite app_length, <- E.
  unfold list_sum in IH. rewrite IH. reflexivity.
Qed.

(** ** New nodes *)
Lemma new_node_ok D par s mx can c : new_node D par s mx can = Ok c ->
  levelNo c = S (levelNo par) /\ mixed c = mx /\ canBeAssembled c = can /\ nbox c = init_box D s /\ hmin c = init_hmin D s /\
  order c = orderOf D (init_hmin D s).
Proof.
  unfold new_node. destruct (negb _ || _); cbn [guard bind]; intros E; inversion E; subst; auto.
  repeat split; auto.
Qed.

Definition made (D : data) (b R : Z) (x : info) (P : refinementParams) (num k : nat) (c : part) : Prop :=
  id (fst c) = child_id b R x k /\ levelNo (fst c) = S (levelNo x) /\ mixed (fst c) = mixed x /\ canBeAssembled (fst c) = true /\
  nbox (fst c) = init_box D (snd c) /\ hmin (fst c) = init_hmin D (snd c) /\ order (fst c) = orderOf D (init_hmin D (snd c)) /\
  minSize P <= length (snd c) < num /\ increasing (snd c).
Definition all_made D b R x P num (ch : list part) : Prop := forall k c, nth_error ch k = Some c -> made D b R x P num k c.

Lemma enough_true P num s : enough P num s = true <-> minSize P <= length s < num.
Proof. unfold enough. rewrite andb_true_iff, Nat.leb_le, Nat.ltb_lt. tauto. Qed.

Lemma append_child_ok D b R x P num ch k s ch' : all_made D b R x P num ch -> length ch <= k -> enough P num s = true -> increasing s ->
  append_child D b R x ch k s = Ok ch' -> length ch' = S k /\ all_made D b R x P num ch' /\ flat_map snd ch' = flat_map snd ch ++ s /\
    length ch = k.
Proof.
  intros Ha Hk He Hi. unfold append_child. destruct (new_node _ _ _ _ _) as [c|e] eqn:Ec; cbn [bind]; [|discriminate].
  unfold set_child_id. destruct (nth_error (ch ++ [(c, s)]) k) as [[c0 s0]|] eqn:En; [|discriminate].
  assert (k = length ch).
  { assert (k < length (ch ++ [(c, s)])) by (apply nth_error_Some; congruence). rewrite app_length in H. cbn in H. lia. }
  subst k. rewrite nth_error_app2, Nat.sub_diag in En by lia. cbn in En. inversion En; subst c0 s0.
  intros E. inversion E; subst ch'. rewrite upd_middle. apply enough_true in He.
  split; [rewrite app_length; cbn; lia|]. split; [|split; auto].
  - intros j c1 Hj. destruct (Nat.lt_ge_cases j (length ch)).
    + rewrite nth_error_app1 in Hj by auto. apply Ha; auto.
    + rewrite nth_error_app2 in Hj by auto. destruct (j - length ch) as [|m] eqn:Em; [|destruct m; discriminate].
      cbn in Hj. inversion Hj; subst c1. replace j with (length ch) by lia. apply new_node_ok in Ec as (E1 & E2 & E3 & E4 & E5 & E6).
      unfold made. cbn [fst snd with_id id levelNo mixed canBeAssembled nbox hmin order].
      split; [reflexivity|]. repeat (split; [assumption|]). assumption.
  - rewrite flat_map_app. cbn [flat_map snd]. rewrite app_nil_r. reflexivity.
Qed.

Lemma two_children_ok D P R x num s0 s1 ch : increasing s0 -> increasing s1 -> two_children D P R x num s0 s1 = Ok (Some ch) ->
  length ch = 2 /\ all_made D 2 R x P num ch /\ flat_map snd ch = s0 ++ s1.
Proof.
  intros I0 I1. unfold two_children. destruct (enough P num s0) eqn:E0; [|discriminate].
  destruct (append_child D 2 R x [] 0 s0) as [c0|e] eqn:A0; cbn [bind]; [|discriminate].
  apply (append_child_ok _ _ _ _ P num) in A0 as (L0 & M0 & F0 & _); auto; [|intros [|k] c; discriminate].
  destruct (enough P num s1) eqn:E1; [|discriminate].
  destruct (append_child D 2 R x c0 1 s1) as [c1|e] eqn:A1; cbn [bind]; [|discriminate].
  apply (append_child_ok _ _ _ _ P num) in A1 as (L1 & M1 & F1 & _); auto; [|lia].
  intros E. inversion E; subst. rewrite F1, F0. auto.
Qed.

Lemma quad_step_ok D P R x num k s ch ch' : all_made D 4 R x P num ch -> length ch <= k -> increasing s ->
  quad_step D P R x num (k, s) (Some ch) = Ok (Some ch') ->
  length ch' <= S k /\ all_made D 4 R x P num ch' /\ flat_map snd ch' = flat_map snd ch ++ s.
Proof.
  intros Ha Hk Hi. unfold quad_step. cbn [fst snd]. destruct (enough P num s) eqn:E0.
  - destruct (append_child D 4 R x ch k s) as [c0|e] eqn:A0; cbn [bind]; [|discriminate].
    apply (append_child_ok _ _ _ _ P num) in A0 as (L0 & M0 & F0 & _); auto. intros E. inversion E; subst. split; [lia|]. auto.
  - destruct (Nat.eqb_spec (length s) 0) as [Hl|Hl]; [|discriminate]. intros E. inversion E; subst.
    destruct s; [|cbn in Hl; discriminate]. rewrite app_nil_r. split; auto.
Qed.
Lemma quad_step_none D P R x num ks : quad_step D P R x num ks None = Ok None.
Proof. reflexivity. Qed.
Lemma quad_loop_none D P R x num l : for_list l (quad_step D P R x num) None = Ok None.
Proof. induction l as [|a l IH]; cbn [for_list]; auto. Qed.
Lemma quad_loop_ok D P R x num (f : nat -> list nat) n : (forall k, increasing (f k)) -> forall k ch ch', all_made D 4 R x P num ch -> length ch <= k ->
  for_list (map (fun k => (k, f k)) (seq k n)) (quad_step D P R x num) (Some ch) = Ok (Some ch') ->
  length ch' <= k + n /\ all_made D 4 R x P num ch' /\ flat_map snd ch' = flat_map snd ch ++ flat_map f (seq k n).
Proof.
  intros Hf. induction n as [|n IH]; intros k ch ch' Ha Hk; cbn [seq map for_list].
  - intros E. inversion E; subst. cbn. rewrite app_nil_r. split; [lia|]. auto.
  - destruct (quad_step D P R x num (k, f k) (Some ch)) as [[c1|]|e] eqn:E1; cbn [bind]; [| |discriminate].
    + apply quad_step_ok in E1 as (L1 & M1 & F1); auto. intros E. apply IH in E as (L & M & F); auto. split; [lia|]. split; auto.
      rewrite F, F1. cbn [flat_map]. rewrite app_assoc. reflexivity.
    + rewrite quad_loop_none. discriminate.
Qed.
Lemma quadrant_lt D a b i : quadrant D a b i < 4.
Proof. unfold quadrant. destruct (qlt a _), (qlt b _); lia. Qed.
Lemma quadrants_ok D P R x dofs ch : increasing dofs -> quadrants D P R x dofs = Ok (Some ch) ->
  length ch <= 4 /\ all_made D 4 R x P (length dofs) ch /\ Permutation dofs (flat_map snd ch).
Proof.
  intros Hi. unfold quadrants. destruct (match refType P with GEOMETRIC => _ | _ => _ end) as [a b]. intros E.
  apply (quad_loop_ok D P R x (length dofs) (fun k => filter (fun i => quadrant D a b i =? k) dofs)) in E as (L & M & F); auto.
  - split; [lia|]. split; auto. rewrite F. cbn [flat_map app]. rewrite <- (filter_key (quadrant D a b) dofs 4).
    rewrite filter_all; auto. intros i _. apply Nat.ltb_lt. apply quadrant_lt.
  - intros k. apply filter_inc; auto.
  - intros [|k] c; discriminate.
Qed.

Lemma median_half_ok D P R x num p blob ch ch' : all_made D 4 R x P num ch -> length ch <= p * 2 -> increasing blob ->
  median_half D P R x num p blob (Some ch) = Ok (Some ch') ->
  length ch' = p * 2 + 2 /\ all_made D 4 R x P num ch' /\ Permutation (flat_map snd ch') (flat_map snd ch ++ blob).
Proof.
  intros Ha Hk Hi. unfold median_half. set (m1 := median _ _).
  destruct (quad_step _ _ _ _ _ _ _) as [[c0|]|e] eqn:E0; cbn [bind]; [|discriminate|discriminate].
  apply quad_step_ok in E0 as (L0 & M0 & F0); auto; [|lia|apply filter_inc; auto].
  set (s1 := filter _ blob). destruct (enough P num s1) eqn:E1; [|discriminate].
  destruct (append_child D 4 R x c0 (p * 2 + 1) s1) as [c1|e] eqn:A1; cbn [bind]; [|discriminate].
  apply (append_child_ok _ _ _ _ P num) in A1 as (L1 & M1 & F1 & _); auto; [|lia|apply filter_inc; auto].
  intros E. inversion E; subst. split; [lia|]. split; auto. rewrite F1, F0, <- app_assoc. apply Permutation_app_head.
  symmetry. apply filter_split. auto.
Qed.
Lemma medians_ok D P R x dofs ch : increasing dofs -> medians D P R x dofs = Ok (Some ch) ->
  length ch <= 4 /\ all_made D 4 R x P (length dofs) ch /\ Permutation dofs (flat_map snd ch).
Proof.
  intros Hi. unfold medians. set (m0 := median _ _).
  destruct (median_half D P R x (length dofs) 0 _ (Some [])) as [[c0|]|e] eqn:E0; cbn [bind]; [| |discriminate].
  - apply median_half_ok in E0 as (L0 & M0 & F0); [|intros [|k] c; discriminate|cbn; lia|apply filter_inc; auto].
    intros E. apply median_half_ok in E as (L1 & M1 & F1); auto; [|lia|apply filter_inc; auto]. split; [lia|]. split; auto.
    rewrite F1, F0. cbn [flat_map app]. apply filter_split. intros i _. unfold qlt, qle. rewrite negb_involutive. reflexivity.
  - discriminate.
Qed.

(** The base of the numbering of the children. *)
Definition fan (P : refinementParams) (x : info) : Z :=
  if (length (nbox x) =? 2) && (negb (mixed x) && splitEveryDim P) then 4 else 2.

Lemma refine_ok D P R x dofs ch : increasing dofs -> refine D P R x dofs = Ok ch -> ch <> [] ->
  2 <= length ch /\ (Z.of_nat (length ch) <= fan P x)%Z /\ all_made D (fan P x) R x P (length dofs) ch /\ Permutation dofs (flat_map snd ch) /\
  (mixed x = false -> levelNo x + 1 < maxLevels P) /\ (mixed x = true -> levelNo x + 1 < maxLevelsMixed P).
Proof.
  intros Hi. unfold refine. destruct (if mixed x then _ else _) eqn:Es; [intros E; inversion E; congruence|].
  set (act := if length (nbox x) =? 1 then _ else _).
  destruct act as [[c|]|e] eqn:Ea; cbn [bind]; [|intros E; inversion E; congruence|discriminate].
  destruct (Nat.leb_spec (length c) 1); [intros E; inversion E; congruence|].
  destruct ((_ =? 0) || _) eqn:E1; cbn [guard bind]; [|discriminate]. destruct (_ =? length dofs) eqn:E2; cbn [guard bind]; [|discriminate].
  intros E _. inversion E; subst c. split; [lia|].
  assert (Hlev : (mixed x = false -> levelNo x + 1 < maxLevels P) /\ (mixed x = true -> levelNo x + 1 < maxLevelsMixed P)).
  { split; intros Hm; rewrite Hm in Es; apply orb_false_iff in Es as [Es _]; apply Nat.leb_gt in Es; lia. }
  assert (G : (Z.of_nat (length ch) <= fan P x)%Z /\ all_made D (fan P x) R x P (length dofs) ch /\ Permutation dofs (flat_map snd ch)); [|tauto].
  unfold act, fan in *. destruct (Nat.eqb_spec (length (nbox x)) 1) as [Hd|Hd].
  - rewrite Hd. cbn [Nat.eqb andb]. destruct (split1 D P x dofs) as [s0 s1] eqn:Ep. unfold split1 in Ep. inversion Ep; subst s0 s1.
    apply two_children_ok in Ea as (L & M & F); try (apply filter_inc; assumption).
    split; [lia|]. split; auto. rewrite F. apply filter_split. auto.
  - destruct ((length (nbox x) =? 2) && _) eqn:Eq.
    + assert (G : length ch <= 4 /\ all_made D 4 R x P (length dofs) ch /\ Permutation dofs (flat_map snd ch)); [|destruct G as (? & ? & ?); split; [lia|]; auto].
      destruct (refType P); [apply quadrants_ok in Ea|apply quadrants_ok in Ea|apply medians_ok in Ea]; auto.
    + destruct (split_longest D P x dofs) as [s0 s1] eqn:Ep. unfold split_longest in Ep. inversion Ep; subst s0 s1.
      apply two_children_ok in Ea as (L & M & F); try (apply filter_inc; assumption).
      split; [lia|]. split; auto. rewrite F. apply filter_split. auto.
Qed.
