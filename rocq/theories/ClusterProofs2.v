(** Proofs about the refined tree: partition, boxes, identification numbers,
    failures. *)
From Coq Require Import Sorting.Permutation Sorting.Sorted Lqa.
From Verif Require Import Util Lin MeshGeom ClusterModel ClusterSpec ClusterProofs.
Local Open Scope nat_scope.
Set Default Proof Using "Type".

Lemma mapM_ok {A B} (f : A -> res B) l : forall r, mapM f l = Ok r -> Forall2 (fun a b => f a = Ok b) l r.
Proof.
  induction l as [|a l IH]; intros r; cbn [mapM].
  - intros E. inversion E. constructor.
  - destruct (f a) as [b|e] eqn:Ea; cbn [bind]; [|discriminate]. destruct (mapM f l) as [bs|e] eqn:El; cbn [bind]; [|discriminate].
    intros E. inversion E; subst. constructor; auto.
Qed.
Lemma mapM_err {A B} (f : A -> res B) l e : mapM f l = Err e -> exists a, In a l /\ f a = Err e.
Proof.
  induction l as [|a l IH]; cbn [mapM]; [discriminate|].
  destruct (f a) as [b|e'] eqn:Ea; cbn [bind].
  - destruct (mapM f l) as [bs|e'] eqn:El; cbn [bind]; [discriminate|]. intros E. inversion E; subst.
    destruct (IH eq_refl) as (a' & Ha & E'). exists a'. cbn; auto.
  - intros E. inversion E; subst. exists a. cbn; auto.
Qed.
Lemma Forall2_in_r {A B} (Pr : A -> B -> Prop) l r b : Forall2 Pr l r -> In b r -> exists a, In a l /\ Pr a b.
Proof. induction 1 as [|a b' l r H _ IH]; intros Hb; [destruct Hb|]. destruct Hb as [->|Hb]; [exists a; cbn; auto|]. destruct (IH Hb) as (a' & Ha & Hp). exists a'. cbn; auto. Qed.
Lemma Forall2_nth_r {A B} (Pr : A -> B -> Prop) l r : Forall2 Pr l r -> forall k b, nth_error r k = Some b ->
  exists a, nth_error l k = Some a /\ Pr a b.
Proof.
  induction 1 as [|a b' l r H _ IH]; intros k b Hb; [destruct k; discriminate|]. destruct k; cbn in *.
  - inversion Hb; subst. eauto.
  - eauto.
Qed.

(** ** The tree *)
(** What is known of a node made by [refine]. *)
Definition node_made (D : data) (P : refinementParams) (x : info) (s : tree) : Prop :=
  mixed (info_of s) = mixed x /\ canBeAssembled (info_of s) = true /\
  nbox (info_of s) = init_box D (get_dofs s) /\ order (info_of s) = orderOf D (init_hmin D (get_dofs s)) /\
  minSize P <= length (get_dofs s).

Lemma partitioned_leaf x own : increasing own -> partitioned (Tree x own []).
Proof.
  intros H s Hs. apply subtree_inv in Hs as [->|(c & [] & _)]. cbn [get_dofs get_num_dofs children]. split; auto. split; auto.
  congruence.
Qed.
Lemma partitioned_node x own cs : cs <> [] -> Forall partitioned cs -> NoDup (flat_map get_dofs cs) ->
  partitioned (Tree x own cs).
Proof.
  intros Hn Hc Hd s Hs. apply subtree_inv in Hs as [->|(c & Hin & Hs)].
  - assert (I : Forall (fun c => increasing (get_dofs c)) cs).
    { eapply Forall_impl; [|exact Hc]. intros c H. apply (H c (sub_refl c)). }
    assert (E : increasing (get_dofs (Tree x own cs)) /\ Permutation (get_dofs (Tree x own cs)) (flat_map get_dofs cs)).
    { destruct cs as [|c cs]; [congruence|]. rewrite get_dofs_node.
      assert (J : increasing (fold_left union (map get_dofs (c :: cs)) [])) by (apply unions_inc; [constructor|apply Forall_map; auto]).
      split; auto. apply NoDup_Permutation; auto using inc_nodup. intros i. rewrite unions_in, in_flat_map. split.
      - intros [[]|(l & Hl & Hi)]. apply in_map_iff in Hl as (t & <- & Ht). eauto.
      - intros (t & Ht & Hi). right. exists (get_dofs t). split; auto. apply in_map; auto. }
    destruct E as [E1 E2]. split; auto. split; [|intros _; exact E2].
    rewrite (Permutation_length E2). apply get_num_split; auto.
    eapply Forall_impl; [|exact Hc]. intros c H. apply (H c (sub_refl c)).
  - rewrite Forall_forall in Hc. apply (Hc c Hin); auto.
Qed.

Lemma flat_map_F2 {A B C} (f : A -> list C) (g : B -> list C) l r : Forall2 (fun a b => f a = g b) l r -> flat_map f l = flat_map g r.
Proof. induction 1; cbn [flat_map]; congruence. Qed.

Lemma refine_tree_S D P f R x dofs t : refine_tree (S f) D P R x dofs = Ok t ->
  exists ch, refine D P R x dofs = Ok ch /\
    ((ch = [] /\ t = Tree x dofs []) \/
     (ch <> [] /\ exists ts, t = Tree x [] ts /\
        Forall2 (fun c t => refine_tree f D P (if levelNo x =? 0 then Z.of_nat (length ch) else R) (fst c) (snd c) = Ok t) ch ts)).
Proof.
  cbn [refine_tree]. destruct (refine D P R x dofs) as [ch|e]; cbn [bind]; [|discriminate].
  intros E. exists ch. split; auto. destruct ch as [|c ch]; [inversion E; auto|]. right. split; [congruence|].
  set (R' := if levelNo x =? 0 then Z.of_nat (length (c :: ch)) else R) in *.
  destruct (mapM (fun c => refine_tree f D P R' (fst c) (snd c)) (c :: ch)) as [ts|e] eqn:Em; cbn [bind] in E; [|discriminate]. inversion E; subst. exists ts. split; auto.
  apply (mapM_ok (fun c => refine_tree f D P R' (fst c) (snd c))). exact Em.
Qed.

Lemma Forall2_imp2 {A B} (Pr Q : A -> B -> Prop) l r : Forall2 Pr l r -> (forall a b, In a l -> Pr a b -> Q a b) -> Forall2 Q l r.
Proof.
  induction 1 as [|a b l r H _ IH]; intros HI; constructor.
  - apply HI; cbn; auto.
  - apply IH. intros; apply HI; cbn; auto.
Qed.
Lemma made_of_in D b R x P num ch c : all_made D b R x P num ch -> In c ch -> exists k, made D b R x P num k c.
Proof. intros H Hc. apply In_nth_error in Hc as (k & Hk). exists k. apply H; auto. Qed.
Lemma F2_length {A B} (Pr : A -> B -> Prop) l r : Forall2 Pr l r -> length l = length r.
Proof. induction 1; cbn; auto. Qed.
Lemma F2_nil {A B} (Pr : A -> B -> Prop) l : Forall2 Pr l [] -> l = [].
Proof. intros H. inversion H; auto. Qed.

Lemma refine_tree_ok D P : forall fuel R x dofs t, increasing dofs -> refine_tree fuel D P R x dofs = Ok t ->
  info_of t = x /\ get_dofs t = dofs /\ partitioned t /\
  (forall s, subtree s t -> s = t \/ node_made D P x s) /\ (forall s, subtree s t -> branching P s).
Proof.
  induction fuel as [|fuel IH]; intros R x dofs t Hi E; [discriminate|].
  apply refine_tree_S in E as (ch & Er & [(-> & ->)|(Hn & ts & -> & F)]).
  - cbn [info_of get_dofs]. split; auto. split; auto. split; [apply partitioned_leaf; auto|]. split.
    + intros s Hs. apply subtree_inv in Hs as [->|(c & [] & _)]. auto.
    + intros s Hs. apply subtree_inv in Hs as [->|(c & [] & _)]. intros C. cbn in C. congruence.
  - destruct (refine_ok _ _ _ _ _ _ Hi Er Hn) as (L2 & Lf & M & Hp & Hl1 & Hl2).
    set (R' := if levelNo x =? 0 then _ else R) in *.
    assert (G : Forall2 (fun c t => info_of t = fst c /\ get_dofs t = snd c /\ partitioned t /\
       (forall s, subtree s t -> s = t \/ node_made D P (fst c) s) /\ (forall s, subtree s t -> branching P s)) ch ts).
    { eapply Forall2_imp2; [exact F|]. intros c t Hc E. cbn beta in E. apply (IH R'); auto.
      destruct (made_of_in _ _ _ _ _ _ _ _ M Hc) as (k & Hk). apply Hk. }
    assert (Hts : ts <> []) by (intros ->; apply F2_nil in F; auto).
    assert (Ef : flat_map get_dofs ts = flat_map snd ch).
    { symmetry. apply flat_map_F2. eapply Forall2_imp2; [exact G|]. cbn beta. intros c t _ H. symmetry. apply H. }
    assert (Hpt : Forall partitioned ts).
    { apply Forall_forall. intros t Ht. destruct (Forall2_in_r _ _ _ _ G Ht) as (c & _ & H). apply H. }
    assert (Ed : get_dofs (Tree x [] ts) = dofs).
    { apply get_dofs_split; auto; [|rewrite Ef; auto]. apply Forall_forall. intros t Ht. rewrite Forall_forall in Hpt.
      apply (Hpt t Ht t (sub_refl t)). }
    cbn [info_of]. split; auto. split; auto. split; [|split].
    + apply partitioned_node; auto. rewrite Ef. eapply Permutation_NoDup; [exact Hp|]. apply inc_nodup; auto.
    + intros s Hs. apply subtree_inv in Hs as [->|(t & Ht & Hs)]; auto. right. cbn [children] in Ht.
      destruct (Forall2_in_r _ _ _ _ G Ht) as (c & Hc & E1 & E2 & _ & E3 & _).
      destruct (made_of_in _ _ _ _ _ _ _ _ M Hc) as (k & M1 & M2 & M3 & M4 & M5 & M6 & M7 & M8 & M9).
      destruct (E3 s Hs) as [->|(N1 & N2 & N3 & N4 & N5)].
      * unfold node_made. rewrite E1, E2. split; auto. split; auto. split; auto. split; auto. lia.
      * unfold node_made. rewrite N1, M3. auto.
    + intros s Hs. apply subtree_inv in Hs as [->|(t & Ht & Hs)].
      * intros _. cbn [children info_of]. rewrite Ed. split; [rewrite <- (F2_length _ _ _ F); auto|]. split; auto. split; auto.
        intros t Ht. destruct (Forall2_in_r _ _ _ _ G Ht) as (c & Hc & E1 & E2 & _).
        destruct (made_of_in _ _ _ _ _ _ _ _ M Hc) as (k & M1 & M2 & _ & _ & _ & _ & _ & M8 & _).
        rewrite E1, E2. split; [lia|auto].
      * cbn [children] in Ht. destruct (Forall2_in_r _ _ _ _ G Ht) as (c & Hc & _ & _ & _ & _ & E4). auto.
Qed.

(** ** Leaves *)
Lemma leaves_perm : forall t, partitioned t -> Permutation (get_dofs t) (flat_map get_dofs (leaves t)).
Proof.
  induction t as [x own cs IH] using tree_ind2. intros Hp. destruct cs as [|c cs].
  - cbn [leaves flat_map]. rewrite app_nil_r. reflexivity.
  - destruct (Hp _ (sub_refl _)) as (_ & _ & H). cbn [children] in H. rewrite H by congruence.
    change (leaves (Tree x own (c :: cs))) with (flat_map leaves (c :: cs)).
    assert (Hpc : Forall partitioned (c :: cs)).
    { apply Forall_forall. intros d Hd s Hs. apply Hp. econstructor; eauto. }
    clear H Hp. induction IH as [|d l H _ IHl]; cbn [flat_map]; auto. inversion Hpc; subst.
    rewrite flat_map_app. apply Permutation_app; auto.
Qed.

(** ** Boxes *)
Lemma merge_nth b1 b2 k p : nth_error (merge_boxes b1 b2) k = Some p -> exists p1 p2,
  nth_error b1 k = Some p1 /\ nth_error b2 k = Some p2 /\ p = (qmin (fst p1) (fst p2), qmax (snd p1) (snd p2)).
Proof.
  unfold merge_boxes. revert b2 k. induction b1 as [|a b1 IH]; intros [|b b2] [|k]; cbn [combine map nth_error]; try discriminate.
  - intros E. inversion E; subst. exists a, b. auto.
  - apply IH.
Qed.
Lemma merge_length b1 b2 : length (merge_boxes b1 b2) = Nat.min (length b1) (length b2).
Proof. unfold merge_boxes. rewrite map_length, combine_length. reflexivity. Qed.

Lemma init_box_fold D d : proper_boxes D d -> forall r done b, hull D d done b ->
  hull D d (done ++ r) (fold_left (fun b i => merge_boxes b (boxes D i)) r b).
Proof.
  intros HD. induction r as [|i r IH]; intros done b Hb; cbn [fold_left]; [rewrite app_nil_r; auto|].
  replace (done ++ i :: r) with ((done ++ [i]) ++ r) by (rewrite <- app_assoc; auto). apply IH.
  destruct Hb as (Hl & Hb). destruct (HD i) as (Hli & Hpi). split; [rewrite merge_length; lia|].
  intros k p Hk. apply merge_nth in Hk as (p1 & p2 & H1 & H2 & ->). cbn [fst snd]. destruct (Hb k p1 H1) as (B1 & (i1 & q1 & I1 & Q1 & E1) & (i2 & q2 & I2 & Q2 & E2)).
  split; [|split].
  - intros j q Hj Hq. apply in_app_iff in Hj as [Hj|[<-|[]]].
    + destruct (B1 j q Hj Hq). split; [eapply Qcle_trans; [apply qmin_le_l|]|eapply Qcle_trans; [|apply qmax_ge_l]]; auto.
    + assert (q = p2) by congruence. subst q. split; [apply qmin_le_r|apply qmax_ge_r].
  - destruct (qmin_cases (fst p1) (fst p2)) as [->| ->]; [exists i1, q1|exists i, p2]; rewrite in_app_iff; cbn; auto.
  - destruct (qmax_cases (snd p1) (snd p2)) as [->| ->]; [exists i2, q2|exists i, p2]; rewrite in_app_iff; cbn; auto.
Qed.
Lemma init_box_hull D d l : proper_boxes D d -> l <> [] -> hull D d l (init_box D l).
Proof.
  intros HD Hl. destruct l as [|i r]; [congruence|]. cbn [init_box]. apply (init_box_fold D d HD r [i]).
  destruct (HD i) as (Hli & Hpi). split; auto. intros k p Hk. split; [|split].
  - intros j q [<-|[]] Hq. assert (q = p) by congruence. subst. split; apply Qcle_refl.
  - exists i, p. cbn; auto.
  - exists i, p. cbn; auto.
Qed.
Lemma refine_tree_boxed D P d fuel R x dofs t : proper_boxes D d -> 1 <= minSize P -> increasing dofs -> dofs <> [] ->
  hull D d dofs (nbox x) -> refine_tree fuel D P R x dofs = Ok t -> boxed D d t.
Proof.
  intros HD Hm Hi Hne Hx E s Hs. destruct (refine_tree_ok D P _ _ _ _ _ Hi E) as (E1 & E2 & _ & E3 & _).
  destruct (E3 s Hs) as [->|(N1 & N2 & N3 & N4 & N5)].
  - rewrite E1, E2. auto.
  - assert (get_dofs s <> []) by (intros C; rewrite C in N5; cbn in N5; lia). split; auto. rewrite N3. apply init_box_hull; auto.
Qed.

(** ** Identification numbers *)
Lemma geom_div (b : Z) n : (2 <= b)%Z -> exists q, (b ^ Z.of_nat n - 1 = (b - 1) * q)%Z /\ (0 <= q)%Z /\
  (b ^ Z.of_nat (S n) - 1 = (b - 1) * (q + b ^ Z.of_nat n))%Z.
Proof.
  intros Hb. induction n as [|n (q & E & Hq & ES)].
  - exists 0%Z. cbn [Z.of_nat]. rewrite Z.pow_0_r. split; [lia|]. split; [lia|]. change (Z.of_nat 1) with 1%Z. rewrite Z.pow_1_r. lia.
  - exists (q + b ^ Z.of_nat n)%Z. split; auto. assert (0 <= b ^ Z.of_nat n)%Z by (apply Z.pow_nonneg; lia). split; [lia|].
    rewrite Nat2Z.inj_succ, Z.pow_succ_r by lia. replace (b * b ^ Z.of_nat (S n) - 1)%Z with ((b - 1) * b ^ Z.of_nat (S n) + (b ^ Z.of_nat (S n) - 1))%Z by ring.
    rewrite ES. ring.
Qed.
Definition off (b R : Z) (l : nat) : Z := (R * (b ^ Z.of_nat l - 1) / (b - 1) + 1)%Z.
Lemma off_0 b R : (2 <= b)%Z -> off b R 0 = 1%Z.
Proof. intros Hb. unfold off. cbn [Z.of_nat]. rewrite Z.pow_0_r, Z.mul_0_r, Z.div_0_l by lia. reflexivity. Qed.
Lemma off_S b R l : (2 <= b)%Z -> off b R (S l) = (off b R l + R * b ^ Z.of_nat l)%Z.
Proof.
  intros Hb. unfold off. destruct (geom_div b l Hb) as (q & E & _ & ES). rewrite E, ES.
  replace (R * ((b - 1) * q))%Z with (R * q * (b - 1))%Z by ring. replace (R * ((b - 1) * (q + b ^ Z.of_nat l)))%Z with (R * (q + b ^ Z.of_nat l) * (b - 1))%Z by ring.
  rewrite !Z.div_mul by lia. ring.
Qed.
Lemma off_mono b R l m : (2 <= b)%Z -> (0 <= R)%Z -> l <= m -> (off b R l <= off b R m)%Z.
Proof.
  intros Hb HR. induction 1 as [|m _ IH]; [lia|]. rewrite off_S by auto. assert (0 <= b ^ Z.of_nat m)%Z by (apply Z.pow_nonneg; lia). nia.
Qed.

Definition idrange (b R : Z) (l : nat) (v z : Z) : Prop := exists m w,
  z = (off b R (l + m) + w)%Z /\ (b ^ Z.of_nat m * v <= w < b ^ Z.of_nat m * (v + 1))%Z.
Lemma pow_add b l m : (2 <= b)%Z -> (b ^ Z.of_nat (l + m) = b ^ Z.of_nat l * b ^ Z.of_nat m)%Z.
Proof. intros. rewrite Nat2Z.inj_add, Z.pow_add_r by lia. reflexivity. Qed.
Lemma idrange_bound b R l v m w : (2 <= b)%Z -> (0 <= v < R * b ^ Z.of_nat l)%Z ->
  (b ^ Z.of_nat m * v <= w < b ^ Z.of_nat m * (v + 1))%Z -> (0 <= w < R * b ^ Z.of_nat (l + m))%Z.
Proof.
  intros Hb Hv Hw. assert (0 < b ^ Z.of_nat m)%Z by (apply Z.pow_pos_nonneg; lia). rewrite pow_add by auto. nia.
Qed.
Lemma idrange_disjoint b R l v v' z : (2 <= b)%Z -> (0 <= R)%Z -> (0 <= v < R * b ^ Z.of_nat l)%Z -> (0 <= v' < R * b ^ Z.of_nat l)%Z ->
  idrange b R l v z -> idrange b R l v' z -> v = v'.
Proof.
  intros Hb HR Hv Hv' (m & w & E & Hw) (m' & w' & E' & Hw').
  pose proof (idrange_bound b R l v m w Hb Hv Hw) as B. pose proof (idrange_bound b R l v' m' w' Hb Hv' Hw') as B'.
  assert (m = m').
  { destruct (Nat.lt_trichotomy m m') as [H|[H|H]]; auto; exfalso.
    - pose proof (off_mono b R (S (l + m)) (l + m') Hb HR ltac:(lia)). rewrite off_S in H0 by auto. lia.
    - pose proof (off_mono b R (S (l + m')) (l + m) Hb HR ltac:(lia)). rewrite off_S in H0 by auto. lia. }
  subst m'. assert (w = w') by lia. subst w'. assert (0 < b ^ Z.of_nat m)%Z by (apply Z.pow_pos_nonneg; lia). nia.
Qed.
Lemma idrange_child b R l v k z : (2 <= b)%Z -> (0 <= k < b)%Z -> idrange b R (S l) (b * v + k) z -> idrange b R l v z.
Proof.
  intros Hb Hk (m & w & E & Hw). exists (S m), w. split; [rewrite E; do 2 f_equal; lia|].
  rewrite Nat2Z.inj_succ, Z.pow_succ_r by lia. assert (0 < b ^ Z.of_nat m)%Z by (apply Z.pow_pos_nonneg; lia). nia.
Qed.
Lemma ids_tree x own cs : ids (Tree x own cs) = id x :: flat_map ids cs.
Proof.
  unfold ids. cbn [get_tree_nodes map info_of]. f_equal. induction cs as [|c cs IH]; cbn [flat_map]; auto.
  rewrite map_app, IH. reflexivity.
Qed.
Lemma NoDup_app {A} (a b : list A) : NoDup a -> NoDup b -> (forall z, In z a -> In z b -> False) -> NoDup (a ++ b).
Proof.
  induction a as [|x a IH]; intros Ha Hb Hd; cbn [app]; auto. inversion Ha; subst. constructor.
  - rewrite in_app_iff. intros [H|H]; auto. apply (Hd x); cbn; auto.
  - apply IH; auto. intros z Z1 Z2. apply (Hd z); cbn; auto.
Qed.
Lemma NoDup_flat_map {A B} (f : A -> list B) l : (forall k a, nth_error l k = Some a -> NoDup (f a)) ->
  (forall j k a c z, nth_error l j = Some a -> nth_error l k = Some c -> In z (f a) -> In z (f c) -> j = k) -> NoDup (flat_map f l).
Proof.
  induction l as [|a l IH]; intros H1 H2; cbn [flat_map]; [constructor|]. apply NoDup_app.
  - apply (H1 0). reflexivity.
  - apply IH; [intros k c Hk; apply (H1 (S k)); auto|].
    intros j k c d z Hj Hk Hc Hd. assert (S j = S k) by (apply (H2 (S j) (S k) c d z); auto). lia.
  - intros z Ha Hb. apply in_flat_map in Hb as (c & Hc & Hz). apply In_nth_error in Hc as (k & Hk).
    assert (0 = S k) by (apply (H2 0 (S k) a c z); auto). lia.
Qed.
Lemma made_fan D b R x P num k c d : proper_boxes D d -> 1 <= minSize P -> length (nbox x) = d -> made D b R x P num k c ->
  fan P (fst c) = fan P x /\ length (nbox (fst c)) = d.
Proof.
  intros HD Hm Hd (_ & _ & M3 & _ & M5 & _ & _ & M8 & _).
  assert (L : length (nbox (fst c)) = d).
  { rewrite M5. apply (init_box_hull D d); auto. intros C. rewrite C in M8. cbn in M8. lia. }
  split; auto. unfold fan. rewrite L, Hd, M3. reflexivity.
Qed.
Lemma fan_ge P x : (2 <= fan P x)%Z.
Proof. unfold fan. destruct (_ && _); lia. Qed.

Lemma children_ids_nodup (chs : list tree) b R l (v : nat -> Z) : (2 <= b)%Z -> (0 <= R)%Z ->
  (forall k t, nth_error chs k = Some t -> NoDup (ids t) /\ (0 <= v k < R * b ^ Z.of_nat l)%Z /\ forall z, In z (ids t) -> idrange b R l (v k) z) ->
  (forall j k, v j = v k -> j = k) -> NoDup (flat_map ids chs).
Proof.
  intros Hb HR H Hv. apply NoDup_flat_map.
  - intros k t Hk. apply H in Hk. apply Hk.
  - intros j k s t z Hj Hk Hs Ht. apply H in Hj as (_ & B1 & I1). apply H in Hk as (_ & B2 & I2). apply Hv.
    apply (idrange_disjoint b R l (v j) (v k) z); auto.
Qed.

Lemma refine_tree_ids D P d : proper_boxes D d -> 1 <= minSize P -> forall fuel R x dofs t l v, increasing dofs -> length (nbox x) = d ->
  (0 <= R)%Z -> levelNo x = S l -> id x = (off (fan P x) R l + v)%Z -> (0 <= v < R * fan P x ^ Z.of_nat l)%Z ->
  refine_tree fuel D P R x dofs = Ok t -> NoDup (ids t) /\ forall z, In z (ids t) -> idrange (fan P x) R l v z.
Proof.
  intros HD Hm. induction fuel as [|fuel IH]; intros R x dofs t l v Hi Hd HR Hl Hid Hv E; [discriminate|].
  assert (Hroot : idrange (fan P x) R l v (id x)).
  { exists 0, v. rewrite Nat.add_0_r. cbn [Z.of_nat]. rewrite Z.pow_0_r. split; [auto|lia]. }
  apply refine_tree_S in E as (ch & Er & [(-> & ->)|(Hn & ts & -> & F)]).
  - rewrite ids_tree. cbn [flat_map]. split; [repeat constructor; auto|]. intros z [<-|[]]. auto.
  - destruct (refine_ok _ _ _ _ _ _ Hi Er Hn) as (L2 & Lf & M & Hp & Hl1 & Hl2). rewrite Hl in F. cbn [Nat.eqb] in F.
    pose proof (fan_ge P x) as Hb. set (b := fan P x) in *.
    assert (G : forall k t, nth_error ts k = Some t -> (0 <= Z.of_nat k < b)%Z /\ NoDup (ids t) /\ (0 <= b * v + Z.of_nat k < R * b ^ Z.of_nat (S l))%Z /\
       forall z, In z (ids t) -> idrange b R (S l) (b * v + Z.of_nat k) z).
    { intros k t Hk. destruct (Forall2_nth_r _ _ _ F k t Hk) as (c & Hc & Et).
      assert (k < length ch) by (apply nth_error_Some; intros Q; unfold part in *; congruence).
      pose proof (M k c Hc) as Mk. destruct (made_fan D b R x P _ k c d HD Hm Hd Mk) as (Ef & Ed).
      destruct Mk as (M1 & M2 & M3 & M4 & M5 & M6 & M7 & M8 & M9).
      assert (Bv : (0 <= b * v + Z.of_nat k < R * b ^ Z.of_nat (S l))%Z) by (rewrite Nat2Z.inj_succ, Z.pow_succ_r by lia; nia).
      destruct (IH R (fst c) (snd c) t (S l) (b * v + Z.of_nat k)%Z) as (N & I); auto.
      - rewrite M2, Hl. auto.
      - rewrite M1, Ef. fold b. unfold child_id. rewrite Hl. fold (off b R l). fold (off b R (S l)). rewrite Hid. lia.
      - rewrite Ef. auto.
      - rewrite Ef in I. fold b in I. split; [lia|]. auto. }
    rewrite ids_tree. split.
    + constructor.
      * intros C. apply in_flat_map in C as (t & Ht & Hz). apply In_nth_error in Ht as (k & Hk). destruct (G k t Hk) as (_ & _ & B & I).
        destruct (I _ Hz) as (m & w & E & Hw). apply (idrange_bound b R (S l)) in Hw; auto.
        pose proof (off_mono b R (S l) (S l + m) Hb HR ltac:(lia)) as Ho. rewrite off_S in Ho by auto. lia.
      * apply (children_ids_nodup ts b R (S l) (fun k => b * v + Z.of_nat k)%Z); auto; [|intros j k; lia].
        intros k t Hk. apply (G k t Hk).
    + intros z [<-|Hz]; auto. apply in_flat_map in Hz as (t & Ht & Hz). apply In_nth_error in Ht as (k & Hk).
      destruct (G k t Hk) as (Hkb & _ & _ & I). apply (idrange_child b R l v (Z.of_nat k)); auto.
Qed.

Lemma root_tree_ids D P d fuel R x dofs t : proper_boxes D d -> 1 <= minSize P -> increasing dofs -> length (nbox x) = d ->
  levelNo x = 0 -> id x = 0%Z -> refine_tree fuel D P R x dofs = Ok t -> NoDup (ids t).
Proof.
  intros HD Hm Hi Hd Hl Hid E. destruct fuel as [|fuel]; [discriminate|].
  apply refine_tree_S in E as (ch & Er & [(-> & ->)|(Hn & ts & -> & F)]); rewrite ids_tree; [repeat constructor; auto|].
  destruct (refine_ok _ _ _ _ _ _ Hi Er Hn) as (L2 & Lf & M & Hp & Hl1 & Hl2). rewrite Hl in F. cbn [Nat.eqb] in F.
  pose proof (fan_ge P x) as Hb. set (b := fan P x) in *. set (RR := Z.of_nat (length ch)) in *.
  assert (G : forall k t, nth_error ts k = Some t -> NoDup (ids t) /\ (0 <= Z.of_nat k < RR * b ^ Z.of_nat 0)%Z /\
       forall z, In z (ids t) -> idrange b RR 0 (Z.of_nat k) z).
  { intros k t Hk. destruct (Forall2_nth_r _ _ _ F k t Hk) as (c & Hc & Et).
    assert (k < length ch) by (apply nth_error_Some; intros Q; unfold part in *; congruence).
    pose proof (M k c Hc) as Mk. destruct (made_fan D b R x P _ k c d HD Hm Hd Mk) as (Ef & Ed).
    destruct Mk as (M1 & M2 & M3 & M4 & M5 & M6 & M7 & M8 & M9).
    assert (Bv : (0 <= Z.of_nat k < RR * b ^ Z.of_nat 0)%Z) by (cbn [Z.of_nat]; rewrite Z.pow_0_r; unfold RR; lia).
    destruct (refine_tree_ids D P d HD Hm fuel RR (fst c) (snd c) t 0 (Z.of_nat k)) as (N & I); auto.
    - unfold RR; lia.
    - rewrite M2, Hl. auto.
    - rewrite M1, Ef. fold b. unfold child_id. rewrite Hl, off_0 by auto. lia.
    - rewrite Ef in I. fold b in I. auto. }
  constructor.
  - intros C. apply in_flat_map in C as (t & Ht & Hz). apply In_nth_error in Ht as (k & Hk). destruct (G k t Hk) as (_ & B & I).
    destruct (I _ Hz) as (m & w & E & Hw). apply (idrange_bound b RR 0) in Hw; auto.
    pose proof (off_mono b RR 0 (0 + m) Hb ltac:(lia) ltac:(lia)) as Ho. rewrite off_0 in Ho by auto. lia.
  - apply (children_ids_nodup ts b RR 0 Z.of_nat); auto; [unfold RR; lia|intros j k; lia].
Qed.
