(** Symmetry of all functions of two points that say so; agreement of the methods. *)
From Coq Require Import R_sqrt Ratan Rtrigo_def.
From Verif Require Import LinR InteractionModel TwoPointModel TwoPointSpec TwoPointProofs TwoPointProofs2.
Open Scope R_scope.
Set Default Proof Using "Type".

Lemma made_sym n o a b c num f : made o a b c num f ->
  (forall x y, length x = n -> length y = n -> f x y = f y x) -> symmetric_on n (o_tp o).
Proof.
  intros (_ & _ & _ & _ & _ & _ & H1 & H2) H x y Hx Hy. unfold tp_call. rewrite !H1, !H2. split; apply H; auto.
Qed.
Lemma left_right_sym ll m rr itf x y : length x = length y -> left_right ll m m rr itf x y = left_right ll m m rr itf y x.
Proof. intros H. unfold left_right. coords x y 0%nat H. f_equal. destruct (rlt a itf), (rlt b itf); auto. Qed.

(** The only error is an access outside of an array. *)
Definition only_oob {A} (r : res A) : Prop := forall e, r = Err e -> e = EOob.
Lemma swap_oob {A B} (a b : res A) (f : A -> A -> res B) : only_oob a -> only_oob b ->
  (forall u v, a = Ok u -> b = Ok v -> f u v = f v u) ->
  bind a (fun u => bind b (fun v => f u v)) = bind b (fun u => bind a (fun v => f u v)).
Proof.
  intros Ha Hb H. destruct a as [u|e], b as [v|e']; cbn [bind]; auto.
  rewrite (Ha e eq_refl), (Hb e' eq_refl). reflexivity.
Qed.
Lemma aget_oob {A} (l : list A) i : only_oob (aget l i).
Proof. intros e. unfold aget. destruct (nth_error l i); congruence. Qed.
Lemma zaget_oob {A} (l : list A) i : only_oob (zaget l i).
Proof. intros e. unfold zaget. destruct (i <? 0)%Z; [congruence|]. apply aget_oob. Qed.
Lemma bind_oob {A B} (a : res A) (f : A -> res B) : only_oob a -> (forall u, a = Ok u -> only_oob (f u)) -> only_oob (bind a f).
Proof. intros Ha Hf e. destruct a; cbn [bind]; [apply Hf; auto|]. intros E. apply Ha. congruence. Qed.
Lemma ok_oob {A} (a : A) : only_oob (Ok a).
Proof. intros e. discriminate. Qed.
Lemma in_island_oob n r r2 x : forall i, only_oob (in_island n i r r2 x).
Proof.
  induction n as [|n IH]; intros i; cbn [in_island]; [apply ok_oob|]. apply bind_oob; [apply aget_oob|]. intros a _.
  destruct (negb _); [apply ok_oob|apply IH].
Qed.
Lemma islands_sym sii m soo r r2 x y :
  islands_value sii m m soo r r2 x y = islands_value sii m m soo r r2 y x.
Proof.
  unfold islands_value. apply (swap_oob (in_island 2 0 r r2 x) (in_island 2 0 r r2 y)
    (fun bx bY => Ok (if bx then (if bY then sii else m) else (if bY then m else soo)))); try apply in_island_oob.
  intros [] []; auto.
Qed.
Lemma seek_layer_spec bs c : forall n i k, seek_layer n i bs c = Ok k -> (i <= k < i + n)%nat \/ k = 0%nat.
Proof.
  induction n as [|n IH]; intros i k E; cbn [seek_layer] in E; [injection E; lia|].
  apply bind_ok in E as (lo & _ & E). apply bind_ok in E as (hi & _ & E). destruct (rle lo c && rle c hi).
  - injection E as <-. lia.
  - apply IH in E. lia.
Qed.
Lemma seek_layer_oob bs c : forall n i, only_oob (seek_layer n i bs c).
Proof.
  induction n as [|n IH]; intros i; cbn [seek_layer]; [apply ok_oob|].
  apply bind_oob; [apply aget_oob|]. intros lo _. apply bind_oob; [apply aget_oob|]. intros hi _.
  destruct (rle lo c && rle c hi); [apply ok_oob|apply IH].
Qed.
Lemma layer_of_spec n bs c k : (0 < n)%nat -> layer_of n bs c = Ok k -> (k < n)%nat.
Proof.
  intros Hn E. unfold layer_of in E. apply bind_ok in E as (b0 & _ & E). destruct (rle c b0); [injection E; lia|].
  apply bind_ok in E as (bn & _ & E). destruct (rle bn c); [injection E; lia|]. apply seek_layer_spec in E. lia.
Qed.
Lemma layer_of_oob n bs c : only_oob (layer_of n bs c).
Proof.
  unfold layer_of. apply bind_oob; [apply aget_oob|]. intros b0 _. destruct (rle c b0); [apply ok_oob|].
  apply bind_oob; [apply aget_oob|]. intros bn _. destruct (rle bn c); [apply ok_oob|apply seek_layer_oob].
Qed.
Definition layer_at (dim n : nat) (bs : list R) (x : point) : res nat := cx <- zaget x (Z.of_nat dim - 1) ;; layer_of n bs cx.
Lemma layer_at_oob dim n bs x : only_oob (layer_at dim n bs x).
Proof. apply bind_oob; [apply zaget_oob|]. intros u _. apply layer_of_oob. Qed.
Lemma layers_value_at dim n bs os x y :
  layers_value dim n bs os x y = (i <- layer_at dim n bs x ;; j <- layer_at dim n bs y ;; aget (concat os) (i * n + j)%nat).
Proof.
  unfold layers_value, layer_at. destruct (zaget x _); cbn [bind]; [|reflexivity]. destruct (layer_of n bs a); cbn [bind]; [|reflexivity].
  destruct (zaget y _); reflexivity.
Qed.
Lemma layers_sym dim n bs os x y : (0 < n)%nat -> length os = n -> (forall row, In row os -> length row = n) ->
  (forall i j, (i < n)%nat -> (j < n)%nat -> table os i j = table os j i) ->
  layers_value dim n bs os x y = layers_value dim n bs os y x.
Proof.
  intros Hn L Hr Hs. rewrite !layers_value_at.
  apply (swap_oob (layer_at dim n bs x) (layer_at dim n bs y) (fun i j => aget (concat os) (i * n + j)%nat)); try apply layer_at_oob.
  intros i j Ei Ej. apply bind_ok in Ei as (a & _ & Ei). apply bind_ok in Ej as (b & _ & Ej).
  apply layer_of_spec in Ei; auto. apply layer_of_spec in Ej; auto.
  rewrite (aget_ok _ _ _ (nth_concat os n i j Hr ltac:(lia) Ej)), (aget_ok _ _ _ (nth_concat os n j i Hr ltac:(lia) Ei)).
  rewrite Hs by auto. reflexivity.
Qed.
Lemma innerOuter_sym dim sii m soo r2 c0 x y : length x = length y ->
  innerOuter_value dim sii m m soo r2 c0 x y = innerOuter_value dim sii m m soo r2 c0 y x.
Proof.
  intros H. apply rrel_eq. unfold innerOuter_value. apply (rrel_bind (fun a b => fst a = snd b /\ snd a = fst b)).
  - apply for_range_sim; auto. intros i (a1 & a2) (b1 & b2) _ (E1 & E2). cbn [fst snd] in *. subst.
    destruct i as [|[|i]]; cbn [bind]; try reflexivity. coords x y 0%nat H. simpl. auto.
  - intros (a1 & a2) (b1 & b2) (E1 & E2). cbn [fst snd] in *. subst. apply rrel_eq. rcases; cbn [andb]; auto; lra.
Qed.
Lemma table_sym_flag tol t i j : square t -> table_symmetric tol t = true -> (i < length t)%nat -> (j < length t)%nat ->
  Rabs (table t i j - table t j i) < tol.
Proof.
  intros Hs E Hi Hj. unfold table_symmetric in E. rewrite forallb_forall in E. specialize (E i ltac:(apply in_seq; lia)).
  cbv beta in E. rewrite forallb_forall in E. specialize (E j ltac:(apply in_seq; lia)). cbv beta in E.
  rewrite !rentry_table in E by auto. destruct (rlt_spec (Rabs (table t i j - table t j i)) tol); [auto|discriminate].
Qed.
Lemma piecewise_cases dim n ind t x y : length t = n -> square t ->
  (exists i j, (i < n)%nat /\ (j < n)%nat /\ trunc (ind (firstn dim x)) = Z.of_nat i /\ trunc (ind (firstn dim y)) = Z.of_nat j /\
     piecewise_value dim n ind t x y = Ok (table t i j) /\ piecewise_value dim n ind t y x = Ok (table t j i)) \/
  ((~ (0 <= trunc (ind (firstn dim x)) < Z.of_nat n)%Z \/ ~ (0 <= trunc (ind (firstn dim y)) < Z.of_nat n)%Z) /\
     piecewise_value dim n ind t x y = Ok (- 1) /\ piecewise_value dim n ind t y x = Ok (- 1)).
Proof.
  intros L Hs. unfold piecewise_value. cbv zeta.
  set (a := trunc (ind (firstn dim x))). set (b := trunc (ind (firstn dim y))).
  destruct (Z.leb_spec 0 a), (Z.ltb_spec a (Z.of_nat n)), (Z.leb_spec 0 b), (Z.ltb_spec b (Z.of_nat n)); cbn [andb];
    try (right; split; [lia|auto]; fail).
  left. exists (Z.to_nat a), (Z.to_nat b). repeat apply conj; try lia.
  - apply aget_ok. apply nth_concat; try lia. intros row Hr. rewrite (Hs row Hr). auto.
  - apply aget_ok. apply nth_concat; try lia. intros row Hr. rewrite (Hs row Hr). auto.
Qed.

Lemma order_sym n e : forall o, build_order e = Ok o -> honest_order e -> tp_sym (o_tp o) = true -> symmetric_on n (o_tp o).
Proof.
  induction e; intros o E Hh Hf; cbn [build_order honest_order] in *.
  - injection E as <-. intros x y _ _. split; reflexivity.
  - destruct (made_const s) as (o' & Eo & M). rewrite Eo in E. injection E as <-. apply (made_sym n _ _ _ _ _ _ M). auto.
  - destruct (made_lambda dim smin smax sym f) as (o' & Eo & M). rewrite Eo in E. injection E as <-. apply (made_sym n _ _ _ _ _ _ M).
    intros x y Hx Hy. f_equal. destruct M as (Ms & _). apply Hh; [congruence|]. rewrite !firstn_length. congruence.
  - apply made_piecewise in E as (t & smin & smax & Hs & L & St & _ & Ht & _ & M). apply (made_sym n _ _ _ _ _ _ M).
    intros x y _ _. destruct M as (Ms & _). rewrite Hf in Ms.
    destruct (piecewise_cases dim (length sVals) ind t x y L St) as [(i & j & Hi & Hj & _ & _ & -> & ->)|(_ & -> & ->)]; auto.
    f_equal. rewrite !Ht by auto. destruct (Hh i j Hi Hj) as [|K]; auto. exfalso.
    pose proof (table_sym_flag _ t i j St (eq_sym Ms) ltac:(lia) ltac:(lia)) as K'. rewrite !Ht in K' by auto. lra.
  - destruct (made_leftRight sll srr slr srl itf) as (o' & Eo & M). rewrite Eo in E. injection E as <-. apply (made_sym n _ _ _ _ _ _ M).
    intros x y Hx Hy. destruct M as (Ms & _). rewrite Hf in Ms. destruct (req_spec (mean_if_nan sll srr slr) (mean_if_nan sll srr srl)) as [->|]; [|discriminate].
    apply left_right_sym. congruence.
  - apply made_innerOuter in E as (_ & M). apply (made_sym n _ _ _ _ _ _ M).
    intros x y Hx Hy. destruct M as (Ms & _). rewrite Hf in Ms. destruct (req_spec (mean_if_nan sii soo sio) (mean_if_nan sii soo soi)) as [->|]; [|discriminate].
    apply innerOuter_sym. congruence.
  - destruct (made_islands sii soo r r2 sio soi) as (o' & Eo & M). rewrite Eo in E. injection E as <-. apply (made_sym n _ _ _ _ _ _ M).
    intros x y Hx Hy. destruct M as (Ms & _). rewrite Hf in Ms. destruct (req_spec (mean_if_nan sii soo sio) (mean_if_nan sii soo soi)) as [->|]; [|discriminate].
    apply islands_sym.
  - apply made_layers in E as (m & smin & smax & sym & _ & Hm & L & Hr & M & _ & Hs). apply (made_sym n _ _ _ _ _ _ M).
    intros x y _ _. apply layers_sym; auto. apply Hs. destruct M as (Ms & _). congruence.
  - unfold constantNonSymFractionalOrder, singleVariableOrder in E. cbn in E. injection E as <-. discriminate Hf.
  - apply bind_ok in E as (e & _ & E). unfold singleVariableOrder in E. cbn in E. injection E as <-. discriminate Hf.
  - apply bind_ok in E as (e & _ & E). unfold singleVariableOrder in E. cbn in E. injection E as <-. discriminate Hf.
  - apply bind_ok in E as (e & _ & E). discriminate E.
  - unfold feFractionalOrder, singleVariableOrder in E. apply bind_ok in E as (_ & _ & E). injection E as <-. discriminate Hf.
  - apply bind_ok in E as (_ & _ & E). apply bind_ok in E as (s1 & E1 & E). apply bind_ok in E as (s2 & E2 & E). unfold sumFractionalOrder in E. injection E as <-.
    cbn [o_tp tp_sym] in Hf. apply andb_true_iff in Hf as (F1 & F2). destruct Hh as (H1 & H2).
    intros x y Hx Hy. unfold tp_call. cbn [o_tp tp_eval tp_evalPtr]. split; [|reflexivity].
    rewrite Hx, Hy. destruct (IHe1 s1 E1 H1 F1 x y Hx Hy) as (_ & ->). destruct (IHe2 s2 E2 H2 F2 x y Hx Hy) as (_ & ->). reflexivity.
Qed.

(** * Lookup *)
Lemma rsum_loop_ok n (e : nat -> res R) g v : (forall k, (k < n)%nat -> e k = Ok (g k)) ->
  for_range 0 n (fun k v => m <- e k ;; Ok (v + m)) v = Ok (v + rsum n g).
Proof.
  intros H. loop_inv (fun k s => s = v + rsum k g) st E HI; [lia|cbn; ring|..].
  - intros k s Hk ->. rewrite H by lia. cbn [bind]. eexists. split; [reflexivity|]. cbn [rsum]. ring.
  - rewrite E, HI. reflexivity.
Qed.
Lemma for_n_err {S} (f : nat -> S -> res S) k er : (forall s, f k s = Err er) -> (forall i s, only_oob (f i s)) -> er = EOob ->
  forall n i s, (i <= k < i + n)%nat -> for_n n i f s = Err EOob.
Proof.
  intros Hk Ho He. induction n as [|n IH]; intros i s Hi; [lia|]. cbn [for_n].
  destruct (f i s) eqn:E; cbn [bind]; [|f_equal; apply (Ho i s); auto].
  destruct (Nat.eq_dec i k) as [->|]; [rewrite Hk in E; discriminate|]. apply IH. lia.
Qed.
Lemma for_range_err {S} (f : nat -> S -> res S) n k s : (k < n)%nat -> (forall s, f k s = Err EOob) -> (forall i s, only_oob (f i s)) ->
  for_range 0 n f s = Err EOob.
Proof. intros Hk H Ho. unfold for_range. apply (for_n_err f k EOob); auto. lia. Qed.
Lemma for_range_oob {S} (f : nat -> S -> res S) n s : (forall i s, only_oob (f i s)) -> only_oob (for_range 0 n f s).
Proof.
  intros Ho. unfold for_range.
  assert (K : forall m i s, only_oob (for_n m i f s)); [|apply K].
  induction m as [|m IH]; intros i s'; cbn [for_n]; [apply ok_oob|]. apply bind_oob; [apply Ho|]. intros; apply IH.
Qed.
Definition double_loop (n : nat) (e : nat -> nat -> res R) : res R :=
  for_range 0 n (fun k1 v => for_range 0 n (fun k2 v => m <- e k1 k2 ;; Ok (v + m)) v) 0.
Lemma double_loop_ok n e g : (forall i j, (i < n)%nat -> (j < n)%nat -> e i j = Ok (g i j)) ->
  double_loop n e = Ok (rsum n (fun i => rsum n (fun j => g i j))).
Proof.
  intros H. unfold double_loop. loop_inv (fun k s => s = rsum k (fun i => rsum n (fun j => g i j))) st E HI; [lia|reflexivity|..].
  - intros k s Hk ->. rewrite (rsum_loop_ok n (e k) (g k)) by (intros; apply H; lia). eexists. split; [reflexivity|]. reflexivity.
  - rewrite E, HI. reflexivity.
Qed.
Lemma double_loop_err n e i j : (forall i j, only_oob (e i j)) -> (i < n)%nat -> (j < n)%nat -> e i j = Err EOob -> double_loop n e = Err EOob.
Proof.
  intros Ho Hi Hj E. unfold double_loop. apply (for_range_err _ n i); auto.
  - intros s. apply (for_range_err _ n j); auto. + intros v. rewrite E. reflexivity.
    + intros k v. apply bind_oob; [apply Ho|]. intros; apply ok_oob.
  - intros k s. apply for_range_oob. intros k' v. apply bind_oob; [apply Ho|]. intros; apply ok_oob.
Qed.
Lemma all_or_bad n (e : nat -> nat -> res R) :
  (exists g, forall i j, (i < n)%nat -> (j < n)%nat -> e i j = Ok (g i j)) \/ exists i j er, (i < n)%nat /\ (j < n)%nat /\ e i j = Err er.
Proof.
  assert (D : forall p, (forall k, (k < p)%nat -> exists v, e (k / n)%nat (k mod n)%nat = Ok v) \/
     exists k er, (k < p)%nat /\ e (k / n)%nat (k mod n)%nat = Err er).
  { induction p as [|p [IH|(k & er & Hk & E)]].
    - left. intros; lia.
    - destruct (e (p / n)%nat (p mod n)%nat) as [v|er] eqn:E.
      + left. intros k Hk. destruct (Nat.eq_dec k p) as [->|]; eauto. apply IH. lia.
      + right. exists p, er. split; auto.
    - right. exists k, er. split; auto. }
  destruct (Nat.eq_dec n 0) as [->|Hn]; [left; exists (fun _ _ => 0); intros; lia|].
  destruct (D (n * n)%nat) as [H|(k & er & Hk & E)].
  - left. exists (fun i j => match e i j with Ok v => v | Err _ => 0 end). intros i j Hi Hj.
    destruct (H (i * n + j)%nat) as (v & E); [nia|].
    rewrite Nat.div_add_l, Nat.div_small, Nat.add_0_r in E by lia. rewrite Nat.add_comm, Nat.mod_add, Nat.mod_small in E by lia.
    rewrite E. reflexivity.
  - right. exists (k / n)%nat, (k mod n)%nat, er. split; [apply Nat.div_lt_upper_bound; lia|]. split; [apply Nat.mod_upper_bound; auto|auto].
Qed.
Lemma double_loop_swap n e e' : (forall i j, only_oob (e i j)) -> (forall i j, (i < n)%nat -> (j < n)%nat -> e' j i = e i j) ->
  (forall i j, only_oob (e' i j)) -> double_loop n e = double_loop n e'.
Proof.
  intros Ho H Ho'. destruct (all_or_bad n e) as [(g & G)|(i & j & er & Hi & Hj & E)].
  - rewrite (double_loop_ok n e g G), (double_loop_ok n e' (fun j i => g i j)).
    + f_equal. apply rsum_swap.
    + intros j i Hj Hi. rewrite H; auto.
  - assert (er = EOob) as -> by (apply (Ho i j); auto).
    rewrite (double_loop_err n e i j), (double_loop_err n e' j i); auto. rewrite H; auto.
Qed.
Definition lookup_term (L : lookup) (A : list (list R)) (c1 c2 : nat) (b1 b2 : list R) (k1 k2 : nat) : res R :=
  a <- aget (lookup_vals L c1 b1) k1 ;; m <- zentry A (lk_dof L c1 k1) (lk_dof L c2 k2) ;; b <- aget (lookup_vals L c2 b2) k2 ;; Ok (a * m * b).
Lemma lookup_loop L A c1 c2 b1 b2 :
  for_range 0 (lk_dofs L) (fun k1 v => for_range 0 (lk_dofs L) (fun k2 v =>
        a <- aget (lookup_vals L c1 b1) k1 ;; row <- zaget A (lk_dof L c1 k1) ;; m <- zaget row (lk_dof L c2 k2) ;; b <- aget (lookup_vals L c2 b2) k2 ;;
        Ok (v + a * m * b)) v) 0 = double_loop (lk_dofs L) (lookup_term L A c1 c2 b1 b2).
Proof.
  unfold double_loop. apply for_range_same. intros i s. apply for_range_same. intros j v. unfold lookup_term, zentry.
  destruct (aget (lookup_vals L c1 b1) i); cbn [bind]; [|reflexivity]. destruct (zaget A (lk_dof L c1 i)); cbn [bind]; [|reflexivity].
  destruct (zaget a0 (lk_dof L c2 j)); cbn [bind]; [|reflexivity]. destruct (aget (lookup_vals L c2 b2) j); reflexivity.
Qed.
Lemma lookup_term_oob L A c1 c2 b1 b2 i j : only_oob (lookup_term L A c1 c2 b1 b2 i j).
Proof.
  apply bind_oob; [apply aget_oob|]. intros a _. apply bind_oob.
  - apply bind_oob; [apply zaget_oob|]. intros; apply zaget_oob.
  - intros m _. apply bind_oob; [apply aget_oob|]. intros; apply ok_oob.
Qed.
Lemma lookup_sym L A x y : square A -> (forall i j, table A i j = table A j i) -> lookup_eval L A x y = lookup_eval L A y x.
Proof.
  intros HA HS. unfold lookup_eval. destruct (lk_find L x) as [(c1 & b1)|], (lk_find L y) as [(c2 & b2)|]; auto. cbv zeta.
  rewrite !lookup_loop. apply double_loop_swap; try (intros; apply lookup_term_oob).
  intros i j Hi Hj. unfold lookup_term. rewrite (zentry_sym A (lk_dof L c2 j) (lk_dof L c1 i)) by auto.
  assert (V : forall c b k, (k < lk_dofs L)%nat -> exists v, aget (lookup_vals L c b) k = Ok v).
  { intros c b k Hk. rewrite (aget_nth _ k 0); eauto. unfold lookup_vals. rewrite map_length, seq_length. auto. }
  destruct (V c1 b1 i Hi) as (u & ->). destruct (V c2 b2 j Hj) as (w & ->). cbn [bind].
  destruct (zentry A (lk_dof L c1 i) (lk_dof L c2 j)); cbn [bind]; [|reflexivity]. f_equal. ring.
Qed.

(** * All functions *)
Lemma build_sym n e : forall f, build e = Ok f -> honest n e -> tp_sym f = true -> symmetric_on n f.
Proof.
  induction e; intros g E Hh Hf; cbn [build honest] in *.
  - injection E as <-. intros x y _ _. split; reflexivity.
  - injection E as <-. intros x y _ _. split; reflexivity.
  - injection E as <-. intros x y Hx Hy. unfold tp_call. cbn in Hf |- *. rewrite !firstn_all2 by lia. rewrite Hh; auto.
  - eapply matrix_sym; eauto.
  - injection E as <-. cbn [leftRightTwoPoint tp_sym] in Hf. intros x y Hx Hy. unfold tp_call. cbn [leftRightTwoPoint tp_eval tp_evalPtr].
    destruct (req_spec (mean_if_nan ll rr rl) (mean_if_nan ll rr lr)) as [->|]; [|discriminate].
    split; apply left_right_sym; congruence.
  - injection E as <-. subst n. intros x y Hx Hy. unfold tp_call. cbn [interfaceTwoPoint tp_eval tp_evalPtr]. rewrite Hx, Hy. cbn [interface_evalPtr].
    assert (L : length x = length y) by congruence. coords x y 0%nat L; auto. rewrite interface1_sym. auto.
  - injection E as <-. intros x y Hx Hy. unfold tp_call. cbn [temperedTwoPoint tp_eval tp_evalPtr]. unfold tempered.
    rewrite (dist2_sym dim x y), (dist2_sym n x y) by congruence. auto.
  - injection E as <-. intros x y Hx Hy. unfold tp_call. cbn [tensorTwoPoint tp_eval tp_evalPtr].
    assert (L : length x = length y) by congruence.
    assert (K : tensor i j dim x y = tensor i j dim y x); [|auto]. unfold tensor. rewrite (dist2_sym dim x y) by auto.
    destruct (dist2 dim y x); cbn [bind]; [|reflexivity]. destruct (rlt 0 a); [|reflexivity].
    coords x y i L. coords x y j L. f_equal. unfold Rdiv. ring.
  - unfold smoothedLeftRightTwoPoint in E. apply bind_ok in E as (fac & _ & E). injection E as <-. discriminate Hf.
  - injection E as <-. cbn in Hf. destruct (req_spec l r) as [->|]; [|discriminate]. intros x y Hx Hy. unfold tp_call. cbn [unsymTwoPoint tp_eval tp_evalPtr].
    assert (L : length x = length y) by congruence. unfold unsym. coords x y 0%nat L; auto. destruct (rlt a b), (rlt b a); auto.
  - injection E as <-. cbn in Hf. destruct (Hh Hf) as (HA & HS). intros x y Hx Hy. unfold tp_call. cbn [lookupTwoPoint tp_eval tp_evalPtr].
    split; apply lookup_sym; auto.
  - injection E as <-. discriminate Hf.
  - apply bind_ok in E as (s & Es & E). injection E as <-. eapply order_sym; eauto.
  - apply bind_ok in E as (f & Ef & E). injection E as <-. cbn in Hf. intros x y Hx Hy. destruct (IHe f Ef Hh Hf x y Hx Hy) as (K1 & K2).
    unfold tp_call in *. cbn [inverseTwoPoint tp_eval tp_evalPtr]. rewrite K1, K2. auto.
  - apply bind_ok in E as (f1 & E1 & E). apply bind_ok in E as (f2 & E2 & E). destruct Hh as (H1 & H2). unfold tp_mul in E.
    assert (K : productTwoPoint f1 f2 = Ok g -> symmetric_on n g).
    { intros P. unfold productTwoPoint in P. apply bind_ok in P as (_ & _ & P). apply bind_ok in P as (_ & _ & P). injection P as <-.
      cbn [tp_sym] in Hf. apply andb_true_iff in Hf as (F1 & F2). intros x y Hx Hy. unfold tp_call. cbn [tp_eval tp_evalPtr]. rewrite Hx, Hy.
      destruct (IHe1 f1 E1 H1 F1 x y Hx Hy) as (_ & ->). destruct (IHe2 f2 E2 H2 F2 x y Hx Hy) as (_ & ->). auto. }
    destruct (tp_const f1); [destruct (tp_const f2)|]; auto. injection E as <-. intros x y _ _. split; reflexivity.
Qed.

Lemma made_agree n o a b c num f : made o a b c num f -> methods_agree n (o_tp o).
Proof. intros (_ & _ & _ & _ & _ & _ & H1 & H2) x y _ _. unfold tp_call. rewrite H1, H2. reflexivity. Qed.
Lemma order_agree n e o : build_order e = Ok o -> no_sum e -> methods_agree n (o_tp o).
Proof.
  destruct e; intros E Hh; cbn [build_order no_sum] in *; try contradiction.
  - injection E as <-. intros x y _ _. reflexivity.
  - destruct (made_const s) as (o' & Eo & M). rewrite Eo in E. injection E as <-. eapply made_agree; eauto.
  - destruct (made_lambda dim smin smax sym f) as (o' & Eo & M). rewrite Eo in E. injection E as <-. eapply made_agree; eauto.
  - apply made_piecewise in E as (t & smin & smax & _ & _ & _ & _ & _ & _ & M). eapply made_agree; eauto.
  - destruct (made_leftRight sll srr slr srl itf) as (o' & Eo & M). rewrite Eo in E. injection E as <-. eapply made_agree; eauto.
  - apply made_innerOuter in E as (_ & M). eapply made_agree; eauto.
  - destruct (made_islands sii soo r r2 sio soi) as (o' & Eo & M). rewrite Eo in E. injection E as <-. eapply made_agree; eauto.
  - apply made_layers in E as (m & smin & smax & sym & _ & _ & _ & _ & M & _). eapply made_agree; eauto.
  - unfold constantNonSymFractionalOrder, singleVariableOrder in E. cbn in E. injection E as <-. intros x y _ _. reflexivity.
  - apply bind_ok in E as (e & Ee & E). unfold singleVariableOrder in E. cbn in E. injection E as <-. unfold smoothStep in Ee.
    apply bind_ok in Ee as (sl' & _ & Ee). injection Ee as <-. intros x y _ _. reflexivity.
  - apply bind_ok in E as (e & Ee & E). unfold singleVariableOrder in E. cbn in E. injection E as <-. unfold linearStep in Ee.
    apply bind_ok in Ee as (sl' & _ & Ee). injection Ee as <-. intros x y _ _. reflexivity.
  - apply bind_ok in E as (e & _ & E). discriminate E.
  - unfold feFractionalOrder, singleVariableOrder in E. apply bind_ok in E as (_ & _ & E). injection E as <-. intros x y Hx Hy.
    unfold tp_call. cbn. rewrite firstn_all2 by lia. reflexivity.
Qed.
Lemma build_agree n e : forall f, build e = Ok f -> plain n e -> methods_agree n f.
Proof.
  induction e; intros g E Hh; cbn [build plain] in *; try contradiction.
  - injection E as <-. intros x y _ _. reflexivity.
  - injection E as <-. intros x y _ _. reflexivity.
  - injection E as <-. intros x y Hx Hy. unfold tp_call. cbn. rewrite !firstn_all2 by lia. reflexivity.
  - injection E as <-. intros x y _ _. reflexivity.
  - injection E as <-. intros x y Hx _. unfold tp_call. cbn [interfaceTwoPoint tp_eval tp_evalPtr]. rewrite Hx. reflexivity.
  - injection E as <-. subst. intros x y _ _. reflexivity.
  - injection E as <-. intros x y _ _. reflexivity.
  - unfold smoothedLeftRightTwoPoint in E. apply bind_ok in E as (fac & _ & E). injection E as <-. intros x y _ _. reflexivity.
  - injection E as <-. intros x y _ _. reflexivity.
  - injection E as <-. intros x y Hx Hy. unfold tp_call. cbn [lookupTwoPoint tp_eval tp_evalPtr]. rewrite !firstn_all2 by lia. reflexivity.
  - injection E as <-. intros x y Hx Hy. apply Hh. auto.
  - apply bind_ok in E as (s & Es & E). injection E as <-. eapply order_agree; eauto.
  - apply bind_ok in E as (f & Ef & E). injection E as <-. intros x y Hx Hy. pose proof (IHe f Ef Hh x y Hx Hy) as K.
    unfold tp_call in *. cbn [inverseTwoPoint tp_eval tp_evalPtr]. rewrite K. reflexivity.
  - apply bind_ok in E as (f1 & E1 & E). apply bind_ok in E as (f2 & E2 & E). destruct Hh as (H1 & H2). unfold tp_mul in E.
    assert (K : productTwoPoint f1 f2 = Ok g -> methods_agree n g).
    { intros P. unfold productTwoPoint in P. apply bind_ok in P as (_ & _ & P). apply bind_ok in P as (_ & _ & P). injection P as <-.
      intros x y Hx Hy. unfold tp_call. cbn [tp_eval tp_evalPtr]. rewrite Hx. reflexivity. }
    destruct (tp_const f1); [destruct (tp_const f2)|]; auto. injection E as <-. intros x y _ _. reflexivity.
Qed.
(** Only constants are constants. *)
Lemma order_const e : forall o, build_order e = Ok o -> tp_const (o_tp o) = None.
Proof.
  destruct e; intros o E; cbn [build_order] in E.
  - injection E as <-. reflexivity.
  - destruct (made_const s) as (o' & Eo & M). rewrite Eo in E. injection E as <-. apply M.
  - destruct (made_lambda dim smin smax sym f) as (o' & Eo & M). rewrite Eo in E. injection E as <-. apply M.
  - apply made_piecewise in E as (t & smin & smax & _ & _ & _ & _ & _ & _ & M). apply M.
  - destruct (made_leftRight sll srr slr srl itf) as (o' & Eo & M). rewrite Eo in E. injection E as <-. apply M.
  - apply made_innerOuter in E as (_ & M). apply M.
  - destruct (made_islands sii soo r r2 sio soi) as (o' & Eo & M). rewrite Eo in E. injection E as <-. apply M.
  - apply made_layers in E as (m & smin & smax & sym & _ & _ & _ & _ & M & _). apply M.
  - unfold constantNonSymFractionalOrder, singleVariableOrder in E. cbn in E. injection E as <-. reflexivity.
  - apply bind_ok in E as (e & Ee & E). unfold singleVariableOrder in E. cbn in E. injection E as <-. reflexivity.
  - apply bind_ok in E as (e & Ee & E). unfold singleVariableOrder in E. cbn in E. injection E as <-. reflexivity.
  - apply bind_ok in E as (e & _ & E). discriminate E.
  - unfold feFractionalOrder, singleVariableOrder in E. apply bind_ok in E as (_ & _ & E). injection E as <-. reflexivity.
  - apply bind_ok in E as (_ & _ & E). apply bind_ok in E as (s1 & E1 & E). apply bind_ok in E as (s2 & E2 & E). injection E as <-. reflexivity.
Qed.
Lemma build_const e f c : build e = Ok f -> tp_const f = Some c -> forall x y, tp_call f x y = Ok c.
Proof.
  destruct e; intros E Hc; cbn [build] in E.
  1-3,5-8,10-12: injection E as <-; cbn in Hc; try discriminate Hc. 
  - injection Hc as <-. reflexivity.
  - unfold matrixTwoPoint in E. apply bind_ok in E as (_ & _ & E). apply bind_ok in E as (s & _ & E). injection E as <-. discriminate Hc.
  - unfold smoothedLeftRightTwoPoint in E. apply bind_ok in E as (fac & _ & E). injection E as <-. discriminate Hc.
  - apply bind_ok in E as (s & Es & E). injection E as <-. rewrite (order_const _ _ Es) in Hc. discriminate.
  - apply bind_ok in E as (f1 & E1 & E). injection E as <-. discriminate Hc.
  - apply bind_ok in E as (f1 & E1 & E). apply bind_ok in E as (f2 & E2 & E). unfold tp_mul in E.
    assert (K : productTwoPoint f1 f2 = Ok f -> forall x y, tp_call f x y = Ok c).
    { intros P. unfold productTwoPoint in P. apply bind_ok in P as (_ & _ & P). apply bind_ok in P as (_ & _ & P). injection P as <-. discriminate Hc. }
    destruct (tp_const f1); [destruct (tp_const f2)|]; auto. injection E as <-. injection Hc as <-. reflexivity.
Qed.
(** The product is the product of the values. *)
Lemma mul_value n a b f1 f2 f x y : build a = Ok f1 -> build b = Ok f2 -> build (XMul a b) = Ok f -> plain n a -> plain n b ->
  length x = n -> length y = n -> tp_call f x y = (v1 <- tp_call f1 x y ;; v2 <- tp_call f2 x y ;; Ok (v1 * v2)).
Proof.
  intros E1 E2 E Pa Pb Hx Hy. cbn [build] in E. rewrite E1, E2 in E. cbn [bind] in E. unfold tp_mul in E.
  assert (K : productTwoPoint f1 f2 = Ok f -> tp_call f x y = (v1 <- tp_call f1 x y ;; v2 <- tp_call f2 x y ;; Ok (v1 * v2))).
  { intros P. unfold productTwoPoint in P. apply bind_ok in P as (_ & _ & P). apply bind_ok in P as (_ & _ & P). injection P as <-.
    unfold tp_call at 1. cbn [tp_eval]. rewrite Hx. rewrite (build_agree n a f1 E1 Pa x y Hx Hy), (build_agree n b f2 E2 Pb x y Hx Hy). reflexivity. }
  destruct (tp_const f1) as [c1|] eqn:C1; [destruct (tp_const f2) as [c2|] eqn:C2|]; auto. injection E as <-.
  rewrite (build_const a f1 c1 E1 C1), (build_const b f2 c2 E2 C2). reflexivity.
Qed.
