(** Interpolation operators as operators, several intervals, delayed construction. *)
From Verif Require Import Util Lin CompModel CompSpec CompProofs CompProofs2 CompProofs7 CompProofs10 InterpModel InterpSpec InterpProofs InterpProofs2.
Local Open Scope Qc_scope.
Set Default Proof Using "Type".

Lemma nth_error_Some_lt {A} (l : list A) k x : nth_error l k = Some x -> (k < length l)%nat.
Proof. intros H. apply nth_error_Some. congruence. Qed.
Lemma set_inv o val d o' : wf_iop o -> set o val d = Ok o' -> i_left o <= val /\ val <= i_right o /\ (d <= 2)%nat /\
  wf_iop o' /\ i_nodes o' = i_nodes o /\ i_left o' = i_left o /\ i_right o' = i_right o /\ i_val o' = Some val /\ i_derivative o' = Some d /\
  exists c, i_coeffs o' = map Some c /\ exact_weights (i_nodes o) val d c.
Proof.
  intros W E. assert (Hl : i_left o <= val).
  { destruct (le_q (i_left o) val) eqn:L; [apply le_q_le, L|]. unfold set in E. rewrite L in E. discriminate. }
  assert (Hr : val <= i_right o).
  { destruct (le_q val (i_right o)) eqn:L; [apply le_q_le, L|]. unfold set in E. rewrite L in E. destruct (le_q _ _); discriminate. }
  assert (Hd : (d <= 2)%nat).
  { destruct (le_lt_dec d 2) as [H|H]; [exact H|]. rewrite (proj2 (set_rejects o val d) Hl Hr H) in E. discriminate. }
  destruct (set_ok o val d W Hl Hr Hd) as (o1 & c & E1 & H). rewrite E in E1. injection E1 as <-. intuition eauto.
Qed.
Lemma sets_inv calls : forall o o', wf_iop o -> sets o calls = Ok o' -> wf_iop o' /\ i_nodes o' = i_nodes o /\ i_left o' = i_left o /\ i_right o' = i_right o.
Proof.
  induction calls as [|(val, d) r IH]; intros o o' W E; cbn [sets fst snd] in E; [injection E as <-; auto|].
  destruct (set o val d) as [o1|] eqn:E1; [|discriminate]. rewrite bind_Ok in E. destruct (set_inv o val d o1 W E1) as (_ & _ & _ & W1 & N1 & L1 & R1 & _).
  destruct (IH o1 o' W1 E) as (W' & N' & L' & R'). rewrite N', L', R'. auto.
Qed.

Lemma interpolation_ok nodes l r o0 calls o val d : new_interp nodes l r = Ok o0 -> sets o0 calls = Ok o ->
  (l <= val -> val <= r -> (d <= 2)%nat -> exists o' c, set o val d = Ok o' /\ i_val o' = Some val /\ i_coeffs o' = map Some c /\ exact_weights nodes val d c) /\
  (~ (l <= val /\ val <= r) -> set o val d = Err EAssert) /\ (l <= val -> val <= r -> (2 < d)%nat -> set o val d = Err ENotImpl).
Proof.
  intros E0 E. pose proof (proj2 (new_interp_ok nodes l r) o0 E0) as inc. destruct (proj1 (new_interp_ok nodes l r) inc) as (o1 & E1 & W1 & N1 & L1 & R1). rewrite E0 in E1. injection E1 as <-.
  destruct (sets_inv calls o0 o W1 E) as (W & N' & L' & R'). rewrite N1 in N'. rewrite L1 in L'. rewrite R1 in R'. split; [|split].
  - intros Hl Hr Hd. destruct (set_ok o val d W) as (o' & c & E' & H'); [rewrite L'; auto|rewrite R'; auto|auto|]. exists o', c. rewrite N' in H'. intuition.
  - intros H. apply set_rejects. rewrite L', R'. destruct (Qclt_le_dec val l) as [A|A]; [left; apply Qclt_not_le, A|]. destruct (Qclt_le_dec r val) as [B|B]; [right; apply Qclt_not_le, B|]. tauto.
  - intros Hl Hr Hd. apply set_rejects; rewrite ?L', ?R'; auto.
Qed.
Lemma constructor_ok nodes l r : (exists o, new_interp nodes l r = Ok o) <-> increasing nodes.
Proof. split; [intros (o & E); apply (proj2 (new_interp_ok nodes l r) o E)|intros H; destruct (proj1 (new_interp_ok nodes l r) H) as (o & E & _); eauto]. Qed.

(** The sum of samples with exact weights. *)
Lemma weighted_samples nodes val d c ops P i j : exact_weights nodes val d c -> samples nodes ops P -> ops <> [] ->
  suml (map (fun p => fst p * snd p i j) (combine c (map meaning ops))) = evalp (Nat.iter d deriv (P i j)) val.
Proof.
  intros (Lc & Hc) (Lo & Hs) Hne.
  assert (E : map (fun p => fst p * snd p i j) (combine c (map meaning ops)) = tab (length nodes) (fun k => vat c k * evalp (P i j) (vat nodes k))).
  { apply vec_ext.
    - rewrite map_length, combine_length, map_length, tab_length. lia.
    - intros k Hk. rewrite map_length, combine_length, map_length, Lc, Lo, Nat.min_id in Hk. rewrite vat_tab by auto. apply vat_nth_error. rewrite nth_error_map.
      destruct (nth_error ops k) as [e|] eqn:Ee; [|apply nth_error_None in Ee; lia].
      assert (Ec : nth_error (combine c (map meaning ops)) k = Some (vat c k, meaning e)).
      { rewrite (nth_error_nth' _ (0, (fun _ _ => 0) : mat)) by (rewrite combine_length, map_length; lia). f_equal. rewrite combine_nth by (rewrite map_length; lia).
        f_equal. apply nth_error_nth. rewrite nth_error_map, Ee. reflexivity. }
      unfold mat in *. rewrite Ec. cbn [option_map fst snd]. rewrite (proj2 (Hs k e i j Ee)). reflexivity. }
  rewrite E, suml_tab. destruct ops as [|e ops]; [congruence|]. apply Hc. apply (Hs O e i j). reflexivity.
Qed.

(** After set, the products are those with the interpolated matrices. *)
Lemma interpolated_products lens nodes l r o0 calls o val d o' ops z P : new_interp nodes l r = Ok o0 -> sets o0 calls = Ok o -> set o val d = Ok o' ->
  samples nodes ops P -> (forall c, length c = length nodes -> ok lens (ESum ops c z)) ->
  exists e, interp_expr o' ops z = Ok e /\ ok lens e /\ dims e = hd (0, 0)%nat (map dims ops) /\ scratch e = z :: concat (map scratch ops) /\
    (forall i j, meaning e i j = evalp (Nat.iter d deriv (P i j)) val) /\ forall tr a, offers e tr a = forallb (fun b => b) (map (fun e => offers e tr false) ops) && (if tr then square e else negb a).
Proof.
  intros E0 E E' Hs Hok. destruct (proj1 (new_interp_ok nodes l r) (proj2 (new_interp_ok nodes l r) o0 E0)) as (o1 & E1 & W1 & N1 & L1 & R1). rewrite E0 in E1. injection E1 as <-.
  destruct (sets_inv calls o0 o W1 E) as (W & N' & _). destruct (set_inv o val d o' W E') as (_ & _ & _ & _ & _ & _ & _ & _ & _ & c & Ec & Hc). rewrite N', N1 in Hc.
  exists (ESum ops c z). unfold interp_expr. rewrite Ec, all_init_some, bind_Ok. split; [reflexivity|]. split; [apply Hok; apply Hc|]. split; [reflexivity|]. split; [reflexivity|]. split; [|reflexivity].
  intros i j. cbn [meaning]. apply (weighted_samples nodes); auto. apply (Hok c (proj1 Hc)).
Qed.

(** * Several intervals *)
Definition multi_ok (intervals : list (Qc * Qc)) (nodes : list (list Qc)) (m : mop) : Prop :=
  length (m_ops m) = length intervals /\
  forall k o, nth_error (m_ops m) k = Some o -> wf_iop o /\ i_nodes o = nth k nodes [] /\ nth_error intervals k = Some (i_left o, i_right o).
Definition spans (intervals : list (Qc * Qc)) (m : mop) : Prop :=
  forall p, In p intervals -> (exists lo, m_left m = Some lo /\ lo <= fst p) /\ (exists hi, m_right m = Some hi /\ snd p <= hi).

Lemma min_o_le a b : min_o a b <= b /\ forall c, a = Some c -> min_o a b <= c.
Proof.
  unfold min_o. destruct a as [a|]; [|split; [apply Qcle_refl|discriminate]]. destruct (le_q a b) eqn:E.
  - split; [apply le_q_le, E|]. intros c H. injection H as ->. apply Qcle_refl.
  - split; [apply Qcle_refl|]. intros c H. injection H as ->. destruct (Qclt_le_dec c b) as [H|H]; [|exact H]. apply Qclt_le_weak in H. apply le_q_true in H. congruence.
Qed.
Lemma max_o_ge a b : b <= max_o a b /\ forall c, a = Some c -> c <= max_o a b.
Proof.
  unfold max_o. destruct a as [a|]; [|split; [apply Qcle_refl|discriminate]]. destruct (le_q b a) eqn:E.
  - split; [apply le_q_le, E|]. intros c H. injection H as ->. apply Qcle_refl.
  - split; [apply Qcle_refl|]. intros c H. injection H as ->. destruct (Qclt_le_dec b c) as [H|H]; [|exact H]. apply Qclt_le_weak in H. apply le_q_true in H. congruence.
Qed.

Lemma new_multi_ok intervals nodes m : new_multi intervals nodes = Ok m -> multi_ok intervals nodes m /\ spans intervals m.
Proof.
  intros E. 
  assert (G : forall k s m0 m, multi_ok (firstn s intervals) nodes m0 -> spans (firstn s intervals) m0 -> (s + k = length intervals)%nat ->
    for_n k s (fun k m => p <- aget intervals k ;; x <- aget nodes k ;; o <- new_interp x (fst p) (snd p) ;;
      Ok (MOp (m_ops m ++ [o]) (Some (min_o (m_left m) (fst p))) (Some (max_o (m_right m) (snd p))) None)) m0 = Ok m -> multi_ok intervals nodes m /\ spans intervals m).
  { clear. induction k as [|k IH]; intros s m0 m H1 H2 Hs E; cbn [for_n] in E.
    - injection E as <-. rewrite firstn_all2 in H1, H2 by lia. auto.
    - destruct (aget intervals s) as [p|] eqn:Ep; [|discriminate]. rewrite bind_Ok in E. destruct (aget nodes s) as [x|] eqn:Ex; [|discriminate]. rewrite bind_Ok in E.
      destruct (new_interp x (fst p) (snd p)) as [o|] eqn:Eo; [|discriminate]. rewrite !bind_Ok in E. apply aget_inv in Ep, Ex.
      assert (F : firstn (S s) intervals = firstn s intervals ++ [p]).
      { clear - Ep. revert s Ep. induction intervals as [|q l IH]; intros [|s] E; cbn in *; try discriminate; [injection E as ->; reflexivity|]. f_equal. apply IH, E. }
      assert (Ls : length (firstn s intervals) = s) by (rewrite firstn_length; lia).
      apply (IH (S s) _ _) in E; [exact E| | |lia].
      + rewrite F. destruct H1 as (L1 & H1). cbn [m_ops]. split; [cbn [m_ops]; rewrite !app_length; cbn [length]; lia|]. cbn [m_ops]. intros j o' Ho'. destruct (Nat.ltb_spec j s) as [Hj|Hj].
        * rewrite nth_error_app1 in Ho' by lia. rewrite nth_error_app1 by lia. apply H1, Ho'.
        * destruct (Nat.eq_dec j s) as [-> |Hne].
          -- rewrite nth_error_app2 in Ho' by lia. rewrite L1, Ls, Nat.sub_diag in Ho'. injection Ho' as <-. rewrite nth_error_app2 by lia. rewrite Ls, Nat.sub_diag.
             destruct (proj1 (new_interp_ok x (fst p) (snd p)) (proj2 (new_interp_ok x (fst p) (snd p)) o Eo)) as (o1 & E1 & W & N1 & L & R). rewrite Eo in E1. injection E1 as <-.
             split; [exact W|]. split; [rewrite N1; symmetry; apply nth_error_nth, Ex|]. rewrite L, R. cbn. f_equal. apply surjective_pairing.
          -- rewrite (proj2 (nth_error_None _ _)) in Ho'; [discriminate|]. rewrite app_length. cbn [length]. lia.
      + rewrite F. intros q Hq. cbn [m_left m_right]. destruct (min_o_le (m_left m0) (fst p)) as (A1 & A2). destruct (max_o_ge (m_right m0) (snd p)) as (B1 & B2).
        apply in_app_or in Hq. destruct Hq as [Hq|[<- |[]]].
        * destruct (H2 q Hq) as ((lo & El & Hl) & (hi & Eh & Hh)). split; eexists; (split; [reflexivity|]).
          -- eapply Qcle_trans; [apply A2, El|exact Hl].
          -- eapply Qcle_trans; [exact Hh|apply B2, Eh].
        * split; eexists; (split; [reflexivity|]); auto. }
  unfold new_multi, for_range in E. rewrite Nat.sub_0_r in E. apply (G (length intervals) 0%nat _ m) in E; auto.
  - split; [reflexivity|]. intros [|k] o H; discriminate.
  - intros p [].
Qed.

Lemma set_first_hit val d : forall ops k s o, (forall o, In o ops -> wf_iop o) -> nth_error ops k = Some o -> i_left o <= val -> val <= i_right o -> (d <= 2)%nat ->
  (forall k' o', (k' < k)%nat -> nth_error ops k' = Some o' -> ~ (i_left o' <= val /\ val <= i_right o')) ->
  exists o', set o val d = Ok o' /\ set_first val d s ops = Ok (upd ops k o', (s + k)%nat).
Proof.
  induction ops as [|a ops IH]; intros k s o W Hk Hl Hr Hd Hmin; [destruct k; discriminate|]. destruct k as [|k].
  - injection Hk as ->. destruct (set_ok o val d (W o (or_introl eq_refl)) Hl Hr Hd) as (o' & c & E & _). exists o'. split; [exact E|]. cbn [set_first]. rewrite !le_q_true by auto. cbn [andb].
    rewrite E, bind_Ok, Nat.add_0_r. reflexivity.
  - destruct (IH k (S s) o) as (o' & E & E'); auto.
    + intros q Hq. apply W. right; auto.
    + intros k' o' H1 H2. apply (Hmin (S k')); [lia|exact H2].
    + exists o'. split; [exact E|]. cbn [set_first]. assert (B : le_q (i_left a) val && le_q val (i_right a) = false).
      { destruct (le_q (i_left a) val) eqn:B1; [|reflexivity]. destruct (le_q val (i_right a)) eqn:B2; [|reflexivity]. apply le_q_le in B1, B2. exfalso. apply (Hmin O a); [lia|reflexivity|auto]. }
      rewrite B, E', bind_Ok. cbn [fst snd upd]. replace (s + S k)%nat with (S s + k)%nat by lia. reflexivity.
Qed.
Lemma set_first_miss val d : forall ops s, (forall o, In o ops -> ~ (i_left o <= val /\ val <= i_right o)) -> set_first val d s ops = Err EAssert.
Proof.
  induction ops as [|a ops IH]; intros s H; [reflexivity|]. cbn [set_first].
  assert (B : le_q (i_left a) val && le_q val (i_right a) = false).
  { destruct (le_q (i_left a) val) eqn:B1; [|reflexivity]. destruct (le_q val (i_right a)) eqn:B2; [|reflexivity]. apply le_q_le in B1, B2. exfalso. apply (H a); [left; auto|auto]. }
  rewrite B, IH by (intros; apply H; right; auto). reflexivity.
Qed.
Lemma set_first_inv val d : forall ops s r, (forall o, In o ops -> wf_iop o) -> set_first val d s ops = Ok r ->
  length (fst r) = length ops /\ forall k o, nth_error (fst r) k = Some o -> wf_iop o /\ exists o0, nth_error ops k = Some o0 /\ i_nodes o = i_nodes o0 /\ i_left o = i_left o0 /\ i_right o = i_right o0.
Proof.
  induction ops as [|a ops IH]; intros s r W E; [discriminate|]. cbn [set_first] in E. destruct (_ && _).
  - destruct (set a val d) as [o'|] eqn:Ea; [|discriminate]. rewrite bind_Ok in E. injection E as <-. cbn [fst]. split; [reflexivity|]. intros [|k] o Ho.
    + injection Ho as <-. destruct (set_inv a val d o' (W a (or_introl eq_refl)) Ea) as (_ & _ & _ & W' & N' & L' & R' & _). split; [exact W'|]. exists a. auto.
    + split; [apply W; right; eapply nth_error_In, Ho|]. exists o. auto.
  - destruct (set_first val d (S s) ops) as [q|] eqn:Eq; [|discriminate]. rewrite bind_Ok in E. injection E as <-. cbn [fst].
    destruct (IH (S s) q (fun o H => W o (or_intror H)) Eq) as (L & H). split; [cbn [length]; rewrite L; reflexivity|]. intros [|k] o Ho.
    + injection Ho as <-. split; [apply W; left; auto|]. exists a. auto.
    + apply H, Ho.
Qed.
Lemma multi_wf intervals nodes m : multi_ok intervals nodes m -> forall o, In o (m_ops m) -> wf_iop o.
Proof. intros (_ & H) o Ho. apply In_nth_error in Ho. destruct Ho as (k & Hk). apply (H k o Hk). Qed.
Lemma set_multi_inv intervals nodes m val d m' : multi_ok intervals nodes m -> spans intervals m -> set_multi m val d = Ok m' -> multi_ok intervals nodes m' /\ spans intervals m'.
Proof.
  intros H S E. unfold set_multi in E. destruct (match m_left m with Some l => le_q l val | None => false end); [|discriminate]. cbn [guard] in E. rewrite bind_Ok in E.
  destruct (match m_right m with Some r => le_q val r | None => false end); [|discriminate]. cbn [guard] in E. rewrite bind_Ok in E.
  destruct (set_first val d 0 (m_ops m)) as [q|] eqn:Eq; [|discriminate]. rewrite bind_Ok in E. injection E as <-.
  destruct (set_first_inv val d _ _ _ (multi_wf _ _ _ H) Eq) as (L & G). split; [|exact S]. destruct H as (L0 & H). split; [cbn [m_ops]; congruence|]. cbn [m_ops].
  intros k o Ho. destruct (G k o Ho) as (W & o0 & E0 & N & Hl & Hr). destruct (H k o0 E0) as (_ & N0 & I0). rewrite N, Hl, Hr. auto.
Qed.
Lemma sets_multi_inv intervals nodes calls : forall m m', multi_ok intervals nodes m -> spans intervals m -> sets_multi m calls = Ok m' -> multi_ok intervals nodes m' /\ spans intervals m'.
Proof.
  induction calls as [|(val, d) r IH]; intros m m' H S E; cbn [sets_multi fst snd] in E; [injection E as <-; auto|].
  destruct (set_multi m val d) as [m1|] eqn:E1; [|discriminate]. rewrite bind_Ok in E. destruct (set_multi_inv _ _ _ _ _ _ H S E1) as (H1 & S1). apply (IH m1 m' H1 S1 E).
Qed.
Lemma multi_thm intervals nodes m0 calls m val d : new_multi intervals nodes = Ok m0 -> sets_multi m0 calls = Ok m ->
  (forall k p, nth_error intervals k = Some p -> between val p -> (forall k' p', (k' < k)%nat -> nth_error intervals k' = Some p' -> ~ between val p') -> (d <= 2)%nat ->
     exists m' o c, set_multi m val d = Ok m' /\ m_selected m' = Some k /\ nth_error (m_ops m') k = Some o /\ i_coeffs o = map Some c /\ exact_weights (nth k nodes []) val d c) /\
  ((forall p, In p intervals -> ~ between val p) -> set_multi m val d = Err EAssert).
Proof.
  intros E0 E. destruct (new_multi_ok _ _ _ E0) as (H0 & S0). destruct (sets_multi_inv _ _ _ _ _ H0 S0 E) as ((L & H) & S). split.
  - intros k p Hp (B1 & B2) Hmin Hd.
    destruct (nth_error (m_ops m) k) as [o|] eqn:Eo; [|apply nth_error_None in Eo; apply nth_error_Some_lt in Hp; lia].
    destruct (H k o Eo) as (W & N & I). rewrite Hp in I. injection I as ->. cbn [fst snd] in B1, B2.
    destruct (set_first_hit val d (m_ops m) k 0 o) as (o' & Es & Ef); auto.
    { intros q Hq. apply (multi_wf intervals nodes m); [split; auto|exact Hq]. }
    { intros k' o1 H1 H2. destruct (H k' o1 H2) as (_ & _ & I1). apply (Hmin k' _ H1 I1). }
    destruct (S _ (nth_error_In _ _ Hp)) as ((lo & El & Hl) & (hi & Eh & Hh)). cbn [fst snd] in Hl, Hh.
    destruct (set_inv o val d o' W Es) as (_ & _ & _ & _ & _ & _ & _ & _ & _ & c & Ec & Hc). rewrite N in Hc.
    exists (MOp (upd (m_ops m) k o') (m_left m) (m_right m) (Some k)), o', c. split; [|split; [reflexivity|split; [|auto]]].
    + unfold set_multi. rewrite El, Eh. rewrite !le_q_true by (eapply Qcle_trans; eauto). cbn [guard]. rewrite !bind_Ok, Ef. reflexivity.
    + cbn [m_ops]. apply nth_error_upd_eq. apply nth_error_Some_lt in Eo. exact Eo.
  - intros Hno. unfold set_multi. rewrite set_first_miss.
    + destruct (match m_left m with Some l => le_q l val | None => false end); [|reflexivity]. cbn [guard]. rewrite bind_Ok. destruct (match m_right m with Some r => le_q val r | None => false end); reflexivity.
    + intros o Ho Hb. apply In_nth_error in Ho. destruct Ho as (k & Ek). destruct (H k o Ek) as (_ & _ & I). apply (Hno _ (nth_error_In _ _ I)). exact Hb.
Qed.

(** * Delayed construction *)
Lemma find_filter {A} (p q : A -> bool) l : (forall x, p x = true -> q x = true) -> find p (filter q l) = find p l.
Proof.
  intros H. induction l as [|x l IH]; [reflexivity|]. cbn [filter find]. destruct (q x) eqn:Eq; cbn [find].
  - destruct (p x); auto.
  - destruct (p x) eqn:Ep; [rewrite (H x Ep) in Eq; discriminate|]. exact IH.
Qed.
Lemma find_set_param key k v l : find_param key (set_param k v l) = if (k =? key)%nat then Some v else find_param key l.
Proof.
  unfold find_param, set_param. cbn [find fst]. destruct (Nat.eqb_spec k key) as [-> |Hne]; [reflexivity|]. rewrite find_filter; [reflexivity|].
  intros (a, b) H. cbn [fst] in *. apply Nat.eqb_eq in H. subst a. destruct (Nat.eqb_spec key k); [congruence|reflexivity].
Qed.
Section delayed.
  Context (construct : list (nat * nat) -> res expr).
  Definition fresh_A (o : dop) : Prop := y_constructed o = true -> exists A, y_A o = Some A /\ construct (y_params o) = Ok A /\ shape_of A = (y_rows o, y_cols o).
  Lemma set_params_ok kw : forall o, fresh_A o -> fresh_A (set_params o kw) /\ y_rows (set_params o kw) = y_rows o /\ y_cols (set_params o kw) = y_cols o /\
    forall key, find_param key (y_params (set_params o kw)) = last_value key kw (find_param key (y_params o)).
  Proof.
    induction kw as [|(k, v) kw IH]; intros o H; [auto|]. unfold set_params. cbn [fold_left fst snd]. fold (set_params (if match find_param k (y_params o) with Some v0 => negb (v0 =? v)%nat | None => true end then DOp (y_rows o) (y_cols o) (set_param k v (y_params o)) (y_A o) false else o) kw).
    destruct (match find_param k (y_params o) with Some v0 => negb (v0 =? v)%nat | None => true end) eqn:E.
    - destruct (IH (DOp (y_rows o) (y_cols o) (set_param k v (y_params o)) (y_A o) false)) as (H1 & H2 & H3 & H4); [intros F; discriminate|]. split; [exact H1|]. split; [exact H2|]. split; [exact H3|].
      intros key. rewrite H4. cbn [y_params last_value fst snd]. rewrite find_set_param. reflexivity.
    - destruct (IH o H) as (H1 & H2 & H3 & H4). split; [exact H1|]. split; [exact H2|]. split; [exact H3|]. intros key. rewrite H4. cbn [last_value fst snd].
      destruct (Nat.eqb_spec k key) as [<- |]; [|reflexivity]. f_equal. destruct (find_param k (y_params o)) as [v0|]; [|discriminate]. apply negb_false_iff, Nat.eqb_eq in E. congruence.
  Qed.
  Lemma delayed_expr_ok o A o' : fresh_A o -> delayed_expr construct o = Ok (A, o') ->
    construct (y_params o) = Ok A /\ shape_of A = (y_rows o, y_cols o) /\ fresh_A o' /\ y_params o' = y_params o /\ y_rows o' = y_rows o /\ y_cols o' = y_cols o.
  Proof.
    intros H E. unfold delayed_expr, assure_constructed in E. destruct (y_constructed o) eqn:C.
    - rewrite bind_Ok in E. destruct (H C) as (B & EB & EC & ES). rewrite EB in E. injection E as <- <-. auto 10.
    - destruct (construct (y_params o)) as [B|] eqn:EC; [|discriminate]. rewrite bind_Ok in E. destruct (Nat.eqb_spec (fst (shape_of B)) (y_rows o)) as [E1|]; [|discriminate].
      cbn [guard] in E. rewrite bind_Ok in E. destruct (Nat.eqb_spec (snd (shape_of B)) (y_cols o)) as [E2|]; [|discriminate]. cbn [guard] in E. rewrite !bind_Ok in E. cbn [y_A] in E. injection E as <- <-.
      assert (ES : shape_of B = (y_rows o, y_cols o)) by (rewrite <- E1, <- E2; apply surjective_pairing).
      split; [reflexivity|]. split; [exact ES|]. split; [|auto]. intros _. exists B. auto.
  Qed.
End delayed.
Lemma used_ext construct n m l : forall now now' out, (forall key, now key = now' key) -> used construct n m l now out -> used construct n m l now' out.
Proof.
  induction l as [|[kw|] l IH]; intros now now' out H U; cbn [used] in *.
  - exact U.
  - eapply IH; [|exact U]. intros key. cbv beta. rewrite H. reflexivity.
  - destruct U as (A & out' & params & -> & Hp & Hc & Hs & U). exists A, out', params. split; [reflexivity|]. split; [intros; rewrite <- H; auto|]. split; [auto|]. split; [auto|]. eapply IH; eauto.
Qed.
Lemma run_ok construct l : forall o out o', fresh_A construct o -> run construct o l = Ok (out, o') -> used construct (y_rows o) (y_cols o) l (fun key => find_param key (y_params o)) out.
Proof.
  induction l as [|[kw|] l IH]; intros o out o' H E; cbn [run used] in *.
  - injection E as <- <-. reflexivity.
  - destruct (set_params_ok construct kw o H) as (H1 & H2 & H3 & H4). pose proof (IH _ _ _ H1 E) as U. rewrite H2, H3 in U. eapply used_ext; [|exact U]. intros key. apply H4.
  - destruct (delayed_expr construct o) as [(A, o1)|] eqn:E1; [|discriminate]. rewrite bind_Ok in E. cbn [fst snd] in E. destruct (delayed_expr_ok construct o A o1 H E1) as (C1 & S1 & F1 & P1 & R1 & K1).
    destruct (run construct o1 l) as [(out', o2)|] eqn:E2; [|discriminate]. rewrite bind_Ok in E. injection E as <- <-. cbn [fst snd].
    exists A, out', (y_params o). split; [reflexivity|]. split; [reflexivity|]. split; [exact C1|]. split; [exact S1|]. pose proof (IH _ _ _ F1 E2) as U. rewrite P1, R1, K1 in U. exact U.
Qed.
Lemma delayed_thm construct n m l out o : run construct (new_delayed n m) l = Ok (out, o) -> used construct n m l (fun _ => None) out.
Proof. intros E. apply (run_ok construct l _ out o) in E; [exact E|]. intros H. discriminate. Qed.
