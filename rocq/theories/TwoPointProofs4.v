(** Range of fractional orders, and derivatives with respect to parameters. *)
From Coq Require Import R_sqrt Ratan Rtrigo_def.
From Verif Require MeshProofs.
From Verif Require Import LinR InteractionModel TwoPointModel TwoPointSpec TwoPointProofs TwoPointProofs2 TwoPointProofs3.
Open Scope R_scope.
Set Default Proof Using "Type".

Lemma cubic_range t : 0 <= t <= 1 -> 0 <= cubic t <= 1.
Proof.
  intros H. unfold cubic. replace (3 * t ^ 2 - 2 * t ^ 3) with (t * t * (3 - 2 * t)) by ring. split.
  - apply Rmult_le_pos; nra.
  - assert (0 <= (1 - t) * (1 - t) * (1 + 2 * t)) by (apply Rmult_le_pos; nra). nra.
Qed.
Lemma between a b c : 0 <= c <= 1 -> Rmin a b <= a + (b - a) * c <= Rmax a b.
Proof. intros H. unfold Rmin, Rmax. destruct (Rle_dec a b); nra. Qed.
Lemma step_arg r itf x0 : 0 < r -> itf - r <= x0 <= itf + r -> 0 <= (x0 - itf) * (hf / r) + hf <= 1.
Proof.
  intros Hr H. assert (E : (x0 - itf) * (hf / r) + hf = (x0 - itf + r) / (2 * r)) by (unfold hf; field; lra). rewrite E.
  assert (P : 0 < / (2 * r)) by (apply Rinv_0_lt_compat; lra). assert (I : 2 * r * / (2 * r) = 1) by (apply Rinv_r; lra). unfold Rdiv. nra.
Qed.
Lemma trunc_range v n : (0 < n)%nat -> - 1 < v < INR n -> (0 <= trunc v < Z.of_nat n)%Z.
Proof.
  intros Hn H. unfold trunc. destruct (Rle_dec 0 v).
  - destruct (base_Int_part v) as (B1 & B2). split.
    + assert (IZR (-1) < IZR (Int_part v)) by (simpl; lra). apply lt_IZR in H0. lia.
    + apply lt_IZR. rewrite <- INR_IZR_INZ. lra.
  - destruct (base_Int_part (- v)) as (B1 & B2).
    assert (A1 : IZR (Int_part (- v)) < IZR 1) by (simpl; lra). assert (A2 : IZR (-1) < IZR (Int_part (- v))) by (simpl; lra).
    apply lt_IZR in A1, A2. assert (Int_part (- v) = 0%Z) as -> by lia. lia.
Qed.
Lemma min4_le a b c d : let m := min4 a b c d in m <= a /\ m <= b /\ m <= c /\ m <= d.
Proof.
  cbv zeta. unfold min4. pose proof (Rmin_l a b). pose proof (Rmin_r a b). pose proof (Rmin_l (Rmin a b) c). pose proof (Rmin_r (Rmin a b) c).
  pose proof (Rmin_l (Rmin (Rmin a b) c) d). pose proof (Rmin_r (Rmin (Rmin a b) c) d). lra.
Qed.
Lemma max4_le a b c d : let m := max4 a b c d in a <= m /\ b <= m /\ c <= m /\ d <= m.
Proof.
  cbv zeta. unfold max4. pose proof (Rmax_l a b). pose proof (Rmax_r a b). pose proof (Rmax_l (Rmax a b) c). pose proof (Rmax_r (Rmax a b) c).
  pose proof (Rmax_l (Rmax (Rmax a b) c) d). pose proof (Rmax_r (Rmax (Rmax a b) c) d). lra.
Qed.
Lemma made_range o a b c num f : made o a b c num f -> (forall x y v, f x y = Ok v -> a <= v <= b) -> in_range o.
Proof.
  intros (_ & _ & _ & Ea & Eb & _ & H1 & H2) H. unfold in_range, tp_call. rewrite Ea, Eb. split.
  - intros x y v. rewrite H1. apply H.
  - intros n x y v. rewrite H2. apply H.
Qed.

(** The value of a finite element function. *)
Definition lke_term (L : lookup) (u : list R) (c : nat) (b : list R) (k : nat) : R :=
  if (0 <=? lk_dof L c k)%Z then lk_shape L k b * nth (Z.to_nat (lk_dof L c k)) u 0 else 0.
Lemma lke_value L u c b x : lk_find L x = Some (c, b) -> (forall k, (k < lk_dofs L)%nat -> (lk_dof L c k < Z.of_nat (length u))%Z) ->
  lke_eval L u x = Ok (rsum (lk_dofs L) (lke_term L u c b)).
Proof.
  intros F H. unfold lke_eval. rewrite F. loop_inv (fun k s => s = rsum k (lke_term L u c b)) st E HI; [lia|reflexivity|..].
  - intros k s Hk ->. cbn [rsum]. cbv zeta. destruct (Z.leb_spec 0 (lk_dof L c k)) as [Z0|Z0].
    + rewrite (zaget_in u _ 0) by (specialize (H k); lia). cbn [bind]. eexists. split; [reflexivity|].
      f_equal. unfold lke_term. destruct (Z.leb_spec 0 (lk_dof L c k)); [reflexivity|lia].
    + eexists. split; [reflexivity|]. unfold lke_term at 3. destruct (Z.leb_spec 0 (lk_dof L c k)); [lia|ring].
  - rewrite E, HI. reflexivity.
Qed.
Lemma for_range_step_ok {S} (f : nat -> S -> res S) n s s' k : for_range 0 n f s = Ok s' -> (k < n)%nat -> exists a b, f k a = Ok b.
Proof.
  unfold for_range. assert (K : forall m i s, for_n m i f s = Ok s' -> (i <= k < i + m)%nat -> exists a b, f k a = Ok b).
  { induction m as [|m IH]; intros i t E Hk; [lia|]. cbn [for_n] in E. apply bind_ok in E as (t' & Et & E).
    destruct (Nat.eq_dec i k) as [->|]; [eauto|]. apply (IH (Datatypes.S i) t'); auto. lia. }
  intros E Hk. apply (K (n - 0)%nat 0%nat s); auto. lia.
Qed.
Lemma lke_range L u smin smax x v : convex_shapes L -> (forall w, In w u -> smin <= w <= smax) -> lke_eval L u x = Ok v -> smin <= v <= smax.
Proof.
  intros C U E. assert (E' := E). unfold lke_eval in E'. destruct (lk_find L x) as [(c & b)|] eqn:F; [|discriminate].
  destruct (C x c b F) as (C1 & C2).
  assert (D : forall k, (k < lk_dofs L)%nat -> (lk_dof L c k < Z.of_nat (length u))%Z).
  { intros k Hk. destruct (for_range_step_ok _ _ _ _ k E' Hk) as (p & q & Eq). cbv zeta in Eq.
    destruct (Z.leb_spec 0 (lk_dof L c k)); [|lia]. apply bind_ok in Eq as (w & Ew & _).
    destruct (Z_lt_ge_dec (lk_dof L c k) (Z.of_nat (length u))) as [|G]; auto. rewrite zaget_out in Ew by lia. discriminate. }
  rewrite (lke_value L u c b x F D) in E. injection E as <-.
  assert (T : forall k, (k < lk_dofs L)%nat -> smin * lk_shape L k b <= lke_term L u c b k <= smax * lk_shape L k b).
  { intros k Hk. destruct (C1 k Hk) as (P1 & P2). unfold lke_term. destruct (Z.leb_spec 0 (lk_dof L c k)); [|lia].
    specialize (D k Hk). assert (In (nth (Z.to_nat (lk_dof L c k)) u 0) u) as I0 by (apply nth_In; lia). specialize (U _ I0). nra. }
  assert (G : forall n, (n <= lk_dofs L)%nat -> smin * rsum n (fun k => lk_shape L k b) <= rsum n (lke_term L u c b) <= smax * rsum n (fun k => lk_shape L k b)).
  { induction n as [|n IH]; intros Hn; cbn [rsum]; [lra|]. specialize (IH ltac:(lia)). specialize (T n ltac:(lia)). lra. }
  specialize (G _ (le_n _)). rewrite C2 in G. lra.
Qed.
Lemma step_range (f : R -> R) sl sr r itf x0 : 0 < r -> (itf - r <= x0 <= itf + r -> exists c, 0 <= c <= 1 /\ f x0 = sl + (sr - sl) * c) ->
  Rmin sl sr <= (if rlt x0 (itf - r) then sl else if rlt (itf + r) x0 then sr else f x0) <= Rmax sl sr.
Proof.
  intros Hr H. pose proof (Rmin_l sl sr). pose proof (Rmin_r sl sr). pose proof (Rmax_l sl sr). pose proof (Rmax_r sl sr).
  destruct (rlt_spec x0 (itf - r)); [lra|]. destruct (rlt_spec (itf + r) x0); [lra|].
  destruct H as (c & Hc & ->); [lra|]. apply between; auto.
Qed.
Lemma div_ok a b c : div a b = Ok c -> b <> 0 /\ c = a / b.
Proof. unfold div. destruct (req_spec b 0); [discriminate|]. intros E. injection E as <-. auto. Qed.

Lemma order_range e o : build_order e = Ok o -> range_ok e -> in_range o.
Proof.
  destruct e; intros E H; cbn [build_order range_ok] in *; try contradiction.
  - injection E as <-. split; unfold tp_call; cbn; intros; injection H0 as <-; lra.
  - destruct (made_const s) as (o' & Eo & M). rewrite Eo in E. injection E as <-. apply (made_range _ _ _ _ _ _ M).
    intros x y v Ev. injection Ev as <-. lra.
  - destruct (made_lambda dim smin smax sym f) as (o' & Eo & M). rewrite Eo in E. injection E as <-. apply (made_range _ _ _ _ _ _ M).
    intros x y v Ev. injection Ev as <-. apply H.
  - apply made_piecewise in E as (t & smin & smax & Hs & L & St & Hn & Ht & Hv & M). apply (made_range _ _ _ _ _ _ M).
    intros x y v Ev. destruct (piecewise_cases dim (length sVals) ind t x y L St) as [(i & j & Hi & Hj & _ & _ & Ex & _)|(K & _)].
    + rewrite Ex in Ev. injection Ev as <-. apply Hv.
      assert (Hr : forall row, In row t -> length row = length sVals) by (intros row Hrow; rewrite <- L; apply St; auto).
      eapply nth_error_In. apply (nth_concat t (length sVals) i j Hr); lia.
    + exfalso. pose proof (trunc_range _ _ Hn (H (firstn dim x))). pose proof (trunc_range _ _ Hn (H (firstn dim y))). lia.
  - destruct (made_leftRight sll srr slr srl itf) as (o' & Eo & M). rewrite Eo in E. injection E as <-. apply (made_range _ _ _ _ _ _ M).
    intros x y v Ev. unfold left_right in Ev. apply bind_ok in Ev as (x0 & _ & Ev). apply bind_ok in Ev as (y0 & _ & Ev). injection Ev as <-.
    pose proof (min4_le sll srr (mean_if_nan sll srr slr) (mean_if_nan sll srr srl)) as A.
    pose proof (max4_le sll srr (mean_if_nan sll srr slr) (mean_if_nan sll srr srl)) as B. cbv zeta in A, B.
    destruct (rlt x0 itf), (rlt y0 itf); lra.
  - apply made_innerOuter in E as (_ & M). apply (made_range _ _ _ _ _ _ M).
    intros x y v Ev. unfold innerOuter_value in Ev. apply bind_ok in Ev as ((a & b) & _ & Ev).
    pose proof (min4_le sii soo (mean_if_nan sii soo sio) (mean_if_nan sii soo soi)) as A.
    pose proof (max4_le sii soo (mean_if_nan sii soo sio) (mean_if_nan sii soo soi)) as B. cbv zeta in A, B.
    repeat match type of Ev with (if ?t then _ else _) = _ => destruct t end; try discriminate Ev; injection Ev as <-; lra.
  - destruct (made_islands sii soo r r2 sio soi) as (o' & Eo & M). rewrite Eo in E. injection E as <-. apply (made_range _ _ _ _ _ _ M).
    intros x y v Ev. unfold islands_value in Ev. apply bind_ok in Ev as (x0 & _ & Ev). apply bind_ok in Ev as (y0 & _ & Ev). injection Ev as <-.
    pose proof (min4_le sii soo (mean_if_nan sii soo sio) (mean_if_nan sii soo soi)) as A.
    pose proof (max4_le sii soo (mean_if_nan sii soo sio) (mean_if_nan sii soo soi)) as B. cbv zeta in A, B.
    destruct x0, y0; lra.
  - apply made_layers in E as (m & smin & smax & sym & _ & Hm & L & Hr & M & Hv & Hs). apply (made_range _ _ _ _ _ _ M).
    intros x y v Ev. rewrite layers_value_at in Ev. apply bind_ok in Ev as (i & Ei & Ev). apply bind_ok in Ev as (j & Ej & Ev).
    apply bind_ok in Ei as (a & _ & Ei). apply bind_ok in Ej as (b & _ & Ej). apply layer_of_spec in Ei; auto. apply layer_of_spec in Ej; auto.
    rewrite (aget_ok _ _ _ (nth_concat os m i j Hr ltac:(lia) Ej)) in Ev. injection Ev as <-. apply Hv; auto.
  - unfold constantNonSymFractionalOrder, singleVariableOrder in E. cbn in E. injection E as <-.
    split; unfold tp_call; cbn; intros; injection H0 as <-; lra.
  - apply bind_ok in E as (e & Ee & E). unfold singleVariableOrder in E. cbn in E. injection E as <-. unfold smoothStep in Ee.
    apply bind_ok in Ee as (slope & Es & Ee). apply div_ok in Es as (_ & ->). injection Ee as <-.
    assert (K : forall x v, ss_eval sl sr r (hf / r) itf x = Ok v -> Rmin sl sr <= v <= Rmax sl sr).
    { intros x v Ev. unfold ss_eval in Ev. apply bind_ok in Ev as (x0 & _ & Ev). injection Ev as <-.
      apply (step_range (fun x0 => sl + (sr - sl) * cubic ((x0 - itf) * (hf / r) + hf))); auto. intros Hx. eexists. split; [|reflexivity].
      apply cubic_range. apply step_arg; auto. }
    split; unfold tp_call; cbn [o_tp tp_eval tp_evalPtr ex_eval ex_evalPtr o_min o_max]; intros; eapply K; eauto.
  - apply bind_ok in E as (e & Ee & E). unfold singleVariableOrder in E. cbn in E. injection E as <-. unfold linearStep in Ee.
    apply bind_ok in Ee as (slope & Es & Ee). apply div_ok in Es as (_ & ->). injection Ee as <-.
    assert (K : forall x v, ls_eval sl sr r (hf * (sr - sl) / r) itf x = Ok v -> Rmin sl sr <= v <= Rmax sl sr).
    { intros x v Ev. unfold ls_eval in Ev. apply bind_ok in Ev as (x0 & _ & Ev). injection Ev as <-.
      apply (step_range (fun x0 => sl + hf * (sr - sl) / r * (x0 - itf + r))); auto. intros Hx.
      exists ((x0 - itf) * (hf / r) + hf). split; [apply step_arg; auto|]. unfold hf. field. lra. }
    split; unfold tp_call; cbn [o_tp tp_eval tp_evalPtr ex_eval ex_evalPtr o_min o_max]; intros; eapply K; eauto.
  - apply bind_ok in E as (e & _ & E). discriminate E.
  - unfold feFractionalOrder, singleVariableOrder in E. apply bind_ok in E as (_ & _ & E). injection E as <-. destruct H as (C & U).
    split; unfold tp_call; cbn [o_tp tp_eval tp_evalPtr lookupExtended ex_eval ex_evalPtr o_min o_max]; intros; eapply lke_range; eauto.
Qed.

(** * Derivatives *)
Lemma buf_map_some {A} (g : buf A) (h : nat -> A) n : length g = n -> (forall i, (i < n)%nat -> nth_error g i = Some (Some (h i))) -> g = map Some (tab n h).
Proof.
  intros L H. apply MeshProofs.nth_error_ext. intros i. destruct (Nat.lt_ge_cases i n) as [Hi|Hi].
  - rewrite H by auto. symmetry. apply map_nth_error. rewrite (nth_error_nth' _ (h 0%nat)) by (rewrite tab_length; auto).
    rewrite nth_tab by auto. reflexivity.
  - rewrite !(proj2 (nth_error_None _ _)); auto; [|lia]. rewrite map_length, tab_length. auto.
Qed.
Lemma put2_ok fac g : length g = 2%nat -> put2 fac g = Ok (map Some [1 - fac; fac]).
Proof. destruct g as [|a [|b [|c g]]]; cbn [length]; try lia. intros _. reflexivity. Qed.

Definition grad_at (L : lookup) (c : nat) (b : list R) (m d : nat) : R :=
  rsum m (fun k => if Z.eqb (lk_dof L c k) (Z.of_nat d) then lk_shape L k b else 0).
Lemma lke_grad_ok L x c b g0 : lk_find L x = Some (c, b) -> length g0 = lk_num L ->
  (forall k, (k < lk_dofs L)%nat -> (lk_dof L c k < Z.of_nat (lk_num L))%Z) ->
  lke_grad L x g0 = Ok (map Some (tab (lk_num L) (grad_at L c b (lk_dofs L)))).
Proof.
  intros F Lg H. unfold lke_grad. rewrite F. cbv beta iota.
  destruct (for_range_inv (fun k (g : buf R) => length g = lk_num L /\ forall d, (d < k)%nat -> nth_error g d = Some (Some 0))
    (fun dof g => wr g dof 0) 0 (lk_num L) g0) as (g1 & E1 & HI1);
    [lia|split; [auto|intros; lia]|..].
  { intros k g Hk (Lk & Hg). rewrite wr_ok by lia. eexists. split; [reflexivity|]. rewrite upd_length. split; auto. intros d Hd.
    destruct (Nat.eq_dec d k) as [->|].
    - apply nth_error_upd_eq. lia.
    - rewrite nth_error_upd_neq by auto. apply Hg. lia. }
  destruct HI1 as (L1 & H1). rewrite E1. cbn [bind].
  loop_inv (fun k (g : buf R) => length g = lk_num L /\ forall d, (d < lk_num L)%nat -> nth_error g d = Some (Some (grad_at L c b k d))) g2 E2 HI2;
    [lia|split; [auto|]|..].
  - intros d Hd. rewrite H1 by auto. reflexivity.
  - intros k g Hk (Lk & Hg). cbv zeta. destruct (Z.leb_spec 0 (lk_dof L c k)) as [Hz|Hz].
    + specialize (H k ltac:(lia)). rewrite (rd_ok g _ (grad_at L c b k (Z.to_nat (lk_dof L c k)))) by (apply Hg; lia). cbn [bind].
      rewrite wr_ok by lia. eexists. split; [reflexivity|]. rewrite upd_length. split; auto. intros d Hd. unfold grad_at. cbn [rsum].
      destruct (Nat.eq_dec d (Z.to_nat (lk_dof L c k))) as [->|N].
      * rewrite nth_error_upd_eq by lia. rewrite Z2Nat.id, Z.eqb_refl by auto. reflexivity.
      * rewrite nth_error_upd_neq by auto. rewrite Hg by auto. destruct (Z.eqb_spec (lk_dof L c k) (Z.of_nat d)); [lia|].
        unfold grad_at. do 2 f_equal. ring.
    + exists g. split; auto. split; auto. intros d Hd. rewrite Hg by auto. unfold grad_at. cbn [rsum].
      destruct (Z.eqb_spec (lk_dof L c k) (Z.of_nat d)); [lia|]. do 2 f_equal. ring.
  - destruct HI2 as (L2 & H2). rewrite E2. f_equal. apply buf_map_some; auto.
Qed.
Lemma grad_dot L c b u n : (forall k, (k < lk_dofs L)%nat -> (lk_dof L c k < Z.of_nat n)%Z) ->
  rsum (lk_dofs L) (lke_term L u c b) = dot n (tab n (grad_at L c b (lk_dofs L))) u.
Proof.
  intros H. unfold dot. transitivity (rsum n (fun d => rsum (lk_dofs L) (fun k => (if Z.eqb (lk_dof L c k) (Z.of_nat d) then lk_shape L k b else 0) * rat u d))).
  - rewrite rsum_swap. apply rsum_ext. intros k Hk. unfold lke_term. destruct (Z.leb_spec 0 (lk_dof L c k)) as [Hz|Hz].
    + rewrite (rsum_delta n (Z.to_nat (lk_dof L c k))).
      * rewrite Z2Nat.id, Z.eqb_refl by auto. reflexivity.
      * specialize (H k Hk). lia.
      * intros i Hi Ni. destruct (Z.eqb_spec (lk_dof L c k) (Z.of_nat i)); [lia|ring].
    + symmetry. apply rsum_zero. intros i Hi. destruct (Z.eqb_spec (lk_dof L c k) (Z.of_nat i)); [lia|ring].
  - apply rsum_ext. intros d Hd. rewrite rat_tab by auto. unfold grad_at.
    rewrite (rsum_ext _ _ (fun k => rat u d * (if Z.eqb (lk_dof L c k) (Z.of_nat d) then lk_shape L k b else 0))) by (intros; ring).
    rewrite rsum_scal. ring.
Qed.

Lemma order_gradient e o p x y g0 : build_order e = Ok o -> parameters e = Some p -> evaluable e x -> length g0 = o_num o ->
  exists g, o_grad o x y g0 = Ok (map Some g) /\ o_gradPtr o (length x) x y g0 = Ok (map Some g) /\
  length g = o_num o /\ length p = o_num o /\
  forall p' o', length p' = length p -> build_order (with_parameters e p') = Ok o' ->
  tp_call (o_tp o') x y = Ok (dot (o_num o) g p').
Proof.
  assert (D1 : forall a p', length p' = 1%nat -> dot 1 [a] p' = a * nth 0 p' 0).
  { intros a p' _. unfold dot, rat. cbn. ring. }
  assert (D2 : forall a b p', length p' = 2%nat -> dot 2 [a; b] p' = a * nth 0 p' 0 + b * nth 1 p' 0).
  { intros a b p' _. unfold dot, rat. cbn. ring. }
  destruct e; intros E Hp Hx Hg; cbn [build_order parameters evaluable with_parameters] in *; try discriminate; injection Hp as <-.
  - injection E as <-. cbn in Hg. destruct g0 as [|a [|b g0]]; try discriminate. exists [1]. repeat apply conj; try reflexivity.
    intros p' o' Lp E'. injection E' as <-. unfold tp_call. cbn [o_tp tp_eval constFractionalOrder o_num]. rewrite D1 by auto. f_equal. ring.
  - unfold constantNonSymFractionalOrder, singleVariableOrder in *. cbn in E. injection E as <-. cbn in Hg.
    destruct g0 as [|a [|b g0]]; try discriminate. exists [1]. repeat apply conj; try reflexivity.
    intros p' o' Lp E'. cbn in E'. injection E' as <-. unfold tp_call. cbn [o_tp tp_eval o_num]. rewrite D1 by auto. f_equal. ring.
  - apply bind_ok in E as (e & Ee & E). unfold singleVariableOrder in E. cbn in E. injection E as <-. unfold smoothStep in Ee.
    apply bind_ok in Ee as (slope & Es & Ee). injection Ee as <-. cbn [o_num] in *.
    destruct x as [|x0 x]; [simpl in Hx; lia|]. exists [1 - ss_fac r slope itf x0; ss_fac r slope itf x0].
    cbn [o_grad o_gradPtr ex_grad ex_gradPtr]. unfold ss_grad. cbn [aget nth_error bind]. rewrite put2_ok by auto.
    repeat apply conj; try reflexivity. intros p' o' Lp E'. apply bind_ok in E' as (e & Ee & E'). unfold singleVariableOrder in E'. cbn in E'. injection E' as <-.
    unfold smoothStep in Ee. rewrite Es in Ee. cbn [bind] in Ee. injection Ee as <-. unfold tp_call. cbn [o_tp tp_eval ex_eval]. rewrite D2 by auto.
    unfold ss_eval, ss_fac. cbn [aget nth_error bind]. f_equal. rcases; ring.
  - apply bind_ok in E as (e & Ee & E). unfold singleVariableOrder in E. cbn in E. injection E as <-. unfold linearStep in Ee.
    apply bind_ok in Ee as (slope & Es & Ee). injection Ee as <-. cbn [o_num] in *. apply div_ok in Es as (Hr & ->).
    destruct x as [|x0 x]; [simpl in Hx; lia|].
    set (fac := if rlt x0 (itf - r) then 0 else if rlt (itf + r) x0 then 1 else hf * (x0 - itf + r) / r).
    assert (G : forall g, length g = 2%nat -> ls_grad r itf (x0 :: x) g = Ok (map Some [1 - fac; fac])).
    { intros g Lg. unfold ls_grad. cbn [aget nth_error bind]. rewrite <- (put2_ok fac g Lg). unfold fac, div.
      destruct (req_spec r 0); [lra|]. destruct (rlt x0 (itf - r)), (rlt (itf + r) x0); reflexivity. }
    exists [1 - fac; fac]. cbn [o_grad o_gradPtr ex_grad ex_gradPtr]. rewrite G by auto.
    repeat apply conj; try reflexivity. intros p' o' Lp E'. apply bind_ok in E' as (e & Ee & E'). unfold singleVariableOrder in E'. cbn in E'. injection E' as <-.
    unfold linearStep in Ee. apply bind_ok in Ee as (slope' & Es' & Ee). apply div_ok in Es' as (_ & ->). injection Ee as <-.
    unfold tp_call. cbn [o_tp tp_eval ex_eval]. rewrite D2 by auto.
    unfold ls_eval, fac. cbn [aget nth_error bind]. f_equal. rcases; unfold hf; field; auto.
  - unfold feFractionalOrder, singleVariableOrder in *. apply bind_ok in E as (u0 & Eg & E). injection E as <-. cbn [o_num o_grad o_gradPtr] in *.
    destruct Hx as (Lu & c & b & F & Hd). exists (tab (lk_num L) (grad_at L c b (lk_dofs L))).
    cbn [lookupExtended ex_grad ex_gradPtr]. rewrite firstn_all. rewrite (lke_grad_ok L x c b g0) by auto.
    repeat apply conj; try reflexivity; auto; [apply tab_length|]. intros p' o' Lp E'. rewrite Eg in E'. cbn [bind] in E'. injection E' as <-.
    unfold tp_call. cbn [o_tp tp_eval lookupExtended ex_eval]. rewrite (lke_value L p' c b x F) by (rewrite Lp, Lu; auto).
    f_equal. apply grad_dot; auto.
Qed.
