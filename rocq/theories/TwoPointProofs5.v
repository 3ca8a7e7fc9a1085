(** Values of functions of two points. *)
From Coq Require Import R_sqrt Ratan Rtrigo_def.
From Verif Require Import LinR InteractionModel TwoPointModel TwoPointSpec TwoPointProofs TwoPointProofs2 TwoPointProofs3 TwoPointProofs4.
Open Scope R_scope.
Set Default Proof Using "Type".

Lemma mean_default a b c : mean_if_nan a b c = default a b c.
Proof. destruct c; cbn; auto. unfold hf. lra. Qed.
Lemma left_right_value ll lr rl rr itf x y : (1 <= length x)%nat -> (1 <= length y)%nat ->
  exists v, left_right ll lr rl rr itf x y = Ok v /\ choose (left_of itf) x y ll lr rl rr v.
Proof.
  intros Hx Hy. unfold left_right. rewrite (aget_nth x 0 0), (aget_nth y 0 0) by lia. cbn [bind]. eexists. split; [reflexivity|].
  unfold choose, left_of. destruct (rlt_spec (nth 0 x 0) itf), (rlt_spec (nth 0 y 0) itf); repeat split; intros; auto; contradiction.
Qed.
Lemma made_value o a b c num f (P : R -> Prop) n x y : made o a b c num f -> (exists v, f x y = Ok v /\ P v) ->
  exists v, tp_call (o_tp o) x y = Ok v /\ tp_evalPtr (o_tp o) n x y = Ok v /\ P v.
Proof. intros (_ & _ & _ & _ & _ & _ & H1 & H2) (v & E & Hv). exists v. unfold tp_call. rewrite H1, H2. auto. Qed.
Lemma order_leftRight sll srr slr srl itf n x y : (1 <= length x)%nat -> (1 <= length y)%nat ->
  exists o v, build_order (OLeftRight sll srr slr srl itf) = Ok o /\ tp_call (o_tp o) x y = Ok v /\ tp_evalPtr (o_tp o) n x y = Ok v /\
  choose (left_of itf) x y sll (default sll srr slr) (default sll srr srl) srr v.
Proof.
  intros Hx Hy. destruct (made_leftRight sll srr slr srl itf) as (o & Eo & M).
  destruct (made_value o _ _ _ _ _ (choose (left_of itf) x y sll (default sll srr slr) (default sll srr srl) srr) n x y M) as (v & V).
  - rewrite !mean_default. apply left_right_value; auto.
  - exists o, v. split; [exact Eo|exact V].
Qed.
Lemma tp_leftRight ll rr lr rl itf n x y : (1 <= length x)%nat -> (1 <= length y)%nat ->
  exists f v, build (XLeftRight ll rr lr rl itf) = Ok f /\ tp_call f x y = Ok v /\ tp_evalPtr f n x y = Ok v /\
  choose (left_of itf) x y ll (default ll rr lr) (default ll rr rl) rr v.
Proof.
  intros Hx Hy. destruct (left_right_value ll (default ll rr lr) (default ll rr rl) rr itf x y Hx Hy) as (v & E & V).
  exists (leftRightTwoPoint ll rr lr rl itf), v. unfold tp_call. cbn [build leftRightTwoPoint tp_eval tp_evalPtr]. rewrite !mean_default. auto.
Qed.
Lemma in_island_value r r2 x : (2 <= length x)%nat -> exists b, in_island 2 0 r r2 x = Ok b /\ (b = true <-> on_island r r2 x).
Proof.
  destruct x as [|a [|b x]]; cbn [length]; try lia. intros _.
  assert (K : on_island r r2 (a :: b :: x) <-> r <= Rabs a <= r2 /\ r <= Rabs b <= r2).
  { unfold on_island. split.
    - intros H. split; [apply (H 0%nat)|apply (H 1%nat)]; lia.
    - intros (H0 & H1) [|[|i]] Hi; try lia; auto. }
  cbn. destruct (rle_spec r (Rabs a)), (rle_spec (Rabs a) r2); cbn [andb negb];
    try (eexists; split; [reflexivity|]; rewrite K; split; [discriminate|intros; lra]).
  destruct (rle_spec r (Rabs b)), (rle_spec (Rabs b) r2); cbn [andb negb];
    eexists; (split; [reflexivity|]); rewrite K; split; try discriminate; intros; try lra; auto.
Qed.
Lemma order_islands sii soo r r2 sio soi n x y : (2 <= length x)%nat -> (2 <= length y)%nat ->
  exists o v, build_order (OIslands sii soo r r2 sio soi) = Ok o /\ tp_call (o_tp o) x y = Ok v /\ tp_evalPtr (o_tp o) n x y = Ok v /\
  choose (on_island r r2) x y sii (default sii soo sio) (default sii soo soi) soo v.
Proof.
  intros Hx Hy. destruct (made_islands sii soo r r2 sio soi) as (o & Eo & M).
  destruct (made_value o _ _ _ _ _ (choose (on_island r r2) x y sii (default sii soo sio) (default sii soo soi) soo) n x y M) as (v & V).
  - rewrite !mean_default. unfold islands_value. destruct (in_island_value r r2 x Hx) as (a & -> & Ha). destruct (in_island_value r r2 y Hy) as (b & -> & Hb).
    cbn [bind]. eexists. split; [reflexivity|]. unfold choose. destruct a, b; repeat split; intros; auto; exfalso;
      repeat match goal with
      | H : false = true <-> ?P, H' : ?P |- _ => apply H in H'; discriminate
      | H : true = true <-> ?P, H' : ~ ?P |- _ => apply H', H; reflexivity
      end.
  - exists o, v. split; [exact Eo|exact V].
Qed.
Lemma order_innerOuter sii soo r c sio soi n x y : (1 <= length x)%nat -> (1 <= length y)%nat ->
  exists o v, build_order (OInnerOuter 1 sii soo r [c] sio soi) = Ok o /\ tp_call (o_tp o) x y = Ok v /\ tp_evalPtr (o_tp o) n x y = Ok v /\
  choose (inside r [c]) x y sii (default sii soo sio) (default sii soo soi) soo v.
Proof.
  intros Hx Hy. destruct (build_order (OInnerOuter 1 sii soo r [c] sio soi)) as [o|] eqn:Eo; [|discriminate Eo].
  pose proof Eo as M. cbn [build_order] in M. apply made_innerOuter in M as (_ & M).
  destruct (made_value o _ _ _ _ _ (choose (inside r [c]) x y sii (default sii soo sio) (default sii soo soi) soo) n x y M) as (v & V).
  - rewrite !mean_default. unfold innerOuter_value. cbn [for_range for_n Nat.sub].
    rewrite (aget_nth x 0 0), (aget_nth y 0 0) by lia. cbn [bind nth].
    unfold choose, inside. cbn [length rsum nth]. set (a := nth 0 x 0). set (b := nth 0 y 0).
    rcases; cbn [andb]; try (exfalso; lra); eexists; (split; [reflexivity|]); repeat split; intros; auto; exfalso; nra.
  - exists o, v. split; [reflexivity|exact V].
Qed.
Lemma increasing_le bs i j : increasing bs -> (i <= j)%nat -> (j < length bs)%nat -> nth i bs 0 <= nth j bs 0.
Proof.
  intros H Hij. induction Hij as [|j Hij IH]; intros Hj; [lra|]. specialize (IH ltac:(lia)). specialize (H j Hj). lra.
Qed.
Lemma seek_layer_in bs c i n : increasing bs -> length bs = S n -> in_layer bs i c -> nth 0 bs 0 < c -> c < nth n bs 0 ->
  forall m k, (k + m = n)%nat -> (k <= i)%nat -> seek_layer m k bs c = Ok i.
Proof.
  intros Hi L (H1 & H2 & H3) H0 Hn. rewrite L in *. replace (S n - 1)%nat with n in * by lia.
  assert (A : (0 < n)%nat) by lia.
  induction m as [|m IH]; intros k Hk Hki; [lia|]. cbn [seek_layer]. rewrite (aget_nth bs k 0), (aget_nth bs (S k) 0) by lia. cbn [bind].
  assert (B : (0 < i)%nat \/ i = 0%nat) by lia.
  destruct (Nat.eq_dec k i) as [->|].
  - assert (nth i bs 0 <= c) by (destruct B as [B|B]; [specialize (H2 B); lra|subst; lra]).
    assert (c <= nth (S i) bs 0). { destruct (Nat.lt_ge_cases i (n - 1)) as [G|G]; [apply H3; auto|]. replace (S i) with n by lia. lra. }
    destruct (rle_spec (nth i bs 0) c), (rle_spec c (nth (S i) bs 0)); cbn [andb]; auto; lra.
  - destruct (rle_spec c (nth (S k) bs 0)) as [G|G].
    + pose proof (increasing_le bs (S k) i Hi ltac:(lia) ltac:(lia)). specialize (H2 ltac:(lia)). lra.
    + rewrite andb_false_r. apply IH; lia.
Qed.
Lemma layer_of_in bs c i n : increasing bs -> length bs = S n -> in_layer bs i c -> layer_of n bs c = Ok i.
Proof.
  intros Hi L H. pose proof H as (H1 & H2 & H3). rewrite L in H1, H3. replace (S n - 1)%nat with n in H1, H3 by lia.
  unfold layer_of. rewrite (aget_nth bs 0 0) by lia. cbn [bind]. destruct (rle_spec c (nth 0 bs 0)) as [G|G].
  - destruct i as [|i]; auto. specialize (H2 ltac:(lia)). pose proof (increasing_le bs 0 (S i) Hi ltac:(lia) ltac:(lia)). lra.
  - rewrite (aget_nth bs n 0) by lia. cbn [bind]. destruct (rle_spec (nth n bs 0) c) as [G'|G'].
    + destruct (Nat.lt_ge_cases i (n - 1)) as [K|K]; [|f_equal; lia]. specialize (H3 K).
      assert (S i < n)%nat by lia. pose proof (increasing_le bs (S (S i)) n Hi ltac:(lia) ltac:(lia)). pose proof (Hi (S i) ltac:(lia)). lra.
    + apply (seek_layer_in bs c i n); auto; try lra; lia.
Qed.
Lemma order_layers dim bs os o x y i j n : build_order (OLayers dim bs os) = Ok o -> increasing bs ->
  (1 <= dim)%nat -> (dim <= length x)%nat -> (dim <= length y)%nat ->
  in_layer bs i (nth (dim - 1) x 0) -> in_layer bs j (nth (dim - 1) y 0) ->
  tp_call (o_tp o) x y = Ok (table os i j) /\ tp_evalPtr (o_tp o) n x y = Ok (table os i j).
Proof.
  intros E Hi Hd Hx Hy Ix Iy. cbn [build_order] in E. apply made_layers in E as (m & smin & smax & sym & Lb & Hm & L & Hr & M & _ & _).
  destruct (made_value o _ _ _ _ _ (fun v => v = table os i j) n x y M) as (v & E1 & E2 & ->); auto.
  exists (table os i j). split; auto. rewrite layers_value_at. unfold layer_at.
  rewrite (zaget_in x _ 0), (zaget_in y _ 0) by lia. cbn [bind]. replace (Z.to_nat (Z.of_nat dim - 1)) with (dim - 1)%nat by lia.
  rewrite (layer_of_in bs _ i m), (layer_of_in bs _ j m) by auto. cbn [bind].
  destruct Ix as (I1 & _). destruct Iy as (I2 & _). apply aget_ok. apply nth_concat; auto; lia.
Qed.
(** Every number lies in exactly one layer. *)
Lemma layer_exists bs c : (2 <= length bs)%nat -> increasing bs -> exists i, in_layer bs i c.
Proof.
  intros L Hi. unfold in_layer. remember (length bs - 1)%nat as n eqn:En.
  assert (K : forall m, (m < n)%nat -> (exists i, (i < m)%nat /\ ((0 < i)%nat -> nth i bs 0 < c) /\ c <= nth (S i) bs 0) \/ ((0 < m)%nat -> nth m bs 0 < c)).
  { induction m as [|m IH]; intros Hm; [right; lia|]. destruct IH as [(i & A & B & C)|A]; [lia|left; exists i; repeat split; auto; lia|].
    destruct (Rle_dec c (nth (S m) bs 0)) as [G|G]; [left; exists m; repeat split; auto; lia|right; intros; lra]. }
  destruct (K (n - 1)%nat ltac:(lia)) as [(i & A & B & C)|A].
  - exists i. repeat split; auto; lia.
  - exists (n - 1)%nat. repeat split; auto; lia.
Qed.
Lemma piecewise_value_ok dim ind m o x y i j n : build_order (OPiecewise dim ind m) = Ok o ->
  (i < length m)%nat -> (j < length m)%nat -> ind (firstn dim x) = INR i -> ind (firstn dim y) = INR j ->
  tp_call (o_tp o) x y = Ok (filled m i j) /\ tp_evalPtr (o_tp o) n x y = Ok (filled m i j).
Proof.
  intros E Hi Hj Ex Ey. cbn [build_order] in E. apply made_piecewise in E as (t & smin & smax & Hs & L & St & Hn & Ht & Hv & M).
  assert (T : forall k, trunc (INR k) = Z.of_nat k).
  { intros k. unfold trunc. destruct (Rle_dec 0 (INR k)) as [|N]; [|exfalso; apply N; apply pos_INR].
    apply Int_part_INR. }
  destruct (made_value o _ _ _ _ _ (fun v => v = filled m i j) n x y M) as (v & E1 & E2 & ->); auto.
  exists (filled m i j). split; auto.
  destruct (piecewise_cases dim (length m) ind t x y L St) as [(i' & j' & Hi' & Hj' & A & B & -> & _)|(K & _)].
  - rewrite Ex, T in A. rewrite Ey, T in B. apply Nat2Z.inj in A, B. subst. rewrite Ht; auto.
  - rewrite Ex, Ey, !T in K. lia.
Qed.
(** Steps. *)
Lemma step_of (f : R -> R) shape sl sr r itf c : 0 < r ->
  (forall t, f (itf - r + 2 * r * t) = sl + (sr - sl) * shape t) -> shape 0 = 0 -> shape 1 = 1 ->
  is_step shape sl sr r itf c (if rlt c (itf - r) then sl else if rlt (itf + r) c then sr else f c).
Proof.
  intros Hr Hf S0 S1.
  assert (F : f c = sl + (sr - sl) * shape ((c - (itf - r)) / (2 * r))).
  { rewrite <- Hf. f_equal. field. lra. }
  unfold is_step. repeat split; intros H.
  - destruct (rlt_spec c (itf - r)); auto. destruct (rlt_spec (itf + r) c); [lra|]. rewrite F.
    replace ((c - (itf - r)) / (2 * r)) with 0 by (replace (c - (itf - r)) with 0 by lra; field; lra). rewrite S0. ring.
  - destruct (rlt_spec c (itf - r)); [lra|]. destruct (rlt_spec (itf + r) c); auto. rewrite F.
    replace ((c - (itf - r)) / (2 * r)) with 1 by (replace (c - (itf - r)) with (2 * r) by lra; field; lra). rewrite S1. ring.
  - destruct (rlt_spec c (itf - r)); [lra|]. destruct (rlt_spec (itf + r) c); [lra|]. exact F.
Qed.
Lemma order_smooth sl sr r itf n x y : 0 < r -> (1 <= length x)%nat ->
  exists o v, build_order (OSmoothedLeftRight sl sr r itf) = Ok o /\ tp_call (o_tp o) x y = Ok v /\ tp_evalPtr (o_tp o) n x y = Ok v /\
  is_step (fun t => 3 * t ^ 2 - 2 * t ^ 3) sl sr r itf (nth 0 x 0) v.
Proof.
  intros Hr Hx. cbn [build_order]. unfold smoothedLeftRightFractionalOrder, smoothStep, div. destruct (req_spec r 0); [lra|]. cbn [bind].
  unfold singleVariableOrder. cbn [guard bind Nat.leb]. do 2 eexists. split; [reflexivity|]. unfold tp_call. cbn [o_tp tp_eval tp_evalPtr ex_eval ex_evalPtr].
  unfold ss_eval. rewrite (aget_nth x 0 0) by lia. cbn [bind]. repeat split; try reflexivity;
  apply (step_of (fun x0 => sl + (sr - sl) * cubic ((x0 - itf) * (hf / r) + hf)) (fun t => 3 * t ^ 2 - 2 * t ^ 3)); auto; try ring;
  intros t; unfold cubic; replace ((itf - r + 2 * r * t - itf) * (hf / r) + hf) with t by (unfold hf; field; lra); reflexivity.
Qed.
Lemma order_linear sl sr r itf n x y : 0 < r -> (1 <= length x)%nat ->
  exists o v, build_order (OLinearLeftRight sl sr r itf) = Ok o /\ tp_call (o_tp o) x y = Ok v /\ tp_evalPtr (o_tp o) n x y = Ok v /\
  is_step (fun t => t) sl sr r itf (nth 0 x 0) v.
Proof.
  intros Hr Hx. cbn [build_order]. unfold linearLeftRightFractionalOrder, linearStep, div. destruct (req_spec r 0); [lra|]. cbn [bind].
  unfold singleVariableOrder. cbn [guard bind Nat.leb]. do 2 eexists. split; [reflexivity|]. unfold tp_call. cbn [o_tp tp_eval tp_evalPtr ex_eval ex_evalPtr].
  unfold ls_eval. rewrite (aget_nth x 0 0) by lia. cbn [bind]. repeat split; try reflexivity;
  apply (step_of (fun x0 => sl + hf * (sr - sl) / r * (x0 - itf + r)) (fun t => t)); auto;
  intros t; unfold hf; field; lra.
Qed.
(** Finite element functions. *)
Lemma order_fe L u smin smax x y c b : (1 <= lk_num L)%nat -> length u = lk_num L -> lk_find L x = Some (c, b) ->
  (forall k, (k < lk_dofs L)%nat -> (lk_dof L c k < Z.of_nat (lk_num L))%Z) ->
  exists o, build_order (OFe L u smin smax) = Ok o /\
  tp_call (o_tp o) x y = Ok (rsum (lk_num L) (fun i => nth i u 0 * shape_at L c b i)) /\
  tp_evalPtr (o_tp o) (length x) x y = Ok (rsum (lk_num L) (fun i => nth i u 0 * shape_at L c b i)).
Proof.
  intros Hn Lu F H. cbn [build_order]. unfold feFractionalOrder, singleVariableOrder. destruct (Nat.leb_spec 1 (lk_num L)); [|lia]. cbn [guard bind].
  eexists. split; [reflexivity|]. unfold tp_call. cbn [o_tp tp_eval tp_evalPtr lookupExtended ex_eval ex_evalPtr]. rewrite firstn_all.
  rewrite (lke_value L u c b x F) by (rewrite Lu; auto). rewrite (grad_dot L c b u (lk_num L) H).
  assert (E : dot (lk_num L) (tab (lk_num L) (grad_at L c b (lk_dofs L))) u = rsum (lk_num L) (fun i => nth i u 0 * shape_at L c b i)); [|rewrite E; auto].
  apply rsum_ext. intros i Hi. rewrite rat_tab by auto. unfold rat, grad_at, shape_at. ring.
Qed.
Lemma rsum_pick n m (d : nat -> Z) (s : nat -> R) (g : nat -> R) : (forall k, (k < m)%nat -> (0 <= d k < Z.of_nat n)%Z) ->
  rsum m (fun k => s k * g (Z.to_nat (d k))) = rsum n (fun i => rsum m (fun k => if Z.eqb (d k) (Z.of_nat i) then s k else 0) * g i).
Proof.
  intros H. rewrite (rsum_ext n _ (fun i => rsum m (fun k => (if Z.eqb (d k) (Z.of_nat i) then s k else 0) * g i))).
  - rewrite rsum_swap. apply rsum_ext. intros k Hk. specialize (H k Hk). rewrite (rsum_delta n (Z.to_nat (d k))).
    + rewrite Z2Nat.id, Z.eqb_refl by lia. reflexivity.
    + lia.
    + intros i Hi Ni. destruct (Z.eqb_spec (d k) (Z.of_nat i)); [lia|ring].
  - intros i Hi. rewrite (rsum_ext m (fun k => (if Z.eqb (d k) (Z.of_nat i) then s k else 0) * g i)
      (fun k => g i * (if Z.eqb (d k) (Z.of_nat i) then s k else 0))) by (intros; ring). rewrite rsum_scal. ring.
Qed.
Lemma lookup_value L A x y c1 b1 c2 b2 : lk_find L x = Some (c1, b1) -> lk_find L y = Some (c2, b2) ->
  square A -> length A = lk_num L ->
  (forall c k, (c = c1 \/ c = c2) -> (k < lk_dofs L)%nat -> (0 <= lk_dof L c k < Z.of_nat (lk_num L))%Z) ->
  lookup_eval L A x y = Ok (rsum (lk_num L) (fun i => rsum (lk_num L) (fun j => shape_at L c1 b1 i * table A i j * shape_at L c2 b2 j))).
Proof.
  intros F1 F2 HA LA H. unfold lookup_eval. rewrite F1, F2. cbv zeta. rewrite lookup_loop.
  set (a := fun k => lk_shape L k b1). set (b := fun k => lk_shape L k b2).
  rewrite (double_loop_ok _ _ (fun i j => a i * table A (Z.to_nat (lk_dof L c1 i)) (Z.to_nat (lk_dof L c2 j)) * b j)).
  - f_equal. set (G := fun i : nat => rsum (lk_num L) (fun j => table A i j * shape_at L c2 b2 j)).
    transitivity (rsum (lk_dofs L) (fun k => a k * G (Z.to_nat (lk_dof L c1 k)))).
    + apply rsum_ext. intros i Hi. unfold G.
      rewrite (rsum_ext (lk_num L) _ (fun j => rsum (lk_dofs L) (fun k => if Z.eqb (lk_dof L c2 k) (Z.of_nat j) then b k else 0) * table A (Z.to_nat (lk_dof L c1 i)) j))
        by (intros; unfold shape_at, b; ring).
      rewrite <- (rsum_pick (lk_num L) (lk_dofs L) (lk_dof L c2) b (fun j => table A (Z.to_nat (lk_dof L c1 i)) j)) by (intros; apply H; auto).
      rewrite <- rsum_scal. apply rsum_ext. intros; ring.
    + rewrite (rsum_pick (lk_num L) (lk_dofs L) (lk_dof L c1) a G) by (intros; apply H; auto).
      apply rsum_ext. intros i Hi. unfold G. rewrite <- rsum_scal. apply rsum_ext. intros j Hj. unfold shape_at at 2. unfold shape_at, a. ring.
  - intros i j Hi Hj. unfold lookup_term.
    assert (V : forall c bb k, (c = c1 \/ c = c2) -> (k < lk_dofs L)%nat -> aget (lookup_vals L c bb) k = Ok (lk_shape L k bb)).
    { intros c bb k Hc Hk. apply aget_ok. unfold lookup_vals. erewrite map_nth_error; [|apply (nth_error_nth' _ 0%nat); rewrite seq_length; auto].
      rewrite seq_nth by auto. cbn [Nat.add]. destruct (Z.leb_spec 0 (lk_dof L c k)); auto. specialize (H c k Hc Hk). lia. }
    rewrite (V c1 b1 i), (V c2 b2 j) by auto. cbn [bind]. unfold zentry.
    pose proof (H c1 i (or_introl eq_refl) Hi). pose proof (H c2 j (or_intror eq_refl) Hj).
    rewrite (zaget_in A _ []) by lia. cbn [bind]. rewrite (zaget_in _ _ 0).
    + cbn [bind]. reflexivity.
    + rewrite HA by (apply nth_In; lia). lia.
Qed.
(** Matrices. *)
Lemma matrix_diff_ok m dim x y : (dim <= length m)%nat -> (dim <= length x)%nat -> (dim <= length y)%nat ->
  exists n, matrix_diff m dim x y = Ok (n, gap2 dim x y) /\ length n = length m /\ forall i, (i < dim)%nat -> nth i n 0 = nth i x 0 - nth i y 0.
Proof.
  intros Hm Hx Hy. unfold matrix_diff.
  loop_inv (fun k (s : list R * R) => length (fst s) = length m /\ snd s = gap2 k x y /\ forall i, (i < k)%nat -> nth i (fst s) 0 = nth i x 0 - nth i y 0) st E HI; [lia|..].
  - cbn. rewrite repeat_length. repeat split; auto. intros; lia.
  - intros k (n & d) Hk (A & B & C). cbn [fst snd] in *. rewrite (aget_nth x k 0), (aget_nth y k 0) by lia. cbn [bind].
    rewrite aset_ok by lia. cbn [bind]. eexists. split; [reflexivity|]. cbn [fst snd]. rewrite upd_length. repeat split; auto.
    + rewrite B. unfold gap2. cbn [rsum]. ring.
    + intros i Hi. destruct (Nat.eq_dec i k) as [->|]; [rewrite nth_upd_eq by lia; auto|]. rewrite nth_upd_neq by auto. apply C. lia.
  - destruct st as (n & d). destruct HI as (A & B & C). cbn [fst snd] in *. subst. exists n. auto.
Qed.
Lemma matrix_form_ok m dim n d : square m -> (dim <= length m)%nat -> length n = length m -> d <> 0 ->
  matrix_form m dim n d = Ok (rsum dim (fun i => rsum dim (fun j => nth i n 0 * table m i j * nth j n 0)) / (d * d)).
Proof.
  intros Hs Hm Ln Hd. unfold matrix_form.
  destruct (for_range_inv (fun k (s : list R) => length s = length m /\ (forall i, (i < k)%nat -> nth i s 0 = nth i n 0 / d) /\
     (forall i, (k <= i)%nat -> nth i s 0 = nth i n 0))
     (fun i n => a <- aget n i ;; _ <- guard (negb (req d 0)) EDiv0 ;; aset n i (a / d)) 0 dim n) as (s & E & A & B & _); [lia|repeat split; auto; intros; lia|..].
  - intros k s Hk (A & B & C). rewrite (aget_nth s k 0) by lia. cbn [bind]. destruct (req_spec d 0); [contradiction|]. cbn [negb guard bind].
    rewrite aset_ok by lia. eexists. split; [reflexivity|]. rewrite upd_length. repeat split; auto.
    + intros i Hi. destruct (Nat.eq_dec i k) as [->|]; [rewrite nth_upd_eq by lia; rewrite C by auto; auto|]. rewrite nth_upd_neq by auto. apply B; lia.
    + intros i Hi. rewrite nth_upd_neq by lia. apply C; lia.
  - rewrite E. cbn [bind].
    transitivity (double_loop dim (fun i j => Ok (nth i s 0 * table m i j * nth j s 0))).
    + unfold double_loop. apply rrel_eq. apply for_range_sim; auto. intros i u v Hi ->. apply for_range_sim; auto. intros j u' v' Hj ->.
      rewrite (aget_nth s i 0), (aget_nth s j 0) by lia. cbn [bind]. rewrite rentry_table by (auto; lia). cbn [bind]. reflexivity.
    + rewrite (double_loop_ok dim _ (fun i j => nth i s 0 * table m i j * nth j s 0)) by auto. f_equal. unfold Rdiv. rewrite Rmult_comm, <- rsum_scal.
      apply rsum_ext. intros i Hi. rewrite <- rsum_scal. apply rsum_ext. intros j Hj. rewrite !B by auto. field. auto.
Qed.
Lemma tp_matrix m f n x y : build (XMatrix m) = Ok f -> (n <= length m)%nat -> length x = n -> length y = n -> 0 < gap2 n x y ->
  tp_call f x y = Ok (quad n m x y / gap2 n x y) /\ tp_evalPtr f n x y = Ok (quad n m x y / gap2 n x y).
Proof.
  intros E Hn Hx Hy Hg. cbn [build] in E. unfold matrixTwoPoint in E. destruct (forallb _ m) eqn:Ef; cbn [guard bind] in E; [|discriminate].
  assert (Hs : square m). { intros row Hi. rewrite forallb_forall in Ef. apply Nat.eqb_eq. apply Ef; auto. }
  apply bind_ok in E as (sym & _ & E). injection E as <-. unfold tp_call. cbn [tp_eval tp_evalPtr]. rewrite Hx.
  destruct (matrix_diff_ok m n x y Hn ltac:(lia) ltac:(lia)) as (nn & -> & Ln & V). cbn [bind].
  assert (P : 0 < sqrt (gap2 n x y)) by (apply sqrt_lt_R0; auto).
  destruct (rlt_spec 0 (gap2 n x y)); [|contradiction].
  rewrite matrix_form_ok by (auto; lra). rewrite sqrt_sqrt by lra.
  assert (Q : rsum n (fun i => rsum n (fun j => nth i nn 0 * table m i j * nth j nn 0)) = quad n m x y); [|rewrite Q; auto].
  apply rsum_ext. intros i Hi. apply rsum_ext. intros j Hj. rewrite !V by auto. reflexivity.
Qed.
Lemma dist2_gap n x y : (n <= length x)%nat -> (n <= length y)%nat -> dist2 n x y = Ok (gap2 n x y).
Proof.
  intros Hx Hy. unfold dist2. loop_inv (fun k s => s = gap2 k x y) st E HI; [lia|reflexivity|..].
  - intros k s Hk ->. rewrite (aget_nth x k 0), (aget_nth y k 0) by lia. cbn [bind]. eexists. split; [reflexivity|]. unfold gap2. cbn [rsum]. ring.
  - rewrite E, HI. reflexivity.
Qed.
Lemma tp_tempered lam n x y : length x = n -> length y = n ->
  exists f, build (XTempered lam n) = Ok f /\ tp_call f x y = Ok (exp (- lam * sqrt (gap2 n x y))) /\
  tp_evalPtr f n x y = Ok (exp (- lam * sqrt (gap2 n x y))).
Proof.
  intros Hx Hy. eexists. split; [reflexivity|]. unfold tp_call. cbn [temperedTwoPoint tp_eval tp_evalPtr]. unfold tempered. rewrite dist2_gap by lia. auto.
Qed.
Lemma tp_tensor i j n x y : length x = n -> length y = n -> (i < n)%nat -> (j < n)%nat -> 0 < gap2 n x y ->
  exists f, build (XTensor i j n) = Ok f /\
  let v := (nth i x 0 - nth i y 0) * (nth j x 0 - nth j y 0) / gap2 n x y in tp_call f x y = Ok v /\ tp_evalPtr f n x y = Ok v.
Proof.
  intros Hx Hy Hi Hj Hg. eexists. split; [reflexivity|]. unfold tp_call. cbn [tensorTwoPoint tp_eval tp_evalPtr]. unfold tensor.
  rewrite dist2_gap by lia. cbn [bind]. destruct (rlt_spec 0 (gap2 n x y)); [|contradiction].
  rewrite (aget_nth x i 0), (aget_nth y i 0), (aget_nth x j 0), (aget_nth y j 0) by lia. cbn [bind]. auto.
Qed.
Lemma tp_lookup_value L A x y c1 b1 c2 b2 : lk_find L x = Some (c1, b1) -> lk_find L y = Some (c2, b2) ->
  square A -> length A = lk_num L ->
  (forall c k, (c = c1 \/ c = c2) -> (k < lk_dofs L)%nat -> (0 <= lk_dof L c k < Z.of_nat (lk_num L))%Z) ->
  exists f, build (XLookup L A false) = Ok f /\
  tp_call f x y = Ok (rsum (lk_num L) (fun i => rsum (lk_num L) (fun j => shape_at L c1 b1 i * table A i j * shape_at L c2 b2 j))).
Proof. intros F1 F2 HA LA H. eexists. split; [reflexivity|]. exact (lookup_value L A x y c1 b1 c2 b2 F1 F2 HA LA H). Qed.
