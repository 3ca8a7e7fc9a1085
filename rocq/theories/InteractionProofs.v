(** Intersections of a sphere with a line, and convex hulls. *)
From Coq Require Import R_sqrt Psatz.
From Verif Require Import LinR ReorderProofs InteractionModel InteractionSpec.
Open Scope R_scope.
Set Default Proof Using "Type".

Lemma rle_true a b : a <= b -> rle a b = true.
Proof. unfold rle. destruct (Rle_dec a b); [auto|contradiction]. Qed.
Lemma rle_false a b : b < a -> rle a b = false.
Proof. unfold rle. destruct (Rle_dec a b); [lra|auto]. Qed.
Lemma rlt_true a b : a < b -> rlt a b = true.
Proof. unfold rlt. destruct (Rlt_dec a b); [auto|contradiction]. Qed.
Lemma rlt_false a b : b <= a -> rlt a b = false.
Proof. unfold rlt. destruct (Rlt_dec a b); [lra|auto]. Qed.

(** N t^2 + 2 P t + Q *)
Definition quad (N P Q : R) (b : ibuf) : res (nat * ibuf) :=
  let A := - (P * (2 * (1 / N))) * (1 / 2) in
  let D := A * A - Q * (1 / N) in
  if rlt D 0 then Ok (O, b) else
  nb <- record (A - sqrt D) (O, b) ;; record (A + sqrt D) nb.

Lemma quad_roots N P Q b : 0 < N ->
  (quad N P Q b = Ok (O, b) /\ forall t, 0 < N * t * t + 2 * P * t + Q) \/
  (exists c d, c <= d /\ (forall t, N * t * t + 2 * P * t + Q = N * (t - c) * (t - d)) /\
     quad N P Q b = (nb <- record c (O, b) ;; record d nb)).
Proof.
  intros HN. unfold quad. set (A := - (P * (2 * (1 / N))) * (1 / 2)). set (D := A * A - Q * (1 / N)).
  assert (HA : P = - (A * N)) by (unfold A; field; lra).
  assert (HD : Q = (A * A - D) * N) by (unfold D; field; lra).
  destruct (Rlt_dec D 0) as [H|H].
  - left. rewrite rlt_true by auto. split; [reflexivity|]. intros t. rewrite HA, HD.
    replace (N * t * t + 2 * - (A * N) * t + (A * A - D) * N) with (N * ((t - A) * (t - A) + - D)) by ring.
    apply Rmult_lt_0_compat; [auto|]. pose proof (Rle_0_sqr (t - A)). unfold Rsqr in *. lra.
  - right. rewrite rlt_false by lra. exists (A - sqrt D), (A + sqrt D).
    pose proof (sqrt_pos D). split; [lra|]. split; [|reflexivity].
    intros t. rewrite HA, HD. assert (E : sqrt D * sqrt D = D) by (apply sqrt_sqrt; lra).
    transitivity (N * ((t - A) * (t - A) - sqrt D * sqrt D)); [rewrite E; ring|ring].
Qed.

Lemma record_in c n b : 0 <= c <= 1 -> (n < length b)%nat -> record c (n, b) = Ok (S n, upd b n (Some c)).
Proof. intros H Hn. unfold record. rewrite !rle_true by lra. cbn [andb]. unfold wr, aset. apply Nat.ltb_lt in Hn. rewrite Hn. reflexivity. Qed.
Lemma record_out c n b : c < 0 \/ 1 < c -> record c (n, b) = Ok (n, b).
Proof. intros [H|H]; unfold record; [rewrite rle_false by lra; reflexivity|rewrite (rle_false c 1) by lra; rewrite andb_false_r; reflexivity]. Qed.

(** From a point inside to a point outside. *)
Lemma quad_in_out N P Q b : 0 < N -> Q < 0 -> 0 < N + 2 * P + Q -> length b = 2%nat ->
  exists c b', quad N P Q b = Ok (1%nat, b') /\ rd b' 0 = Ok c /\ length b' = 2%nat /\ 0 < c < 1 /\ N * c * c + 2 * P * c + Q = 0 /\
    forall t, 0 <= t <= 1 -> (N * t * t + 2 * P * t + Q <= 0 <-> t <= c).
Proof.
  intros HN H0 H1 Hb. destruct (quad_roots N P Q b HN) as [[_ H]|(c & d & Hcd & H & E)].
  - specialize (H 0). lra.
  - pose proof (H 0) as E0. pose proof (H 1) as E1.
    assert (c * d < 0) by (apply Rnot_le_lt; intros X; assert (0 <= N * (c * d)) by (apply Rmult_le_pos; lra); nra).
    assert (Hc : c < 0) by nra. assert (Hd : 0 < d) by nra.
    assert (0 < (1 - c) * (1 - d)) by (apply Rnot_le_lt; intros X; assert (0 <= N * - ((1 - c) * (1 - d))) by (apply Rmult_le_pos; lra); nra).
    assert (d < 1) by nra.
    exists d, (upd b 0 (Some d)). rewrite E, record_out by lra. rewrite bind_Ok, record_in by (rewrite ?Hb; lra || lia).
    split; [reflexivity|]. destruct b as [|b0 [|b1 [|]]]; try discriminate. split; [reflexivity|]. split; [reflexivity|]. split; [lra|].
    split; [rewrite (H d); ring|]. intros t Ht. rewrite (H t). split.
    + intros X. apply Rnot_lt_le. intros Y. assert (0 < N * (t - c)) by (apply Rmult_lt_0_compat; lra).
      assert (0 < N * (t - c) * (t - d)) by (apply Rmult_lt_0_compat; lra). lra.
    + intros X. assert (0 <= N * (t - c)) by (apply Rmult_le_pos; lra).
      assert (0 <= N * (t - c) * (d - t)) by (apply Rmult_le_pos; lra). lra.
Qed.
(** From a point outside to a point inside. *)
Lemma quad_out_in N P Q b : 0 < N -> 0 < Q -> N + 2 * P + Q < 0 -> length b = 2%nat ->
  exists c b', quad N P Q b = Ok (1%nat, b') /\ rd b' 0 = Ok c /\ length b' = 2%nat /\ 0 < c < 1 /\ N * c * c + 2 * P * c + Q = 0 /\
    forall t, 0 <= t <= 1 -> (N * t * t + 2 * P * t + Q <= 0 <-> c <= t).
Proof.
  intros HN H0 H1 Hb. destruct (quad_roots N P Q b HN) as [[_ H]|(c & d & Hcd & H & E)].
  - specialize (H 1). lra.
  - pose proof (H 0) as E0. pose proof (H 1) as E1.
    assert (0 < c * d) by (apply Rnot_le_lt; intros X; assert (0 <= N * - (c * d)) by (apply Rmult_le_pos; lra); nra).
    assert ((1 - c) * (1 - d) < 0) by (apply Rnot_le_lt; intros X; assert (0 <= N * ((1 - c) * (1 - d))) by (apply Rmult_le_pos; lra); nra).
    assert (Hc : c < 1) by nra. assert (Hd : 1 < d) by nra. assert (0 < c) by nra.
    exists c, (upd b 0 (Some c)). rewrite E, record_in by (rewrite ?Hb; lra || lia). rewrite bind_Ok, record_out by lra.
    split; [reflexivity|]. destruct b as [|b0 [|b1 [|]]]; try discriminate. split; [reflexivity|]. split; [reflexivity|]. split; [lra|].
    split; [rewrite (H c); ring|]. intros t Ht. rewrite (H t). split.
    + intros X. apply Rnot_lt_le. intros Y. assert (0 < N * (c - t)) by (apply Rmult_lt_0_compat; lra).
      assert (0 < N * (c - t) * (d - t)) by (apply Rmult_lt_0_compat; lra). lra.
    + intros X. assert (0 <= N * (t - c)) by (apply Rmult_le_pos; lra).
      assert (0 <= N * (t - c) * (d - t)) by (apply Rmult_le_pos; lra). lra.
Qed.
(** Both ends outside. *)
Lemma quad_out_out N P Q b : 0 < N -> 0 < Q -> 0 < N + 2 * P + Q -> length b = 2%nat ->
  (quad N P Q b = Ok (0%nat, b) /\ forall t, 0 <= t <= 1 -> 0 < N * t * t + 2 * P * t + Q) \/
  (exists c d b', quad N P Q b = Ok (2%nat, b') /\ rd b' 0 = Ok c /\ rd b' 1 = Ok d /\ length b' = 2%nat /\ 0 < c /\ c <= d /\ d < 1 /\
     N * c * c + 2 * P * c + Q = 0 /\ N * d * d + 2 * P * d + Q = 0 /\
     forall t, 0 <= t <= 1 -> (N * t * t + 2 * P * t + Q <= 0 <-> c <= t <= d)).
Proof.
  intros HN H0 H1 Hb. destruct (quad_roots N P Q b HN) as [[E H]|(c & d & Hcd & H & E)].
  - left. auto.
  - pose proof (H 0) as E0. pose proof (H 1) as E1.
    assert (X0 : 0 < c * d) by (apply Rnot_le_lt; intros X; assert (0 <= N * - (c * d)) by (apply Rmult_le_pos; lra); nra).
    assert (X1 : 0 < (1 - c) * (1 - d)) by (apply Rnot_le_lt; intros X; assert (0 <= N * - ((1 - c) * (1 - d))) by (apply Rmult_le_pos; lra); nra).
    destruct (Rlt_dec d 0) as [Hd|Hd]; [|destruct (Rlt_dec 1 c) as [Hc|Hc]].
    + left. rewrite E, record_out by lra. rewrite bind_Ok, record_out by lra. split; [reflexivity|]. intros t Ht. rewrite H.
      apply Rmult_lt_0_compat; [apply Rmult_lt_0_compat|]; lra.
    + left. rewrite E, record_out by lra. rewrite bind_Ok, record_out by lra. split; [reflexivity|]. intros t Ht. rewrite H.
      replace (N * (t - c) * (t - d)) with (N * (c - t) * (d - t)) by ring. apply Rmult_lt_0_compat; [apply Rmult_lt_0_compat|]; lra.
    + right. assert (0 < d) by nra. assert (0 < c) by nra. assert (c < 1) by nra. assert (d < 1) by nra.
      exists c, d, (upd (upd b 0 (Some c)) 1 (Some d)). destruct b as [|b0 [|b1 [|]]]; try discriminate.
      rewrite E, record_in by (cbn; lra || lia). rewrite bind_Ok, record_in by (cbn; lra || lia).
      split; [reflexivity|]. split; [reflexivity|]. split; [reflexivity|]. split; [reflexivity|]. split; [auto|]. split; [lra|]. split; [auto|].
      split; [rewrite H; ring|]. split; [rewrite H; ring|]. intros t Ht. rewrite (H t). split.
      * intros X. split; apply Rnot_lt_le; intros Y.
        -- assert (0 < N * (c - t)) by (apply Rmult_lt_0_compat; lra). assert (0 < N * (c - t) * (d - t)) by (apply Rmult_lt_0_compat; lra). lra.
        -- assert (0 < N * (t - c)) by (apply Rmult_lt_0_compat; lra). assert (0 < N * (t - c) * (t - d)) by (apply Rmult_lt_0_compat; lra). lra.
      * intros [X Y]. assert (0 <= N * (t - c)) by (apply Rmult_le_pos; lra).
        assert (0 <= N * (t - c) * (d - t)) by (apply Rmult_le_pos; lra). lra.
Qed.
(** Both ends inside. *)
Lemma quad_in_in N P Q : 0 < N -> Q < 0 -> N + 2 * P + Q < 0 -> forall t, 0 <= t <= 1 -> N * t * t + 2 * P * t + Q < 0.
Proof.
  intros HN H0 H1 t Ht.
  replace (N * t * t + 2 * P * t + Q) with ((1 - t) * Q + t * (N + 2 * P + Q) - N * (t * (1 - t))) by ring.
  assert (0 <= N * (t * (1 - t))) by (apply Rmult_le_pos; [lra|apply Rmult_le_pos; lra]).
  destruct (Req_dec t 0) as [->|Hn]; [nra|]. assert (t * (N + 2 * P + Q) < 0) by (assert (0 < t * - (N + 2 * P + Q)) by (apply Rmult_lt_0_compat; lra); lra).
  assert (0 <= (1 - t) * - Q) by (apply Rmult_le_pos; lra). lra.
Qed.

(** findIntersections in coordinates *)
Lemma find1 h2 x (T : simplex) s e b ts te : nth_error T s = Some [ts] -> nth_error T e = Some [te] ->
  ball2_findIntersections 1 h2 [x] T s e b = quad ((te - ts) * (te - ts)) ((te - ts) * (ts - x)) ((ts - x) * (ts - x) - h2) b.
Proof.
  intros Hs He. unfold ball2_findIntersections, coord, aget, for_range, quad. cbn [for_n Nat.sub bind]. rewrite ?He, ?Hs. cbn [bind nth_error].
  rewrite ?He, ?Hs. cbn [bind nth_error]. rewrite ?He, ?Hs. cbn [bind nth_error]. rewrite !Rplus_0_l. cbv zeta beta. reflexivity.
Qed.
Lemma find2 h2 x y (T : simplex) s e b sx sy ex ey : nth_error T s = Some [sx; sy] -> nth_error T e = Some [ex; ey] ->
  ball2_findIntersections 2 h2 [x; y] T s e b = quad ((ex - sx) * (ex - sx) + (ey - sy) * (ey - sy)) ((ex - sx) * (sx - x) + (ey - sy) * (sy - y)) ((sx - x) * (sx - x) + (sy - y) * (sy - y) - h2) b.
Proof.
  intros Hs He. unfold ball2_findIntersections, coord, aget, for_range, quad. cbn [for_n Nat.sub bind]. rewrite ?He, ?Hs. cbn [bind nth_error].
  rewrite ?He, ?Hs. cbn [bind nth_error]. rewrite ?He, ?Hs. cbn [bind nth_error]. rewrite !Rplus_0_l. cbv zeta beta. reflexivity.
Qed.

(** Convex hulls *)
Lemma hull_linear n K k r l : hull n K l -> (forall p, K p -> r <= rsum n (fun i => k i * p i)) -> r <= rsum n (fun i => k i * l i).
Proof.
  intros (ps & HF & H1 & Hl) HK.
  assert (E : rsum n (fun i => k i * l i) = fold_right (fun p s => fst p * rsum n (fun i => k i * snd p i) + s) 0 ps).
  { rewrite (rsum_ext n (fun i => k i * l i) (fun i => k i * fold_right (fun p s => fst p * snd p i + s) 0 ps)) by (intros i Hi; rewrite (Hl i Hi); reflexivity).
    clear. induction ps as [|[w p] ps IH]; cbn [fold_right fst snd].
    - apply rsum_zero. intros. ring.
    - rewrite <- IH, <- rsum_scal, <- rsum_plus. apply rsum_ext. intros. ring. }
  rewrite E. clear E Hl. assert (G : r * fold_right (fun p s => fst p + s) 0 ps <= fold_right (fun p s => fst p * rsum n (fun i => k i * snd p i) + s) 0 ps).
  { clear H1. induction HF as [|[w p] ps [Hw Hp] HF IH]; cbn [fold_right fst snd] in *; [lra|].
    specialize (HK p Hp). assert (w * r <= w * rsum n (fun i => k i * p i)) by (apply Rmult_le_compat_l; auto). lra. }
  rewrite H1 in G. lra.
Qed.
Lemma hull_covers n (K : (nat -> R) -> Prop) A b l : covers n A b l -> (forall j, (j < n)%nat -> K (fun i => A i j + b i)) -> hull n K l.
Proof.
  intros (m & [Hm0 Hm1] & Hi) HK.
  exists (map (fun j => (m j, fun i => A i j + b i)) (seq 0 n)).
  assert (F : forall k g, fold_right (fun p s => g p + s) 0 (map (fun j => (m j, fun i => A i j + b i)) (seq 0 k)) = rsum k (fun j => g (m j, fun i => A i j + b i))).
  { intros k g. induction k as [|k IH]; [reflexivity|]. rewrite seq_S, map_app, fold_right_app. cbn [map fold_right rsum Nat.add].
    rewrite <- IH. generalize (map (fun j => (m j, fun i => A i j + b i)) (seq 0 k)). intros ps. generalize (g (m k, fun i => A i k + b i)) as z. clear.
    induction ps as [|p ps IH]; intros z; cbn [fold_right]; [lra|]. rewrite IH. lra. }
  split; [|split].
  - apply Forall_forall. intros p Hp. apply in_map_iff in Hp. destruct Hp as (j & <- & Hj). apply in_seq in Hj. cbn [fst snd]. split; [apply Hm0; lia|apply HK; lia].
  - rewrite (F n fst). exact Hm1.
  - intros i Hi'. rewrite (F n (fun p => fst p * snd p i)). cbn [fst snd]. rewrite (Hi i Hi').
    rewrite (rsum_ext n (fun j => m j * (A i j + b i)) (fun j => A i j * m j + b i * m j)) by (intros; ring).
    rewrite rsum_plus, rsum_scal, Hm1. ring.
Qed.
