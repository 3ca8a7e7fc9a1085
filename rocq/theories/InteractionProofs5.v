(** Convexity, the one-dimensional case and relative positions. *)
From Coq Require Import R_sqrt Psatz.
From Verif Require Import LinR ReorderProofs InteractionModel InteractionSpec InteractionProofs InteractionProofs2 InteractionProofs3 InteractionProofs4.
Open Scope R_scope.
Set Default Proof Using "Type".

(** Jensen's inequality for the square *)
Definition wsum (ps : list (R * (nat -> R))) (f : (nat -> R) -> R) : R := fold_right (fun p s => fst p * f (snd p) + s) 0 ps.
Lemma wsum_plus ps f f' : wsum ps (fun p => f p + f' p) = wsum ps f + wsum ps f'.
Proof. unfold wsum. induction ps as [|[w p] ps IH]; cbn [fold_right fst snd]; [lra|]. rewrite IH. lra. Qed.
Lemma wsum_scal ps c f : wsum ps (fun p => c * f p) = c * wsum ps f.
Proof. unfold wsum. induction ps as [|[w p] ps IH]; cbn [fold_right fst snd]; [lra|]. rewrite IH. lra. Qed.
Lemma wsum_ext ps f f' : (forall p, f p = f' p) -> wsum ps f = wsum ps f'.
Proof. intros H. unfold wsum. induction ps as [|[w p] ps IH]; cbn [fold_right fst snd]; [lra|]. rewrite IH, H. lra. Qed.
Lemma wsum_rsum ps n f : wsum ps (fun p => rsum n (fun k => f k p)) = rsum n (fun k => wsum ps (f k)).
Proof.
  induction n as [|n IH]; cbn [rsum].
  - unfold wsum. induction ps as [|[w p] ps IHp]; cbn [fold_right fst snd]; lra.
  - rewrite (wsum_plus ps (fun p => rsum n (fun k => f k p)) (f n)), IH. reflexivity.
Qed.
Lemma wsum_mono ps f f' : Forall (fun p => 0 <= fst p /\ f (snd p) <= f' (snd p)) ps -> wsum ps f <= wsum ps f'.
Proof.
  unfold wsum. induction 1 as [|[w p] ps [H1 H2] _ IH]; cbn [fold_right fst snd] in *; [lra|].
  assert (0 <= w * (f' p - f p)) by (apply Rmult_le_pos; lra). lra.
Qed.
Lemma wsum_one ps : fold_right (fun p s => fst p + s) 0 ps = 1 -> wsum ps (fun _ => 1) = 1.
Proof. intros H. assert (E : wsum ps (fun _ => 1) = fold_right (fun p s => fst p + s) 0 ps); [|lra]. unfold wsum. clear H. induction ps as [|[w p] ps IH]; cbn [fold_right fst snd]; [lra|]. rewrite IH. lra. Qed.
Lemma wsum_jensen ps f : wsum ps (fun _ => 1) = 1 -> Forall (fun p : R * (nat -> R) => 0 <= fst p) ps -> (wsum ps f) ^ 2 <= wsum ps (fun p => f p ^ 2).
Proof.
  intros H1 HF. set (m := wsum ps f).
  assert (E : wsum ps (fun p => (f p - m) ^ 2) = wsum ps (fun p => f p ^ 2) - m ^ 2).
  { rewrite (wsum_ext ps _ (fun p => (f p ^ 2 + (- (2 * m)) * f p) + (m ^ 2) * 1)) by (intros; ring).
    rewrite wsum_plus, wsum_plus, wsum_scal, (wsum_scal ps (m ^ 2) (fun _ => 1)), H1. fold m. ring. }
  assert (0 <= wsum ps (fun p => (f p - m) ^ 2)); [|lra].
  apply Rle_trans with (wsum ps (fun _ => 0)); [right; unfold wsum; clear; induction ps as [|[w p] ps IH]; cbn [fold_right fst snd]; lra|].
  apply wsum_mono. eapply Forall_impl; [|exact HF]. intros p Hp. cbn beta in *. split; [exact Hp|apply pow2_ge_0].
Qed.
Lemma far_hull dim n x T K h2 l : hull n K l -> (forall p, K p -> far2 dim n x T p <= h2) -> far2 dim n x T l <= h2.
Proof.
  intros (ps & HF & H1 & Hl) HK. apply wsum_one in H1.
  assert (HF0 : Forall (fun p : R * (nat -> R) => 0 <= fst p) ps) by (eapply Forall_impl; [|exact HF]; intros p [Hp _]; exact Hp).
  assert (EA : forall k, at_bary n T l k - nth k x 0 = wsum ps (fun p => at_bary n T p k - nth k x 0)).
  { intros k. rewrite (wsum_ext ps _ (fun p => at_bary n T p k + (- nth k x 0) * 1)) by (intros; ring).
    rewrite wsum_plus, (wsum_scal ps (- nth k x 0) (fun _ => 1)), H1. unfold at_bary. rewrite wsum_rsum.
    rewrite (rsum_ext n (fun i => l i * nth k (nth i T []) 0) (fun i => wsum ps (fun p => p i * nth k (nth i T []) 0))); [ring|].
    intros i Hi. rewrite (Hl i Hi). fold (wsum ps (fun p => p i)). rewrite (wsum_ext ps (fun p => p i * nth k (nth i T []) 0) (fun p => nth k (nth i T []) 0 * p i)) by (intros; ring). rewrite wsum_scal. ring. }
  apply Rle_trans with (wsum ps (fun p => far2 dim n x T p)).
  - unfold far2. rewrite wsum_rsum. clear - H1 HF0 EA. induction dim as [|d IH]; cbn [rsum]; [lra|].
    pose proof (wsum_jensen ps (fun p => at_bary n T p d - nth d x 0) H1 HF0). rewrite <- EA in H. lra.
  - apply Rle_trans with (wsum ps (fun p => h2 * 1)); [|rewrite (wsum_scal ps h2 (fun _ => 1)), H1; lra].
    apply wsum_mono. eapply Forall_impl; [|exact HF]. intros p [Hp Hk]. cbn beta. split; [exact Hp|]. specialize (HK _ Hk). lra.
Qed.
(** A barycentric combination is in the hull of the corners. *)
Lemma bary_hull n l : bary n l -> hull n (fun p => exists i, (i < n)%nat /\ forall j, (j < n)%nat -> p j = corner i j) l.
Proof.
  intros Hb. apply (hull_covers n _ (fun i j => corner j i) (fun _ => 0)).
  - exists l. split; [exact Hb|]. intros i Hi. rewrite (rsum_delta n i); [|exact Hi|].
    + unfold corner. rewrite Nat.eqb_refl. ring.
    + intros j Hj Hn. unfold corner. destruct (i =? j)%nat eqn:E; [apply Nat.eqb_eq in E; lia|ring].
  - intros j Hj. exists j. split; [exact Hj|]. intros i Hi. ring.
Qed.
(** The square of the distance from corner i. *)
Lemma far_at_corner dim n x T i p : (i < n)%nat -> (forall j, (j < n)%nat -> p j = corner i j) ->
  far2 dim n x T p = rsum dim (fun k => (nth k (nth i T []) 0 - nth k x 0) ^ 2).
Proof.
  intros Hi Hp. unfold far2. apply rsum_ext. intros k Hk. unfold at_bary. rewrite (rsum_delta n i); [|exact Hi|].
  - rewrite (Hp i Hi). unfold corner. rewrite Nat.eqb_refl. ring.
  - intros j Hj Hn. rewrite (Hp j Hj). unfold corner. destruct (j =? i)%nat eqn:E; [apply Nat.eqb_eq in E; lia|ring].
Qed.

(** The theorem for triangles. *)
Lemma node_2D_all x T h2 : triangle T -> length x = 2%nat -> (forall i, (i < 3)%nat -> far2 2 3 x T (corner i) <> h2) ->
  exists subs, node_2D (ball2 2 h2) x T = Ok subs /\
    ((exists i, (i < 3)%nat /\ far2 2 3 x T (corner i) < h2) -> subdivision 3 (linear_subs subs) (hull 3 (cut_points x T h2))) /\
    ((forall i, (i < 3)%nat -> h2 < far2 2 3 x T (corner i)) -> subs = []) /\
    (forall A b vol l, bary 3 l -> In (A, b, vol) (linear_subs subs) -> covers 3 A b l -> far2 2 3 x T l <= h2).
Proof.
  intros (HL & HV & HN) Hx HH.
  destruct T as [|v0 [|v1 [|v2 [|]]]]; cbn [length] in HL; try discriminate.
  assert (HT : forall v, length v = 2%nat -> exists a b : R, v = [a; b]) by (intros [|a [|b [|]]] Hv; cbn in Hv; try discriminate; eauto).
  destruct (HT v0 (HV v0 ltac:(cbn; auto))) as (x0 & y0 & ->). destruct (HT v1 (HV v1 ltac:(cbn; auto))) as (x1 & y1 & ->).
  destruct (HT v2 (HV v2 ltac:(cbn; auto))) as (x2 & y2 & ->). destruct (HT x Hx) as (a & b & ->).
  assert (GC : forall i, (i < 3)%nat -> far2 2 3 [a; b] [[x0; y0]; [x1; y1]; [x2; y2]] (corner i) = g a b x0 y0 x1 y1 x2 y2 i).
  { intros i Hi. rewrite (far_at_corner 2 3 _ _ i _ Hi (fun _ _ => eq_refl)). unfold g. destruct i as [|[|[|]]]; [| | |lia]; cbn [rsum nth px py]; ring. }
  inversion HN as [|? ? HN0 HN']; subst. inversion HN' as [|? ? HN1 _]; subst.
  destruct (node_2D_ok a b x0 y0 x1 y1 x2 y2 h2) as (subs & E & HS & HZ).
  - unfold apart, px, py. intros [-> ->]. apply HN0. cbn; auto.
  - unfold apart, px, py. intros [-> ->]. apply HN1. cbn; auto.
  - unfold apart, px, py. intros [-> ->]. apply HN0. cbn; auto.
  - rewrite <- (GC 0%nat) by lia. apply HH. lia.
  - rewrite <- (GC 1%nat) by lia. apply HH. lia.
  - rewrite <- (GC 2%nat) by lia. apply HH. lia.
  - exists subs. split; [exact E|].
    assert (HS' : (exists i, (i < 3)%nat /\ far2 2 3 [a; b] [[x0; y0]; [x1; y1]; [x2; y2]] (corner i) < h2) -> subdivision 3 (linear_subs subs) (hull 3 (cut_points [a; b] [[x0; y0]; [x1; y1]; [x2; y2]] h2))).
    { intros (i & Hi & Hlt). rewrite (GC i Hi) in Hlt. apply HS. destruct i as [|[|[|]]]; auto; lia. }
    assert (HZ' : (forall i, (i < 3)%nat -> h2 < far2 2 3 [a; b] [[x0; y0]; [x1; y1]; [x2; y2]] (corner i)) -> subs = []).
    { intros HA. apply HZ; [rewrite <- (GC 0%nat)|rewrite <- (GC 1%nat)|rewrite <- (GC 2%nat)]; try apply HA; lia. }
    split; [exact HS'|]. split; [exact HZ'|].
    intros A bb vol l Hb HI HC.
    destruct (Rlt_dec (far2 2 3 [a; b] [[x0; y0]; [x1; y1]; [x2; y2]] (corner 0)) h2) as [L0|L0]; [|
    destruct (Rlt_dec (far2 2 3 [a; b] [[x0; y0]; [x1; y1]; [x2; y2]] (corner 1)) h2) as [L1|L1]; [|
    destruct (Rlt_dec (far2 2 3 [a; b] [[x0; y0]; [x1; y1]; [x2; y2]] (corner 2)) h2) as [L2|L2]]].
    4: { rewrite HZ' in HI; [destruct HI|]. intros i Hi. pose proof (HH i Hi). destruct i as [|[|[|]]]; try lia; lra. }
    all: assert (HSS : subdivision 3 (linear_subs subs) (hull 3 (cut_points [a; b] [[x0; y0]; [x1; y1]; [x2; y2]] h2))) by (apply HS'; first [exists 0%nat; split; [lia|exact L0]|exists 1%nat; split; [lia|exact L1]|exists 2%nat; split; [lia|exact L2]]).
    all: destruct HSS as (_ & HC2 & _); apply (far_hull 2 3 _ _ (cut_points [a; b] [[x0; y0]; [x1; y1]; [x2; y2]] h2)); [apply (HC2 l Hb); eauto|intros p [_ [[Hp _]|[Hp _]]]; lra].
Qed.

(** Intervals *)
Lemma covers2 A b l : covers 2 A b l <-> exists u v, 0 <= u /\ 0 <= v /\ u + v = 1 /\
  l 0%nat = A 0%nat 0%nat * u + A 0%nat 1%nat * v + b 0%nat /\ l 1%nat = A 1%nat 0%nat * u + A 1%nat 1%nat * v + b 1%nat.
Proof.
  split.
  - intros (m & [H0 H1] & Hi). exists (m 0%nat), (m 1%nat). pose proof (Hi 0%nat ltac:(lia)) as E0. pose proof (Hi 1%nat ltac:(lia)) as E1.
    pose proof (H0 0%nat ltac:(lia)). pose proof (H0 1%nat ltac:(lia)). cbn [rsum] in *. repeat split; auto; lra.
  - intros (u & v & Hu & Hv & Hs & E0 & E1). exists (fun p => if (p =? 0)%nat then u else v). split.
    + split; [intros [|[|]] Hn; cbn [Nat.eqb]; auto; lia|cbn [rsum Nat.eqb]; lra].
    + intros [|[|]] Hn; cbn [rsum Nat.eqb]; try lia; lra.
Qed.
Lemma bary2 l : bary 2 l <-> 0 <= l 0%nat /\ 0 <= l 1%nat /\ l 0%nat + l 1%nat = 1.
Proof.
  unfold bary. cbn [rsum]. split.
  - intros [H E]. pose proof (H 0%nat ltac:(lia)). pose proof (H 1%nat ltac:(lia)). lra.
  - intros (H0 & H1 & E). split; [intros [|[|]] Hn; auto; lia|lra].
Qed.
(** One interval [c, d] of the coordinate l 1. *)
Lemma interval_sub (A : mat) b c d : 0 <= c -> c <= d -> d <= 1 -> A 0%nat 0%nat + b 0%nat = 1 - c -> A 1%nat 0%nat + b 1%nat = c -> A 0%nat 1%nat + b 0%nat = 1 - d -> A 1%nat 1%nat + b 1%nat = d ->
  sub_simplex 2 A b (d - c).
Proof.
  intros H0 H1 H2 E00 E10 E01 E11. split.
  - intros [|[|]] Hj; [| |lia]; apply bary2; lra.
  - unfold det. rewrite E00, E10, E01, E11. rewrite <- (Rabs_pos_eq (d - c)) at 1 by lra. f_equal. ring.
Qed.
Lemma interval_covers (A : mat) b c d l : c <= d -> A 0%nat 0%nat + b 0%nat = 1 - c -> A 1%nat 0%nat + b 1%nat = c -> A 0%nat 1%nat + b 0%nat = 1 - d -> A 1%nat 1%nat + b 1%nat = d ->
  bary 2 l -> (covers 2 A b l <-> c <= l 1%nat <= d).
Proof.
  intros H1 E00 E10 E01 E11 Hb. apply bary2 in Hb. rewrite covers2. split.
  - intros (u & v & Hu & Hv & Hs & _ & E1).
    assert (E : l 1%nat = c * u + d * v) by (rewrite E1, <- E10, <- E11; replace u with (1 - v) by lra; ring).
    assert (0 <= (d - c) * v) by (apply Rmult_le_pos; lra). assert (0 <= (d - c) * u) by (apply Rmult_le_pos; lra).
    rewrite E. replace u with (1 - v) at 1 by lra. replace v with (1 - u) at 3 by lra. split; lra.
  - intros [L1 L2]. destruct (Req_dec c d) as [E|E].
    + exists 1, 0. subst d. repeat split; lra.
    + set (v := (l 1%nat - c) / (d - c)). assert (Ev : (d - c) * v = l 1%nat - c) by (unfold v; field; lra).
      assert (0 <= v) by (apply quo_pos; lra).
      assert (0 <= 1 - v). { apply pos_by with (d - c) (d - l 1%nat); [lra|lra|]. rewrite Rmult_minus_distr_l, Ev. ring. }
      exists (1 - v), v. split; [auto|]. split; [auto|]. split; [lra|].
      assert (A00 : A 0%nat 0%nat = 1 - c - b 0%nat) by lra. assert (A01 : A 0%nat 1%nat = 1 - d - b 0%nat) by lra.
      assert (A10 : A 1%nat 0%nat = c - b 1%nat) by lra. assert (A11 : A 1%nat 1%nat = d - b 1%nat) by lra.
      rewrite A00, A01, A10, A11. split; lra.
Qed.
Lemma interval_strict (A : mat) b c d l : c <= d -> A 1%nat 0%nat + b 1%nat = c -> A 1%nat 1%nat + b 1%nat = d ->
  strictly_covers 2 A b l -> c < d -> c < l 1%nat < d.
Proof.
  intros H1 E10 E11 (m & [Hm Hs] & Hp & Hi) Hcd. pose proof (Hi 1%nat ltac:(lia)) as E1. pose proof (Hp 0%nat ltac:(lia)). pose proof (Hp 1%nat ltac:(lia)).
  cbn [rsum] in *. assert (E : l 1%nat = c * m 0%nat + d * m 1%nat) by (rewrite E1, <- E10, <- E11; replace (m 0%nat) with (1 - m 1%nat) by lra; ring).
  assert (0 < (d - c) * m 1%nat) by (apply Rmult_lt_0_compat; lra). assert (0 < (d - c) * m 0%nat) by (apply Rmult_lt_0_compat; lra).
  rewrite E. replace (m 0%nat) with (1 - m 1%nat) at 1 by lra. replace (m 1%nat) with (1 - m 0%nat) at 3 by lra. split; lra.
Qed.
Lemma one_interval (A : mat) c d v S : v = d - c -> 0 <= c -> c <= d -> d <= 1 -> A 0%nat 0%nat = 1 - c -> A 1%nat 0%nat = c -> A 0%nat 1%nat = 1 - d -> A 1%nat 1%nat = d ->
  (forall l, bary 2 l -> (S l <-> c <= l 1%nat <= d)) -> subdivision 2 (linear_subs [(A, v)]) S.
Proof.
  intros -> H0 H1 H2 E00 E10 E01 E11 HS. split; [|split].
  - intros A' b vol [E|[]]. injection E as <- <- <-. apply interval_sub; auto; cbn beta; lra.
  - intros l Hb. rewrite (HS l Hb). split.
    + intros (A' & b & vol & [E|[]] & HC). injection E as <- <- <-. apply (interval_covers A (fun _ => 0) c d l) in HC; auto; lra.
    + intros HC. exists A, (fun _ => 0), (d - c). split; [left; reflexivity|]. apply (interval_covers A (fun _ => 0) c d l); auto; lra.
  - intros [|p] [|[|q]] s s' Hpq E E'; try lia; discriminate.
Qed.

Lemma inside2 h2 x a b : inside_at (ball2 1 h2) 2 [x] [[a]; [b]] = Ok [rle ((a - x) * (a - x)) h2; rle ((b - x) * (b - x)) h2].
Proof.
  unfold inside_at, for_range. cbn [Nat.sub for_n aget nth_error bind isInside ball2]. unfold ball2_isInside, dist2, for_range.
  cbn [Nat.sub for_n aget nth_error length bind app].
  replace (0 + (x - a) * (x - a)) with ((a - x) * (a - x)) by ring. replace (0 + (x - b) * (x - b)) with ((b - x) * (b - x)) by ring. reflexivity.
Qed.

Lemma node_1D_ok a b x h2 : a <> b -> (a - x) ^ 2 <> h2 -> (b - x) ^ 2 <> h2 ->
  exists subs, node_1D (ball2 1 h2) [x] [[a]; [b]] = Ok subs /\ (length subs <= 1)%nat /\
    subdivision 2 (linear_subs subs) (fun l => far2 1 2 [x] [[a]; [b]] l <= h2).
Proof.
  intros Hab Na Nb. unfold node_1D. rewrite inside2. cbn [bind].
  set (N := (b - a) * (b - a)). assert (HN : 0 < N) by (unfold N; apply Rsqr_pos_lt; lra).
  assert (HF : forall l, bary 2 l -> far2 1 2 [x] [[a]; [b]] l - h2 = N * l 1%nat * l 1%nat + 2 * ((b - a) * (a - x)) * l 1%nat + ((a - x) * (a - x) - h2)).
  { intros l Hb. apply bary2 in Hb. unfold far2, at_bary, N. cbn [rsum nth]. replace (l 0%nat) with (1 - l 1%nat) by lra. ring. }
  assert (HF' : forall l, bary 2 l -> far2 1 2 [x] [[a]; [b]] l - h2 = N * l 0%nat * l 0%nat + 2 * ((a - b) * (b - x)) * l 0%nat + ((b - x) * (b - x) - h2)).
  { intros l Hb. apply bary2 in Hb. unfold far2, at_bary, N. cbn [rsum nth]. replace (l 1%nat) with (1 - l 0%nat) by lra. ring. }
  assert (HB : forall l, bary 2 l -> 0 <= l 0%nat <= 1 /\ 0 <= l 1%nat <= 1 /\ l 0%nat + l 1%nat = 1) by (intros l Hb; apply bary2 in Hb; lra).
  assert (Qa : (a - x) * (a - x) - h2 <> 0) by (intros E; apply Na; lra). assert (Qb : (b - x) * (b - x) - h2 <> 0) by (intros E; apply Nb; lra).
  assert (E1 : N + 2 * ((b - a) * (a - x)) + ((a - x) * (a - x) - h2) = (b - x) * (b - x) - h2) by (unfold N; ring).
  assert (E1' : N + 2 * ((a - b) * (b - x)) + ((b - x) * (b - x) - h2) = (a - x) * (a - x) - h2) by (unfold N; ring).
  assert (F01 : forall u, ball2_findIntersections 1 h2 [x] [[a]; [b]] 0 1 u = quad N ((b - a) * (a - x)) ((a - x) * (a - x) - h2) u) by (intros; apply find1; reflexivity).
  assert (F10 : forall u, ball2_findIntersections 1 h2 [x] [[a]; [b]] 1 0 u = quad N ((a - b) * (b - x)) ((b - x) * (b - x) - h2) u)
    by (intros; rewrite (find1 h2 x [[a]; [b]] 1 0 u b a eq_refl eq_refl); f_equal; unfold N; ring).
  destruct (Rlt_dec ((a - x) * (a - x)) h2) as [Ga|Ga]; [rewrite (rle_true ((a - x) * (a - x))) by lra|rewrite (rle_false ((a - x) * (a - x))) by lra];
  (destruct (Rlt_dec ((b - x) * (b - x)) h2) as [Gb|Gb]; [rewrite (rle_true ((b - x) * (b - x))) by lra|rewrite (rle_false ((b - x) * (b - x))) by lra]);
  cbn [count_true filter length first_true]; cbn [findIntersections ball2].
  - eexists. split; [reflexivity|]. cbn [app length]. split; [lia|]. 
    apply (one_interval _ 0 1); mats; try lra. intros l Hb. pose proof (HB l Hb) as (B0 & B1 & _). split; [auto|intros _].
    pose proof (quad_in_in N ((b - a) * (a - x)) ((a - x) * (a - x) - h2) HN ltac:(lra) ltac:(lra) (l 1%nat) B1). pose proof (HF l Hb). lra.
  - replace ((0 + 1) mod 2)%nat with 1%nat by reflexivity. rewrite F01.
    destruct (quad_in_out N ((b - a) * (a - x)) ((a - x) * (a - x) - h2) (alloc 2) HN ltac:(lra) ltac:(lra) eq_refl) as (c & b' & Eq & Er & _ & Hc & _ & HI).
    rewrite Eq. cbn [bind]. rewrite Er. cbn [bind]. eexists. split; [reflexivity|]. cbn [app length]. split; [lia|].
    apply (one_interval _ 0 c); mats; try lra. intros l Hb. pose proof (HB l Hb) as (B0 & B1 & _).
    pose proof (HF l Hb). pose proof (HI (l 1%nat) B1). split; [intros L; split; [lra|apply HI; lra]|intros [_ L]; apply HI in L; lra].
  - replace ((1 + 1) mod 2)%nat with 0%nat by reflexivity. rewrite F10.
    destruct (quad_in_out N ((a - b) * (b - x)) ((b - x) * (b - x) - h2) (alloc 2) HN ltac:(lra) ltac:(lra) eq_refl) as (c & b' & Eq & Er & _ & Hc & _ & HI).
    rewrite Eq. cbn [bind]. rewrite Er. cbn [bind]. eexists. split; [reflexivity|]. cbn [app length]. split; [lia|].
    apply (one_interval _ (1 - c) 1); mats; try lra. intros l Hb. pose proof (HB l Hb) as (B0 & B1 & BS).
    pose proof (HF' l Hb). pose proof (HI (l 0%nat) B0). split; [intros L; split; [|lra]; assert (l 0%nat <= c) by (apply HI; lra); lra|intros [L _]; assert (L' : l 0%nat <= c) by lra; apply HI in L'; lra].
  - rewrite F01.
    destruct (quad_out_out N ((b - a) * (a - x)) ((a - x) * (a - x) - h2) (alloc 2) HN ltac:(lra) ltac:(lra) eq_refl) as [[Eq HI]|(c & d & b' & Eq & Er & Er' & _ & Hc & Hcd & Hd & _ & _ & HI)].
    + rewrite Eq. cbn [bind Nat.eqb]. exists []. split; [reflexivity|]. cbn [length]. split; [lia|]. split; [intros A bb vol []|]. split.
      * intros l Hb. split; [intros (? & ? & ? & [] & _)|]. intros L. pose proof (HB l Hb) as (B0 & B1 & _). specialize (HI (l 1%nat) B1). pose proof (HF l Hb). lra.
      * intros [|p] [|q] s s' Hpq E; discriminate.
    + rewrite Eq. cbn [bind Nat.eqb]. rewrite Er, Er'. cbn [bind]. eexists. split; [reflexivity|]. cbn [app length]. split; [lia|].
      apply (one_interval _ c d); mats; try lra. intros l Hb. pose proof (HB l Hb) as (B0 & B1 & _). pose proof (HF l Hb). split; [intros L; apply HI; lra|intros L; apply HI in L; lra].
Qed.
