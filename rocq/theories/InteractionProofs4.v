(** The sub-simplices chosen by [node_2D] and [node_1D] for balls. *)
From Coq Require Import R_sqrt Psatz.
From Verif Require Import LinR ReorderProofs InteractionModel InteractionSpec InteractionProofs InteractionProofs2 InteractionProofs3.
Open Scope R_scope.
Set Default Proof Using "Type".

Lemma two_roots N P Q t c : N <> 0 -> N * t * t + 2 * P * t + Q = 0 -> N * c * c + 2 * P * c + Q = 0 ->
  t = c \/ (N * (t * c) = Q /\ N * ((1 - t) * (1 - c)) = N + 2 * P + Q).
Proof.
  intros HN H1 H2. destruct (Req_dec t c) as [E|E]; [auto|right].
  assert (EP : 2 * P = - (N * (t + c))).
  { apply Rmult_eq_reg_l with (t - c); [|lra]. replace ((t - c) * (2 * P)) with (2 * P * t - 2 * P * c) by ring.
    replace (2 * P * t - 2 * P * c) with (N * c * c - N * t * t) by lra. ring. }
  rewrite EP in H1. rewrite EP. split; [lra|]. replace Q with (N * (t * c)) by lra. ring.
Qed.

(** Corner values *)
Section Tri.
  Variables x y x0 y0 x1 y1 x2 y2 h2 : R.
  Let T : simplex := [[x0; y0]; [x1; y1]; [x2; y2]].
  Let X : point := [x; y].
  Let D := ball2 2 h2.
  Definition px (i : nat) := match i with 0%nat => x0 | 1%nat => x1 | _ => x2 end.
  Definition py (i : nat) := match i with 0%nat => y0 | 1%nat => y1 | _ => y2 end.
  Definition g (i : nat) : R := (px i - x) * (px i - x) + (py i - y) * (py i - y).
  Let F (l : nat -> R) := far2 2 3 X T l.
  Let K := cut_points X T h2.
  Definition apart (i j : nat) := ~ (px i = px j /\ py i = py j).

  Lemma far_coord i j k l : rot i j k -> F l = (l i * px i + l j * px j + l k * px k - x) ^ 2 + (l i * py i + l j * py j + l k * py k - y) ^ 2.
  Proof. intros HR. unfold F, far2, at_bary, T, X. rots HR; cbn [rsum nth px py]; ring. Qed.
  Lemma far_corner l i : (i < 3)%nat -> bary 3 l -> l i = 1 -> F l = g i.
  Proof.
    intros Hi Hb E. pose proof (rot_mod i Hi) as HR. set (j := ((i + 1) mod 3)%nat) in *. set (k := ((i + 2) mod 3)%nat) in *.
    apply (rot_bary i j k l HR) in Hb. assert (l j = 0) by lra. assert (l k = 0) by lra. rewrite (far_coord i j k l HR), E, H, H0. unfold g. ring.
  Qed.

  (** The edge from s to e. *)
  Lemma edge s e r : rot s e r \/ rot e s r -> apart s e ->
    exists N P Q, 0 < N /\ (forall b, findIntersections D X T s e b = quad N P Q b) /\ Q = g s - h2 /\ N + 2 * P + Q = g e - h2 /\
      forall l, bary 3 l -> l r = 0 -> F l - h2 = N * l e * l e + 2 * P * l e + Q.
  Proof.
    intros HR HA.
    exists ((px e - px s) * (px e - px s) + (py e - py s) * (py e - py s)), ((px e - px s) * (px s - x) + (py e - py s) * (py s - y)), (g s - h2).
    split; [|split; [|split; [reflexivity|split]]].
    - unfold apart in HA. assert (0 <= (px e - px s) * (px e - px s)) by (apply Rle_0_sqr). assert (0 <= (py e - py s) * (py e - py s)) by (apply Rle_0_sqr).
      destruct (Req_dec ((px e - px s) * (px e - px s)) 0) as [E|E]; [|lra]. destruct (Req_dec ((py e - py s) * (py e - py s)) 0) as [E'|E']; [|lra].
      exfalso. apply HA. apply Rmult_integral in E. apply Rmult_integral in E'. split; lra.
    - intros b. cbn [findIntersections D ball2]. unfold X, g. apply find2; destruct HR as [HR|HR]; rots HR; reflexivity.
    - unfold g. ring.
    - intros l Hb E. assert (F l = (l s * px s + l e * px e + l r * px r - x) ^ 2 + (l s * py s + l e * py e + l r * py r - y) ^ 2 /\ l s + l e + l r = 1) as [E1 E2].
      { destruct HR as [HR|HR].
        - split; [apply (far_coord s e r l HR)|apply (rot_bary _ _ _ l HR) in Hb; lra].
        - split; [rewrite (far_coord e s r l HR); ring|apply (rot_bary _ _ _ l HR) in Hb; lra]. }
      rewrite E1, E. replace (l s) with (1 - l e) by lra. unfold g. ring.
  Qed.

  Lemma inside3 : inside_at D 3 X T = Ok [rle (g 0) h2; rle (g 1) h2; rle (g 2) h2].
  Proof.
    unfold inside_at, for_range. cbn [Nat.sub for_n aget nth_error T bind isInside D ball2]. unfold ball2_isInside, dist2, for_range.
    cbn [Nat.sub for_n aget nth_error X length bind app].
    replace (0 + (x - x0) * (x - x0) + (y - y0) * (y - y0)) with (g 0) by (unfold g, px, py; ring).
    replace (0 + (x - x1) * (x - x1) + (y - y1) * (y - y1)) with (g 1) by (unfold g, px, py; ring).
    replace (0 + (x - x2) * (x - x2) + (y - y2) * (y - y2)) with (g 2) by (unfold g, px, py; ring). reflexivity.
  Qed.

  Lemma K_cases i j k l : rot i j k ->
    (K l <-> bary 3 l /\ ((l i = 1 /\ g i <= h2) \/ (l j = 1 /\ g j <= h2) \/ (l k = 1 /\ g k <= h2) \/ (F l = h2 /\ (l i = 0 \/ l j = 0 \/ l k = 0)))).
  Proof.
    intros HR. assert (HI : (i < 3 /\ j < 3 /\ k < 3)%nat) by (rots HR; lia). destruct HI as (Hi & Hj & Hk).
    assert (HA : forall q, (q < 3)%nat -> q = i \/ q = j \/ q = k) by (intros q Hq; rots HR; lia).
    unfold K, cut_points. fold (F l). split.
    - intros [Hb [[HF (q & Hq & E)]|[HF (q & Hq & E)]]]; (split; [exact Hb|]).
      + rewrite (far_corner l q Hq Hb E) in HF. destruct (HA q Hq) as [->|[->| ->]]; auto.
      + do 3 right. split; [exact HF|]. destruct (HA q Hq) as [->|[->| ->]]; auto.
    - intros [Hb [[E HF]|[[E HF]|[[E HF]|[HF HE]]]]]; (split; [exact Hb|]).
      + left. rewrite (far_corner l i Hi Hb E). eauto.
      + left. rewrite (far_corner l j Hj Hb E). eauto.
      + left. rewrite (far_corner l k Hk Hb E). eauto.
      + right. split; [exact HF|]. destruct HE as [E|[E|E]]; eauto.
  Qed.
  Lemma bary_zero i j k l : rot i j k -> bary 3 l -> l j = 1 -> l i = 0 /\ l k = 0.
  Proof. intros HR Hb E. apply (rot_bary i j k l HR) in Hb. lra. Qed.

  (** The edges of one corner inside. *)
  Lemma edge_in_out s e r : rot s e r \/ rot e s r -> apart s e -> g s < h2 -> h2 < g e -> forall b, length b = 2%nat ->
    exists c b', findIntersections D X T s e b = Ok (1%nat, b') /\ rd b' 0 = Ok c /\ length b' = 2%nat /\ 0 < c < 1 /\
      forall l, bary 3 l -> l r = 0 -> (F l = h2 <-> l e = c) /\ (F l <= h2 <-> l e <= c).
  Proof.
    intros HR HA Hs He b Hb. destruct (edge s e r HR HA) as (N & P & Q & HN & Hf & EQ & E1 & HF).
    destruct (quad_in_out N P Q b HN ltac:(lra) ltac:(lra) Hb) as (c & b' & Hq & Hr & Hl & Hc & E0 & HI).
    exists c, b'. rewrite Hf. repeat (split; [assumption|]). intros l Hlb Hlr. specialize (HF l Hlb Hlr).
    assert (0 <= l e <= 1). { destruct HR as [HR|HR]; apply (rot_bary _ _ _ l HR) in Hlb; lra. }
    split; [|split; intros L; [apply HI; lra|apply HI in L; lra]].
    split; intros E; [|rewrite E, E0 in HF; lra].
    assert (Z : N * l e * l e + 2 * P * l e + Q = 0) by lra.
    destruct (two_roots N P Q (l e) c ltac:(lra) Z E0) as [|[A _]]; [auto|].
    assert (0 <= N * (l e * c)) by (apply Rmult_le_pos; [lra|apply Rmult_le_pos; lra]). lra.
  Qed.
  Lemma edge_out_in s e r : rot s e r \/ rot e s r -> apart s e -> h2 < g s -> g e < h2 -> forall b, length b = 2%nat ->
    exists c b', findIntersections D X T s e b = Ok (1%nat, b') /\ rd b' 0 = Ok c /\ length b' = 2%nat /\ 0 < c < 1 /\
      forall l, bary 3 l -> l r = 0 -> (F l = h2 <-> l e = c) /\ (F l <= h2 <-> c <= l e).
  Proof.
    intros HR HA Hs He b Hb. destruct (edge s e r HR HA) as (N & P & Q & HN & Hf & EQ & E1 & HF).
    destruct (quad_out_in N P Q b HN ltac:(lra) ltac:(lra) Hb) as (c & b' & Hq & Hr & Hl & Hc & E0 & HI).
    exists c, b'. rewrite Hf. repeat (split; [assumption|]). intros l Hlb Hlr. specialize (HF l Hlb Hlr).
    assert (0 <= l e <= 1). { destruct HR as [HR|HR]; apply (rot_bary _ _ _ l HR) in Hlb; lra. }
    split; [|split; intros L; [apply HI; lra|apply HI in L; lra]].
    split; intros E; [|rewrite E, E0 in HF; lra].
    assert (Z : N * l e * l e + 2 * P * l e + Q = 0) by lra.
    destruct (two_roots N P Q (l e) c ltac:(lra) Z E0) as [|[_ A]]; [auto|].
    assert (0 <= N * ((1 - l e) * (1 - c))) by (apply Rmult_le_pos; [lra|apply Rmult_le_pos; lra]). lra.
  Qed.
  Lemma edge_out_out s e r : rot s e r \/ rot e s r -> apart s e -> h2 < g s -> h2 < g e -> forall b, length b = 2%nat ->
    (findIntersections D X T s e b = Ok (0%nat, b) /\ forall l, bary 3 l -> l r = 0 -> F l <> h2) \/
    (exists c d b', findIntersections D X T s e b = Ok (2%nat, b') /\ rd b' 0 = Ok c /\ rd b' 1 = Ok d /\ 0 < c /\ c <= d /\ d < 1 /\
      forall l, bary 3 l -> l r = 0 -> (F l = h2 <-> l e = c \/ l e = d)).
  Proof.
    intros HR HA Hs He b Hb. destruct (edge s e r HR HA) as (N & P & Q & HN & Hf & EQ & E1 & HF).
    assert (HB : forall l, bary 3 l -> 0 <= l e <= 1). { intros l Hlb. destruct HR as [HR|HR]; apply (rot_bary _ _ _ l HR) in Hlb; lra. }
    destruct (quad_out_out N P Q b HN ltac:(lra) ltac:(lra) Hb) as [[Hq H]|(c & d & b' & Hq & Hr & Hr' & Hl & Hc & Hcd & Hd & E0 & E2 & H)].
    - left. rewrite Hf. split; [exact Hq|]. intros l Hlb Hlr E. specialize (HF l Hlb Hlr). specialize (H (l e) (HB l Hlb)). lra.
    - right. exists c, d, b'. rewrite Hf. repeat (split; [assumption|]). intros l Hlb Hlr. specialize (HF l Hlb Hlr). split.
      + intros E. assert (Z : N * l e * l e + 2 * P * l e + Q = 0) by lra.
        destruct (two_roots N P Q (l e) c ltac:(lra) Z E0) as [|[A _]]; [auto|].
        destruct (two_roots N P Q d c ltac:(lra) E2 E0) as [Edc|[A' _]].
        * left. assert (c <= l e <= d) by (apply (H (l e) (HB l Hlb)); lra). lra.
        * right. apply Rmult_eq_reg_r with c; [|lra]. apply Rmult_eq_reg_l with N; lra.
      + intros [E|E]; rewrite E in HF; [rewrite E0 in HF|rewrite E2 in HF]; lra.
  Qed.

  Lemma rot_next i j k : rot i j k -> ((i + 1) mod 3)%nat = j /\ ((i + 2) mod 3)%nat = k.
  Proof. intros HR. rots HR; auto. Qed.
  Lemma rot_12 i j k : rot i j k -> rot i j k \/ rot j i k. Proof. auto. Qed.
  Lemma rot_13 i j k : rot i j k -> rot i k j \/ rot k i j.
  Proof. intros HR. right. unfold rot in *. rots HR; auto. Qed.
  Lemma rot_23 i j k : rot i j k -> rot j k i \/ rot k j i.
  Proof. intros HR. left. unfold rot in *. rots HR; auto. Qed.
  Lemma rot_31 i j k : rot i j k -> rot k i j.
  Proof. intros HR. unfold rot in *. rots HR; auto. Qed.
  Lemma rot_corner i j k l : rot i j k -> bary 3 l -> (l i = 1 -> l j = 0 /\ l k = 0) /\ (l j = 0 -> l k = 0 -> l i = 1).
  Proof. intros HR Hb. apply (rot_bary i j k l HR) in Hb. split; [intros; split|intros]; lra. Qed.

  Lemma one_ok i j k : rot i j k -> apart i j -> apart i k -> apart j k -> g i < h2 -> h2 < g j -> h2 < g k ->
    exists subs, one_inside D X T None i = Ok subs /\ subdivision 3 (linear_subs subs) (hull 3 K).
  Proof.
    intros HR Aij Aik Ajk Hi Hj Hk. destruct (rot_next i j k HR) as [En1 En2].
    unfold one_inside. rewrite En1, En2.
    destruct (edge_in_out i j k (rot_12 _ _ _ HR) Aij Hi Hj (alloc 2) eq_refl) as (c1 & b1 & Ef1 & Er1 & Hl1 & Hc1 & HF1).
    rewrite Ef1. cbn [bind]. rewrite Er1. cbn [bind].
    destruct (edge_in_out i k j (rot_13 _ _ _ HR) Aik Hi Hk b1 Hl1) as (c2 & b2 & Ef2 & Er2 & Hl2 & Hc2 & HF2).
    rewrite Ef2. cbn [bind]. rewrite Er2. cbn [bind].
    destruct (edge_out_out j k i (rot_23 _ _ _ HR) Ajk Hj Hk b2 Hl2) as [[Ef3 HF3]|(c & d & b3 & Ef3 & Er3 & Er4 & Hc & Hcd & Hd & HF3)]; rewrite Ef3; cbn [bind Nat.eqb].
    - eexists. split; [reflexivity|]. cbn [app].
      apply (cut_triangle i j k c1 c2 K HR Hc1 Hc2). intros p. unfold K. fold K. rewrite (K_cases i j k p HR). split.
      + intros [Hb H]. split; [exact Hb|].
        destruct H as [[E _]|[[E G]|[[E G]|[HF [E|[E|E]]]]]]; [left; exact E|lra|lra|exfalso; apply (HF3 p Hb E HF)|right; right; split; [exact E|apply (HF2 p Hb E); exact HF]|right; left; split; [exact E|apply (HF1 p Hb E); exact HF]].
      + intros [Hb [E|[[E1 E2]|[E1 E2]]]]; (split; [exact Hb|]).
        * left. split; [exact E|lra].
        * do 3 right. split; [apply (HF1 p Hb E1); exact E2|auto].
        * do 3 right. split; [apply (HF2 p Hb E1); exact E2|auto].
    - rewrite Er3, Er4. cbn [bind]. eexists. split; [reflexivity|]. cbn [app].
      apply (cut_pentagon i j k c1 c2 c d K HR Hc1 Hc2 Hc Hcd Hd). intros p. rewrite (K_cases i j k p HR). split.
      + intros [Hb H]. split; [exact Hb|].
        destruct H as [[E _]|[[E G]|[[E G]|[HF [E|[E|E]]]]]]; [left; exact E|lra|lra
          |do 3 right; split; [exact E|apply (HF3 p Hb E); exact HF]|right; right; left; split; [exact E|apply (HF2 p Hb E); exact HF]|right; left; split; [exact E|apply (HF1 p Hb E); exact HF]].
      + intros [Hb [E|[[E1 E2]|[[E1 E2]|[E1 E2]]]]]; (split; [exact Hb|]).
        * left. split; [exact E|lra].
        * do 3 right. split; [apply (HF1 p Hb E1); exact E2|auto].
        * do 3 right. split; [apply (HF2 p Hb E1); exact E2|auto].
        * do 3 right. split; [apply (HF3 p Hb E1); exact E2|auto].
  Qed.

  Lemma edge_in_in s e r : rot s e r \/ rot e s r -> apart s e -> g s < h2 -> g e < h2 -> forall l, bary 3 l -> l r = 0 -> F l < h2.
  Proof.
    intros HR HA Hs He l Hlb Hlr. destruct (edge s e r HR HA) as (N & P & Q & HN & _ & EQ & E1 & HF). specialize (HF l Hlb Hlr).
    assert (0 <= l e <= 1). { destruct HR as [HR|HR]; apply (rot_bary _ _ _ l HR) in Hlb; lra. }
    pose proof (quad_in_in N P Q HN ltac:(lra) ltac:(lra) (l e) H). lra.
  Qed.

  Lemma two_ok o i1 i2 : rot o i1 i2 -> apart o i1 -> apart o i2 -> apart i1 i2 -> h2 < g o -> g i1 < h2 -> g i2 < h2 ->
    exists subs, two_inside D X T None o = Ok subs /\ subdivision 3 (linear_subs subs) (hull 3 K).
  Proof.
    intros HR A1 A2 A12 Ho H1 H2. destruct (rot_next o i1 i2 HR) as [En1 En2].
    unfold two_inside. rewrite En1, En2.
    destruct (edge_out_in o i1 i2 (rot_12 _ _ _ HR) A1 Ho H1 (alloc 2) eq_refl) as (c1 & b1 & Ef1 & Er1 & Hl1 & Hc1 & HF1).
    rewrite Ef1. cbn [bind]. rewrite Er1. cbn [bind].
    destruct (edge_out_in o i2 i1 (rot_13 _ _ _ HR) A2 Ho H2 b1 Hl1) as (c2 & b2 & Ef2 & Er2 & Hl2 & Hc2 & HF2).
    rewrite Ef2. cbn [bind]. rewrite Er2. cbn [bind].
    assert (HK : forall p, K p <-> bary 3 p /\ (p i1 = 1 \/ p i2 = 1 \/ (p i2 = 0 /\ p i1 = c1) \/ (p i1 = 0 /\ p i2 = c2))).
    { intros p. rewrite (K_cases o i1 i2 p HR). split.
      - intros [Hb H]. split; [exact Hb|].
        destruct H as [[E G]|[[E G]|[[E G]|[HF [E|[E|E]]]]]]; [lra|left; exact E|right; left; exact E| |do 3 right; split; [exact E|apply (HF2 p Hb E); exact HF]|do 2 right; left; split; [exact E|apply (HF1 p Hb E); exact HF]].
        pose proof (edge_in_in i1 i2 o (rot_23 _ _ _ HR) A12 H1 H2 p Hb E). lra.
      - intros [Hb [E|[E|[[E1 E2]|[E1 E2]]]]]; (split; [exact Hb|]).
        + right. left. split; [exact E|lra].
        + do 2 right. left. split; [exact E|lra].
        + do 3 right. split; [apply (HF1 p Hb E1); exact E2|auto].
        + do 3 right. split; [apply (HF2 p Hb E1); exact E2|auto]. }
    assert (EL : exists d1 d2, for_range 0 2 (fun k '(d1, d2) =>
       t1 <- coord T i1 k ;; t2 <- coord T i2 k ;; t0 <- coord T o k ;;
       Ok (d1 + (t2 - (c1 * t1 + (1 - c1) * t0)) * (t2 - (c1 * t1 + (1 - c1) * t0)), d2 + (t1 - (c2 * t2 + (1 - c2) * t0)) * (t1 - (c2 * t2 + (1 - c2) * t0)))) (0, 0) = Ok (d1, d2)).
    { unfold for_range, coord, T. clear - HR. rots HR; cbn [Nat.sub for_n bind aget nth_error]; eauto. }
    destruct EL as (d1 & d2 & EL). rewrite EL. cbn [bind].
    destruct (rlt d1 d2).
    - eexists. split; [reflexivity|]. cbn [app]. apply (quadA_cut o i1 i2 c1 c2 K HR Hc1 Hc2 HK).
    - eexists. split; [reflexivity|]. cbn [app]. apply (quadB_cut o i1 i2 c1 c2 K HR Hc1 Hc2 HK).
  Qed.

  Lemma node_2D_ok : apart 0 1 -> apart 1 2 -> apart 2 0 -> g 0 <> h2 -> g 1 <> h2 -> g 2 <> h2 ->
    exists subs, node_2D D X T = Ok subs /\ 
      ((g 0 < h2 \/ g 1 < h2 \/ g 2 < h2) -> subdivision 3 (linear_subs subs) (hull 3 K)) /\
      (h2 < g 0 -> h2 < g 1 -> h2 < g 2 -> subs = []).
  Proof.
    intros A01 A12 A20 N0 N1 N2. unfold node_2D. rewrite inside3. cbn [bind D ball2 specialOffsets special]. fold D.
    assert (apart 1 0) by (unfold apart in *; intros [? ?]; apply A01; auto).
    assert (apart 2 1) by (unfold apart in *; intros [? ?]; apply A12; auto).
    assert (apart 0 2) by (unfold apart in *; intros [? ?]; apply A20; auto).
    assert (R0 : rot 0 1 2) by (unfold rot; auto). assert (R1 : rot 1 2 0) by (unfold rot; auto). assert (R2 : rot 2 0 1) by (unfold rot; auto).
    assert (one : forall i j k, rot i j k -> apart i j -> apart i k -> apart j k -> g i < h2 -> h2 < g j -> h2 < g k ->
      exists subs, one_inside D X T None i = Ok subs /\ ((g 0 < h2 \/ g 1 < h2 \/ g 2 < h2) -> subdivision 3 (linear_subs subs) (hull 3 K)) /\
      (h2 < g 0 -> h2 < g 1 -> h2 < g 2 -> subs = [])).
    { intros i j k HR' B1 B2 B3 C1 C2 C3. destruct (one_ok i j k HR' B1 B2 B3 C1 C2 C3) as (subs & E & HS). exists subs.
      split; [exact E|]. split; [auto|]. intros. exfalso. unfold rot in HR'. rots HR'; lra. }
    assert (two : forall i j k, rot i j k -> apart i j -> apart i k -> apart j k -> h2 < g i -> g j < h2 -> g k < h2 ->
      exists subs, two_inside D X T None i = Ok subs /\ ((g 0 < h2 \/ g 1 < h2 \/ g 2 < h2) -> subdivision 3 (linear_subs subs) (hull 3 K)) /\
      (h2 < g 0 -> h2 < g 1 -> h2 < g 2 -> subs = [])).
    { intros i j k HR' B1 B2 B3 C1 C2 C3. destruct (two_ok i j k HR' B1 B2 B3 C1 C2 C3) as (subs & E & HS). exists subs.
      split; [exact E|]. split; [auto|]. intros. exfalso. unfold rot in HR'. rots HR'; lra. }
    destruct (Rlt_dec (g 0) h2) as [G0|G0]; [rewrite (rle_true (g 0)) by lra|rewrite (rle_false (g 0)) by lra];
    (destruct (Rlt_dec (g 1) h2) as [G1|G1]; [rewrite (rle_true (g 1)) by lra|rewrite (rle_false (g 1)) by lra]);
    (destruct (Rlt_dec (g 2) h2) as [G2|G2]; [rewrite (rle_true (g 2)) by lra|rewrite (rle_false (g 2)) by lra]);
    cbn [count_true filter length Nat.ltb Nat.leb bind first_true map negb].
    - eexists. split; [reflexivity|]. cbn [app]. split; [intros _|intros; lra].
      apply cut_whole. intros p. rewrite (K_cases 0 1 2 p R0). split.
      + intros [Hb H2]. split; [exact Hb|]. destruct H2 as [[E _]|[[E _]|[[E _]|[HF [E|[E|E]]]]]]; auto.
        * pose proof (edge_in_in 1 2 0 (or_introl R1) A12 G1 G2 p Hb E). lra.
        * pose proof (edge_in_in 2 0 1 (or_introl R2) A20 G2 G0 p Hb E). lra.
        * pose proof (edge_in_in 0 1 2 (or_introl R0) A01 G0 G1 p Hb E). lra.
      + intros [Hb H2]. split; [exact Hb|]. destruct H2 as [E|[E|E]]; [left|right; left|do 2 right; left]; (split; [exact E|lra]).
    - apply (two 2%nat 0%nat 1%nat); auto; lra.
    - apply (two 1%nat 2%nat 0%nat); auto; lra.
    - apply (one 0%nat 1%nat 2%nat); auto; lra.
    - apply (two 0%nat 1%nat 2%nat); auto; lra.
    - apply (one 1%nat 2%nat 0%nat); auto; lra.
    - apply (one 2%nat 0%nat 1%nat); auto; lra.
    - exists []. split; [reflexivity|]. split; [lra|auto].
  Qed.
End Tri.
