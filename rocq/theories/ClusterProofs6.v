(** Proofs about the distances of boxes, and what they mean for the split into
    near and far field. *)
From Coq Require Import Sorting.Permutation Sorting.Sorted Lqa.
From Verif Require Import Util Lin MeshGeom ClusterModel ClusterSpec ClusterProofs ClusterProofs2 ClusterProofs4 ClusterProofs5.
Local Open Scope nat_scope.
Set Default Proof Using "Type".

(** ** Squares *)
Lemma mul_nonneg (a b : Qc) : (0 <= a -> 0 <= b -> 0 <= a * b)%Qc.
Proof. intros Ha Hb. rewrite <- (Qcmult_0_l b). apply Qcmult_le_compat_r; auto. Qed.
Lemma sq_nonneg (a : Qc) : (0 <= a * a)%Qc.
Proof.
  destruct (Qclt_le_dec a 0) as [H|H]; [|apply mul_nonneg; auto]. replace (a * a)%Qc with ((- a) * (- a))%Qc by ring. apply mul_nonneg; qclra.
Qed.
Lemma sq_le (a b : Qc) : (- b <= a -> a <= b -> a * a <= b * b)%Qc.
Proof.
  intros H1 H2. assert (H : (0 <= (b - a) * (b + a))%Qc) by (apply mul_nonneg; qclra). replace ((b - a) * (b + a))%Qc with (b * b - a * a)%Qc in H by ring. qclra.
Qed.
Lemma mul_le_l (c a b : Qc) : (0 <= c -> a <= b -> c * a <= c * b)%Qc.
Proof. intros Hc H. assert (X : (0 <= c * (b - a))%Qc) by (apply mul_nonneg; qclra). replace (c * (b - a))%Qc with (c * b - c * a)%Qc in X by ring. qclra. Qed.

(** ** One side *)
Definition side_ok (p : Qc * Qc) : Prop := (fst p <= snd p)%Qc.
Lemma dist1_le p q x y : (fst p <= x -> x <= snd p -> fst q <= y -> y <= snd q -> dist1 p q * dist1 p q <= (x - y) * (x - y))%Qc.
Proof.
  intros A B C D. unfold dist1, qmax. destruct (qlt (fst q) (fst p)).
  - destruct (qle (fst p - snd q) 0) eqn:E; [replace (0 * 0)%Qc with 0%Qc by ring; apply sq_nonneg|]. apply qle_false in E. apply sq_le; qclra.
  - destruct (qle (fst q - snd p) 0) eqn:E; [replace (0 * 0)%Qc with 0%Qc by ring; apply sq_nonneg|]. apply qle_false in E.
    replace ((x - y) * (x - y))%Qc with ((y - x) * (y - x))%Qc by ring. apply sq_le; qclra.
Qed.
Lemma dist1_at p q : side_ok p -> side_ok q -> exists x y, (fst p <= x /\ x <= snd p /\ fst q <= y /\ y <= snd q /\ dist1 p q * dist1 p q = (x - y) * (x - y))%Qc.
Proof.
  unfold side_ok. intros A B. unfold dist1, qmax. destruct (qlt (fst q) (fst p)) eqn:E0; [apply qlt_true in E0|apply qlt_false in E0].
  - destruct (qle (fst p - snd q) 0) eqn:E; [apply qle_true in E|apply qle_false in E].
    + exists (fst p), (fst p). repeat split; try qclra; ring.
    + exists (fst p), (snd q). repeat split; qclra.
  - destruct (qle (fst q - snd p) 0) eqn:E; [apply qle_true in E|apply qle_false in E].
    + exists (fst q), (fst q). repeat split; try qclra; ring.
    + exists (snd p), (fst q). repeat split; try qclra; ring.
Qed.
Definition stagger1 (p q : Qc * Qc) : Prop := ((fst p <= fst q /\ snd p <= snd q) \/ (fst q < fst p /\ snd q <= snd p))%Qc.
Lemma maxDist1_ge p q x y : stagger1 p q -> (fst p <= x -> x <= snd p -> fst q <= y -> y <= snd q -> (x - y) * (x - y) <= maxDist1 p q * maxDist1 p q)%Qc.
Proof.
  unfold stagger1. intros S A B C D. unfold maxDist1, qmax. destruct (qlt (fst q) (fst p)) eqn:E0; [apply qlt_true in E0|apply qlt_false in E0].
  - destruct S as [[S1 S2]|[S1 S2]]; [exfalso; qclra|]. destruct (qle (snd p - fst q) 0) eqn:E; [apply qle_true in E|]; apply sq_le; qclra.
  - destruct S as [[S1 S2]|[S1 S2]]; [|exfalso; qclra]. destruct (qle (snd q - fst p) 0) eqn:E; [apply qle_true in E|]; apply sq_le; qclra.
Qed.
Lemma maxDist1_at p q : side_ok p -> side_ok q -> exists x y, (fst p <= x /\ x <= snd p /\ fst q <= y /\ y <= snd q /\ maxDist1 p q * maxDist1 p q = (x - y) * (x - y))%Qc.
Proof.
  unfold side_ok. intros A B. unfold maxDist1, qmax. destruct (qlt (fst q) (fst p)) eqn:E0; [apply qlt_true in E0|apply qlt_false in E0].
  - exists (snd p), (fst q). repeat split; try qclra. destruct (qle (snd p - fst q) 0) eqn:E; [apply qle_true in E|reflexivity].
    assert (snd p - fst q = 0)%Qc as -> by qclra. ring.
  - exists (fst p), (snd q). repeat split; try qclra. destruct (qle (snd q - fst p) 0) eqn:E; [apply qle_true in E|ring].
    assert (fst p - snd q = 0)%Qc as -> by qclra. ring.
Qed.

(** ** Boxes *)
Lemma inside_cons p b v : inside (p :: b) v <-> (fst p <= v 0%nat /\ v 0%nat <= snd p)%Qc /\ inside b (fun k => v (S k)).
Proof.
  split.
  - intros H. split; [apply (H 0 p); auto|]. intros k q Hk. apply (H (S k) q); auto.
  - intros (H1 & H2) [|k] q Hk; [inversion Hk; subst; auto|apply (H2 k q); auto].
Qed.
Lemma pdist2_S d v w : pdist2 (S d) v w = ((v 0%nat - w 0%nat) * (v 0%nat - w 0%nat) + pdist2 d (fun k => v (S k)) (fun k => w (S k)))%Qc.
Proof. unfold pdist2. rewrite sumf_first. reflexivity. Qed.
Lemma pdist2_nonneg d : forall v w, (0 <= pdist2 d v w)%Qc.
Proof. induction d as [|d IH]; intros v w; [apply Qcle_refl|]. rewrite pdist2_S. pose proof (sq_nonneg (v 0%nat - w 0%nat)). specialize (IH (fun k => v (S k)) (fun k => w (S k))). qclra. Qed.

Lemma dist2_le : forall b1 b2 v w, length b1 = length b2 -> inside b1 v -> inside b2 w -> (dist2 b1 b2 <= pdist2 (length b1) v w)%Qc.
Proof.
  induction b1 as [|p b1 IH]; intros [|q b2] v w Hl H1 H2; try discriminate. apply inside_cons in H1 as ((A & B) & H1). apply inside_cons in H2 as ((C & D) & H2).
  cbn [length]. rewrite pdist2_S. unfold dist2. cbn [combine map suml fst snd]. fold (dist2 b1 b2).
  pose proof (dist1_le p q _ _ A B C D) as X. pose proof (IH b2 _ _ ltac:(cbn in Hl; lia) H1 H2) as Y. qclra.
Qed.
Definition vcons (x : Qc) (v : nat -> Qc) (k : nat) : Qc := match k with O => x | S k' => v k' end.
Lemma dist2_at : forall b1 b2, length b1 = length b2 -> Forall side_ok b1 -> Forall side_ok b2 -> exists v w, inside b1 v /\ inside b2 w /\ dist2 b1 b2 = pdist2 (length b1) v w.
Proof.
  induction b1 as [|p b1 IH]; intros [|q b2] Hl H1 H2; try discriminate.
  - exists (fun _ => 0%Qc), (fun _ => 0%Qc). repeat split; destruct k; discriminate.
  - apply Forall_cons_iff in H1 as [A H1]. apply Forall_cons_iff in H2 as [B H2]. destruct (IH b2 ltac:(cbn in Hl; lia) H1 H2) as (v & w & X & Y & E).
    destruct (dist1_at p q A B) as (x & y & X1 & X2 & X3 & X4 & E1). exists (vcons x v), (vcons y w). split; [apply inside_cons; auto|]. split; [apply inside_cons; auto|].
    cbn [length]. rewrite pdist2_S. unfold dist2. cbn [combine map suml fst snd]. fold (dist2 b1 b2). rewrite E, E1. reflexivity.
Qed.
Lemma maxDist2_at : forall b1 b2, length b1 = length b2 -> Forall side_ok b1 -> Forall side_ok b2 -> exists v w, inside b1 v /\ inside b2 w /\ maxDist2 b1 b2 = pdist2 (length b1) v w.
Proof.
  induction b1 as [|p b1 IH]; intros [|q b2] Hl H1 H2; try discriminate.
  - exists (fun _ => 0%Qc), (fun _ => 0%Qc). repeat split; destruct k; discriminate.
  - apply Forall_cons_iff in H1 as [A H1]. apply Forall_cons_iff in H2 as [B H2]. destruct (IH b2 ltac:(cbn in Hl; lia) H1 H2) as (v & w & X & Y & E).
    destruct (maxDist1_at p q A B) as (x & y & X1 & X2 & X3 & X4 & E1). exists (vcons x v), (vcons y w). split; [apply inside_cons; auto|]. split; [apply inside_cons; auto|].
    cbn [length]. rewrite pdist2_S. unfold maxDist2. cbn [combine map suml fst snd]. fold (maxDist2 b1 b2). rewrite E, E1. reflexivity.
Qed.
Lemma stagger_cons p q b1 b2 : staggered (p :: b1) (q :: b2) -> stagger1 p q /\ staggered b1 b2.
Proof. intros H. split; [apply (H 0); auto|]. intros k p' q' Hp Hq. apply (H (S k) p' q'); auto. Qed.
Lemma maxDist2_ge : forall b1 b2 v w, length b1 = length b2 -> staggered b1 b2 -> inside b1 v -> inside b2 w -> (pdist2 (length b1) v w <= maxDist2 b1 b2)%Qc.
Proof.
  induction b1 as [|p b1 IH]; intros [|q b2] v w Hl Hs H1 H2; try discriminate. apply stagger_cons in Hs as (S1 & S2).
  apply inside_cons in H1 as ((A & B) & H1). apply inside_cons in H2 as ((C & D) & H2).
  cbn [length]. rewrite pdist2_S. unfold maxDist2. cbn [combine map suml fst snd]. fold (maxDist2 b1 b2).
  pose proof (maxDist1_ge p q _ _ S1 A B C D) as X. pose proof (IH b2 _ _ ltac:(cbn in Hl; lia) S2 H1 H2) as Y. qclra.
Qed.
Lemma diam2_ge : forall b v w, inside b v -> inside b w -> (pdist2 (length b) v w <= diam2 b)%Qc.
Proof.
  induction b as [|p b IH]; intros v w H1 H2; [apply Qcle_refl|]. apply inside_cons in H1 as ((A & B) & H1). apply inside_cons in H2 as ((C & D) & H2).
  cbn [length]. rewrite pdist2_S. unfold diam2. cbn [map suml fst snd]. fold (diam2 b). specialize (IH _ _ H1 H2).
  assert (X : ((v 0%nat - w 0%nat) * (v 0%nat - w 0%nat) <= (snd p - fst p) * (snd p - fst p))%Qc) by (apply sq_le; qclra). qclra.
Qed.

(** ** Admissible pairs *)
Lemma seems_separated K P n1 n2 v v' w d : length (nbox (info_of n1)) = d -> length (nbox (info_of n2)) = d -> seemsAdmissible K P n1 n2 = true ->
  inside (nbox (info_of n1)) v -> inside (nbox (info_of n2)) w ->
  (inside (nbox (info_of n1)) v' -> pdist2 d v v' <= eta P * eta P * pdist2 d v w)%Qc /\
  (inside (nbox (info_of n2)) v' -> pdist2 d w v' <= eta P * eta P * pdist2 d v w)%Qc.
Proof.
  intros L1 L2 Hs Hv Hw. unfold seemsAdmissible in Hs. rewrite !andb_true_iff in Hs. destruct Hs as (((((Hs & _) & _) & _) & _) & _).
  set (b1 := nbox (info_of n1)) in *. set (b2 := nbox (info_of n2)) in *.
  assert (Hd : (dist2 b1 b2 <= pdist2 d v w)%Qc) by (rewrite <- L1; apply dist2_le; auto; congruence).
  pose proof (qmax_ge_l (diam2 b1) (diam2 b2)) as M1. pose proof (qmax_ge_r (diam2 b1) (diam2 b2)) as M2.
  assert (M : (qmax (diam2 b1) (diam2 b2) <= eta P * eta P * pdist2 d v w)%Qc).
  { unfold times_root_ge in Hs. destruct (qle 0 (eta P)).
    - apply qle_true in Hs. pose proof (mul_le_l (eta P * eta P) _ _ (sq_nonneg _) Hd). qclra.
    - apply andb_true_iff in Hs as [_ Hs]. apply qle_true in Hs. pose proof (mul_nonneg _ _ (sq_nonneg (eta P)) (pdist2_nonneg d v w)). qclra. }
  split; intros Hv'.
  - pose proof (diam2_ge b1 v v' Hv Hv') as X. rewrite L1 in X. qclra.
  - pose proof (diam2_ge b2 w v' Hw Hv') as X. rewrite L2 in X. qclra.
Qed.
Lemma adm_horizon K P n1 n2 v w d h : length (nbox (info_of n1)) = d -> length (nbox (info_of n2)) = d -> queryAdmissibility K P n1 n2 = ADMISSIBLE ->
  horizon K = Some h -> inside (nbox (info_of n1)) v -> inside (nbox (info_of n2)) w ->
  if complement K then (h < 0 \/ h * h < pdist2 d v w)%Qc
  else (0 <= h)%Qc /\ (staggered (nbox (info_of n1)) (nbox (info_of n2)) -> (pdist2 d v w < h * h)%Qc).
Proof.
  intros L1 L2 Hq Hh Hv Hw. apply query_adm in Hq as (Hz & Hc & _). unfold zero_pair, cut_pair in *. rewrite Hh in *.
  set (b1 := nbox (info_of n1)) in *. set (b2 := nbox (info_of n2)) in *.
  assert (Hd : (dist2 b1 b2 <= pdist2 d v w)%Qc) by (rewrite <- L1; apply dist2_le; auto; congruence).
  unfold root_le, le_root in *. destruct (complement K).
  - apply andb_false_iff in Hc. rewrite andb_false_iff, orb_false_iff in Hc. rewrite !qle_false in Hc. apply andb_false_iff in Hz. rewrite !qle_false in Hz.
    destruct Hc as [[Hc|Hc]|(Hc1 & Hc2)]; [auto|right; qclra|]. exfalso. destruct Hz; qclra.
  - apply negb_false_iff in Hz. rewrite Hz in Hc. cbn [andb] in Hc. apply andb_true_iff in Hz as [H1 H2]. rewrite qle_true in H1, H2. split; auto. intros Hs.
    apply orb_false_iff in Hc as [_ Hc]. apply qle_false in Hc. pose proof (maxDist2_ge b1 b2 v w ltac:(congruence) Hs Hv Hw) as X. rewrite L1 in X. qclra.
Qed.
Lemma sum_zero_1 (a : Qc) : (a * a <= 0 -> a = 0)%Qc.
Proof.
  intros H. pose proof (sq_nonneg a). assert (E : (a * a = 0)%Qc) by qclra. destruct (Qc_eq_dec a 0); auto. exfalso.
  assert (X : (a * a * / a = 0)%Qc) by (rewrite E; ring). field_simplify in X; auto.
Qed.
Lemma seems_staggered_1 K P n1 n2 p q : nbox (info_of n1) = [p] -> nbox (info_of n2) = [q] -> side_ok p -> side_ok q -> seemsAdmissible K P n1 n2 = true ->
  staggered (nbox (info_of n1)) (nbox (info_of n2)).
Proof.
  intros E1 E2 A B Hs. unfold seemsAdmissible in Hs. rewrite !andb_true_iff in Hs. destruct Hs as (((((Hs & _) & _) & _) & _) & _). rewrite E1, E2 in *.
  intros [|[|k]] p' q' Hp Hq; try discriminate. inversion Hp; inversion Hq; subst p' q'. clear Hp Hq. unfold side_ok in *.
  unfold diam2, dist2 in Hs. cbn [map combine suml fst snd] in Hs.
  set (dp := ((snd p - fst p) * (snd p - fst p) + 0)%Qc) in *. set (dq := ((snd q - fst q) * (snd q - fst q) + 0)%Qc) in *.
  pose proof (qmax_ge_l dp dq) as M1. pose proof (qmax_ge_r dp dq) as M2.
  assert (Z : (dist1 p q = 0 -> fst p = snd p /\ fst q = snd q)%Qc).
  { intros E. rewrite E in Hs. unfold times_root_ge in Hs.
    assert (M : (qmax dp dq <= 0)%Qc).
    { destruct (qle 0 (eta P)).
      - apply qle_true in Hs. replace (eta P * eta P * (0 * 0 + 0))%Qc with 0%Qc in Hs by ring. auto.
      - apply andb_true_iff in Hs as [_ Hs]. apply qle_true in Hs. auto. }
    assert (N1 : (dp <= 0)%Qc) by (eapply Qcle_trans; eauto). assert (N2 : (dq <= 0)%Qc) by (eapply Qcle_trans; eauto).
    unfold dp in N1. unfold dq in N2. clear - N1 N2 A B. split.
    - assert (X : (snd p - fst p = 0)%Qc) by (apply sum_zero_1; qclra). clear - X. qclra.
    - assert (X : (snd q - fst q = 0)%Qc) by (apply sum_zero_1; qclra). clear - X. qclra. }
  unfold dist1, qmax in Z. destruct (qlt (fst q) (fst p)) eqn:E0; [apply qlt_true in E0|apply qlt_false in E0].
  - right. split; auto. destruct (qle (fst p - snd q) 0) eqn:E; [apply qle_true in E|apply qle_false in E; qclra]. destruct (Z eq_refl). qclra.
  - left. split; auto. destruct (qle (fst q - snd p) 0) eqn:E; [apply qle_true in E|apply qle_false in E; qclra]. destruct (Z eq_refl). qclra.
Qed.

(** ** Boxes of clusters and of degrees of freedom *)
Lemma hull_inside D d l b i v : proper_boxes D d -> hull D d l b -> In i l -> inside (boxes D i) v -> inside b v.
Proof.
  intros Hp (Hl & Hh) Hi Hv k p Hk. destruct (Hh k p Hk) as (H & _). destruct (Hp i) as (Li & _).
  assert (Hkd : k < length (boxes D i)) by (rewrite Li, <- Hl; apply nth_error_Some; congruence).
  destruct (nth_error (boxes D i) k) as [q|] eqn:Eq; [|apply nth_error_None in Eq; lia]. destruct (H i q Hi Eq) as (H1 & H2). destruct (Hv k q Eq) as (H3 & H4). split; qclra.
Qed.
Lemma hull_proper D d l b : proper_boxes D d -> hull D d l b -> Forall side_ok b.
Proof.
  intros Hp (Hl & Hh). apply Forall_forall. intros p Hin. apply In_nth_error in Hin as (k & Hk). destruct (Hh k p Hk) as (H & (i & q & Hi & Hq & E) & _).
  destruct (H i q Hi Hq) as (H1 & H2). destruct (Hp i) as (_ & H3). specialize (H3 k q Hq). unfold side_ok. qclra.
Qed.
