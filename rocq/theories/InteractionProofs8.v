(** Barycenters; where the sub-simplices are not what they should be. *)
From Coq Require Import R_sqrt Psatz.
From Verif Require Import LinR ReorderProofs InteractionModel InteractionSpec InteractionProofs InteractionProofs2 InteractionProofs3 InteractionProofs4 InteractionProofs5 InteractionProofs6 InteractionProofs7.
Open Scope R_scope.
Set Default Proof Using "Type".

Lemma simplex_2D_all T1 T2 h2 : triangle T1 -> length T2 = 3%nat -> (forall w, In w T2 -> length w = 2%nat) ->
  (forall i w, (i < 3)%nat -> In w T2 -> far2 2 3 w T1 (corner i) <> h2) -> (exists i, (i < 3)%nat /\ sees T1 T2 h2 i) ->
  exists subs, simplex_2D (ball2 2 h2) T1 T2 = Ok subs /\ subdivision 3 subs (hull 3 (reach_points T1 T2 h2)).
Proof.
  intros (HL & HV & HN) HL2 HV2 HH HS.
  assert (HT : forall v, length v = 2%nat -> exists a b : R, v = [a; b]) by (intros [|a [|b [|]]] Hv; cbn in Hv; try discriminate; eauto).
  destruct T1 as [|p0 [|p1 [|p2 [|]]]]; cbn [length] in HL; try discriminate.
  destruct (HT p0 (HV p0 ltac:(cbn; auto))) as (x0 & y0 & ->). destruct (HT p1 (HV p1 ltac:(cbn; auto))) as (x1 & y1 & ->). destruct (HT p2 (HV p2 ltac:(cbn; auto))) as (x2 & y2 & ->).
  destruct T2 as [|q0 [|q1 [|q2 [|]]]]; cbn [length] in HL2; try discriminate.
  destruct (HT q0 (HV2 q0 ltac:(cbn; auto))) as (u0 & v0 & ->). destruct (HT q1 (HV2 q1 ltac:(cbn; auto))) as (u1 & v1 & ->). destruct (HT q2 (HV2 q2 ltac:(cbn; auto))) as (u2 & v2 & ->).
  inversion HN as [|? ? HN0 HN']; subst. inversion HN' as [|? ? HN1 _]; subst.
  assert (HD : forall i j, (i < 3)%nat -> (j < 3)%nat -> dd x0 y0 x1 y1 x2 y2 u0 v0 u1 v1 u2 v2 i j <> h2).
  { intros i j Hi Hj. rewrite <- far_dd by assumption. apply HH; [exact Hi|]. apply (proj2 (W_T2 u0 v0 u1 v1 u2 v2 j Hj)). }
  apply simplex_2D_ok.
  - exact HD.
  - unfold apart, px, py. intros [-> ->]. apply HN0. cbn; auto.
  - unfold apart, px, py. intros [-> ->]. apply HN1. cbn; auto.
  - unfold apart, px, py. intros [-> ->]. apply HN0. cbn; auto.
  - destruct HS as (i & Hi & HS). apply (sees_dd _ _ _ _ _ _ _ _ _ _ _ _ _ HD i Hi) in HS. destruct i as [|[|[|]]]; [left; exact HS|right; left; exact HS|right; right; exact HS|lia].
Qed.

(** The barycenter *)
Lemma barycenter_ok (T : simplex) n : (forall v, In v T -> (n <= length v)%nat) ->
  exists b, barycenter T n = Ok b /\ length b = n /\ forall k, (k < n)%nat -> nth k b 0 = rsum (length T) (fun i => nth k (nth i T []) 0) / INR (length T).
Proof.
  intros HV. unfold barycenter.
  destruct (for_list_inv (fun done s => length s = n /\ forall k, (k < n)%nat -> nth k s 0 = rsum (length done) (fun i => nth k (nth i done []) 0))
    (fun (v : point) s => for_range 0 n (fun j s => a <- aget s j ;; c <- aget v j ;; aset s j (a + c)) s) T [] (repeat 0 n)) as (s & E & HL & HI).
  - split; [apply repeat_length|]. intros k Hk. cbn [app length rsum]. rewrite nth_repeat. reflexivity.
  - intros done v todo s ET [HL HI]. cbn [app] in *.
    assert (Hv : (n <= length v)%nat) by (apply HV; rewrite ET; apply in_or_app; right; left; reflexivity).
    destruct (for_range_inv (fun j s' => length s' = n /\ forall k, (k < n)%nat -> nth k s' 0 = nth k s 0 + (if (k <? j)%nat then nth k v 0 else 0))
      (fun j s => a <- aget s j ;; c <- aget v j ;; aset s j (a + c)) 0 n s) as (s' & E' & HL' & HI').
    + lia.
    + split; [exact HL|]. intros k Hk. cbn [Nat.ltb Nat.leb]. ring.
    + intros j s1 Hj [HL1 HI1]. rewrite (aget_nth s1 j), (aget_nth v j) by lia. cbn [bind]. unfold aset.
      assert (Elt : (j <? length s1)%nat = true) by (apply Nat.ltb_lt; lia). rewrite Elt. eexists. split; [reflexivity|].
      split; [rewrite upd_length; exact HL1|]. intros k Hk.
      destruct (Nat.eq_dec k j) as [->|Ne].
      * rewrite nth_upd_eq by lia. rewrite (HI1 j Hk), Nat.ltb_irrefl. assert (E2 : (j <? S j)%nat = true) by (apply Nat.ltb_lt; lia). rewrite E2. ring.
      * rewrite nth_upd_neq by auto. rewrite (HI1 k Hk). f_equal. destruct (k <? j)%nat eqn:E1.
        -- apply Nat.ltb_lt in E1. assert (E2 : (k <? S j)%nat = true) by (apply Nat.ltb_lt; lia). rewrite E2. reflexivity.
        -- apply Nat.ltb_ge in E1. assert (E2 : (k <? S j)%nat = false) by (apply Nat.ltb_ge; lia). rewrite E2. reflexivity.
    + exists s'. split; [exact E'|]. split; [exact HL'|]. intros k Hk. rewrite (HI' k Hk), (HI k Hk).
      assert (E2 : (k <? n)%nat = true) by (apply Nat.ltb_lt; lia). rewrite E2. rewrite app_length. cbn [length]. rewrite Nat.add_1_r. cbn [rsum].
      rewrite (rsum_ext (length done) (fun i => nth k (nth i (done ++ [v]) []) 0) (fun i => nth k (nth i done []) 0)) by (intros i Hi; rewrite app_nth1 by exact Hi; reflexivity).
      rewrite app_nth2, Nat.sub_diag by lia. reflexivity.
  - cbn [app] in *. match goal with |- exists b, bind ?e ?f = _ /\ _ => let EE := fresh in assert (EE : e = Ok s) by exact E; rewrite EE end. cbn [bind]. eexists. split; [reflexivity|]. split; [rewrite map_length; exact HL|].
    intros k Hk. rewrite (nth_indep _ 0 (0 / INR (length T))) by (rewrite map_length; lia). rewrite (map_nth (fun a => a / INR (length T))). rewrite (HI k Hk). reflexivity.
Qed.
Lemma barycenter_node_ok dim h2 x (T : simplex) : T <> [] -> length x = dim -> (forall v, In v T -> (dim <= length v)%nat) ->
  barycenter_node (ball2_isInside h2) dim x T =
    Ok (if Rle_dec (far2 dim (length T) x T (fun _ => / INR (length T))) h2 then [(identity, 1)] else []).
Proof.
  intros HT Hx HV. unfold barycenter_node. destruct (barycenter_ok T dim HV) as (b & E & HL & HI). rewrite E. cbn [bind].
  unfold ball2_isInside. rewrite Hx, (dist2_ok dim x b) by lia. cbn [bind].
  assert (ED : sep2 dim x b = far2 dim (length T) x T (fun _ => / INR (length T))).
  { unfold sep2, far2. apply rsum_ext. intros k Hk. rewrite (HI k Hk). unfold at_bary. pose proof (rsum_scal (length T) (/ INR (length T)) (fun i => nth k (nth i T []) 0)) as ES. cbn beta in *.
    match goal with |- _ = (?a - _) ^ 2 => replace a with (/ INR (length T) * rsum (length T) (fun i => nth k (nth i T []) 0)) by (symmetry; exact ES) end. unfold Rdiv. ring. }
  rewrite ED. unfold rle. destruct (Rle_dec _ h2); reflexivity.
Qed.

(** ** Refutations *)
Lemma sqrt_1_16 : sqrt (1 / 16) = 1 / 4.
Proof. replace (1 / 16) with ((1 / 4) * (1 / 4)) by field. apply sqrt_square. lra. Qed.
Lemma rle_yes a b : a <= b -> rle a b = true. Proof. apply rle_true. Qed.
(** An end point at distance exactly h: the sub-interval is empty. *)
Lemma node_1D_on_sphere : exists A, node_1D (ball2 1 (1 / 16)) [1 / 4] [[0]; [1]] = Ok [(A, 0)] /\
  (forall l, bary 2 l -> covers 2 A (fun _ => 0) l -> l 1%nat = 0) /\
  (forall l, bary 2 l -> l 1%nat <= 1 / 2 -> far2 1 2 [1 / 4] [[0]; [1]] l <= 1 / 16).
Proof.
  eexists. split; [|split].
  - unfold node_1D. rewrite inside2. rewrite (rle_true ((0 - 1 / 4) * (0 - 1 / 4))) by lra. rewrite (rle_false ((1 - 1 / 4) * (1 - 1 / 4))) by lra.
    cbn [bind count_true filter length first_true Nat.modulo Nat.divmod Nat.add fst snd Nat.sub]. cbn [findIntersections ball2]. rewrite (find1 (1 / 16) (1 / 4) [[0]; [1]] 0 1 (alloc 2) 0 1 eq_refl eq_refl).
    unfold quad. replace (- ((1 - 0) * (0 - 1 / 4) * (2 * (1 / ((1 - 0) * (1 - 0))))) * (1 / 2)) with (1 / 4) by field.
    replace (1 / 4 * (1 / 4) - ((0 - 1 / 4) * (0 - 1 / 4) - 1 / 16) * (1 / ((1 - 0) * (1 - 0)))) with (1 / 16) by field.
    rewrite rlt_false by lra. rewrite sqrt_1_16. replace (1 / 4 - 1 / 4) with 0 by ring.
    unfold record. rewrite (rle_true 0 0), (rle_true 0 1) by lra. cbn [andb wr aset alloc repeat length Nat.ltb Nat.leb upd bind]. rewrite (rle_true 0 (1 / 4 + 1 / 4)), (rle_true (1 / 4 + 1 / 4) 1) by lra.
    cbn [andb wr aset length Nat.ltb Nat.leb upd bind rd aget nth_error].
    reflexivity.
  - intros l Hb HC. apply covers2 in HC. destruct HC as (u & v & Hu & Hv & Hs & _ & E). mats. lra.
  - intros l Hb Hl. apply bary2 in Hb. unfold far2, at_bary. cbn [rsum nth]. replace (l 0%nat) with (1 - l 1%nat) by lra. nra.
Qed.
(** No corner in the ball: nothing is returned, even if the centre is in the triangle. *)
Lemma node_2D_no_corner : node_2D (ball2 2 (1 / 4)) [0; 0] [[-1; -1]; [1; -1]; [0; 1]] = Ok [] /\
  exists l, bary 3 l /\ (forall i, (i < 3)%nat -> 0 < l i) /\ far2 2 3 [0; 0] [[-1; -1]; [1; -1]; [0; 1]] l = 0.
Proof.
  split.
  - destruct (node_2D_ok 0 0 (-1) (-1) 1 (-1) 0 1 (1 / 4)) as (subs & E & _ & HZ); try (unfold apart, px, py; lra); try (unfold g, px, py; lra).
    rewrite E. rewrite HZ; [reflexivity| | |]; unfold g, px, py; lra.
  - exists (fun i => if (i =? 2)%nat then 1 / 2 else 1 / 4). split; [split|split].
    + intros i Hi. destruct (i =? 2)%nat; lra.
    + cbn [rsum Nat.eqb]. lra.
    + intros i Hi. destruct (i =? 2)%nat; lra.
    + unfold far2, at_bary. cbn [rsum nth Nat.eqb]. field.
Qed.
(** REMOTE although points are near. *)
Lemma remote_2D : ball2_getRelativePosition 2 1 [[0; 0]; [-1; 1]; [-1; -1]] [[1 / 2; -10]; [1 / 2; 10]; [2; 0]] = Ok REMOTE /\
  exists l m, bary 3 l /\ bary 3 m /\ sep2 2 (the_point 2 3 [[0; 0]; [-1; 1]; [-1; -1]] l) (the_point 2 3 [[1 / 2; -10]; [1 / 2; 10]; [2; 0]] m) = 1 / 4.
Proof.
  split.
  - destruct (relative_ok 2 1 [[0; 0]; [-1; 1]; [-1; -1]] [[1 / 2; -10]; [1 / 2; 10]; [2; 0]]) as (r & E & HR & _).
    + intros v [Hv|Hv]; cbn [In] in Hv; repeat destruct Hv as [<-|Hv]; try contradiction; cbn; lia.
    + discriminate.
    + discriminate.
    + lra.
    + rewrite E. f_equal. apply HR. intros v w Hv Hw. cbn [In] in Hv, Hw. unfold sep2.
      destruct Hv as [<-|[<-|[<-|[]]]]; destruct Hw as [<-|[<-|[<-|[]]]]; cbn [rsum nth]; lra.
  - exists (corner 0), (fun i => if (i =? 2)%nat then 0 else 1 / 2). split; [|split].
    + split; [intros [|[|[|]]] Hi; unfold corner; cbn [Nat.eqb]; lra|unfold corner; cbn [rsum Nat.eqb]; lra].
    + split; [intros i Hi; destruct (i =? 2)%nat; lra|cbn [rsum Nat.eqb]; lra].
    + unfold sep2, the_point, at_bary, corner. cbn [rsum seq map nth Nat.eqb]. field.
Qed.
(** The ball of the maximum norm: in 1D a coordinate that does not exist is read, in 2D
    an edge through two corners of the square has four intersections. *)
Lemma rlt_yes a b : a < b -> rlt a b = true. Proof. apply rlt_true. Qed.
Lemma ballInf_1D tol : 0 <= tol < 1 -> node_1D (ballInf 1 1 tol) [0] [[0]; [2]] = Err EOob.
Proof.
  intros Ht. unfold node_1D, inside_at, for_range. cbn [Nat.sub for_n aget nth_error bind isInside ballInf].
  unfold ballInf_isInside, for_range. cbn [length Nat.sub for_n aget nth_error bind app].
  rewrite (rle_true (Rmax 0 ((0 - 0) * (0 - 0)))) by (apply Rmax_lub; lra). rewrite (rle_false (Rmax 0 ((0 - 2) * (0 - 2)))) by (apply Rlt_le_trans with ((0 - 2) * (0 - 2)); [lra|apply Rmax_r]).
  cbn [count_true filter length first_true Nat.modulo Nat.divmod Nat.add fst snd Nat.sub findIntersections ballInf].
  unfold ballInf_findIntersections, for_range. cbn [Nat.sub for_n coord aget nth_error bind].
  rewrite rlt_true by (replace (0 - 2) with (- (2)) by ring; rewrite Rabs_Ropp, Rabs_pos_eq by lra; lra).
  rewrite sqrt_1. unfold ballInf_try. replace ((1 - (2 - 0)) / (0 - 2)) with (1 / 2) by field.
  rewrite !rle_true by lra. cbn [andb]. unfold for_range. cbn [Nat.sub for_n coord aget nth_error bind]. reflexivity.
Qed.
Lemma ballInf_2D tol : 0 <= tol < 1 -> node_2D (ballInf 2 1 tol) [0; 0] [[-2; -2]; [2; 2]; [-2; 2]] = Err EOob.
Proof.
  intros Ht. unfold node_2D, inside_at, for_range. cbn [Nat.sub for_n aget nth_error bind isInside ballInf].
  unfold ballInf_isInside, for_range. cbn [length Nat.sub for_n aget nth_error bind app].
  assert (M : forall a b, 1 < b -> rle (Rmax a b) 1 = false) by (intros a b Hb; apply rle_false; apply Rlt_le_trans with b; [exact Hb|apply Rmax_r]).
  rewrite !M by lra. cbn [count_true filter length Nat.ltb Nat.leb specialOffsets ballInf special]. rewrite sqrt_1.
  cbn [aget nth_error bind]. unfold bary2D. cbn [coord aget nth_error bind].
  replace (((0 + 1 - 2) * (2 - 2) - (0 + 1 - 2) * (-2 - 2)) / ((-2 - 2) * (2 - 2) - (-2 - 2) * (-2 - 2))) with (1 / 4) by field.
  replace (((0 + 1 - -2) * (-2 - 2) - (0 + 1 - 2) * (-2 - -2)) / ((-2 - 2) * (2 - 2) - (-2 - 2) * (-2 - 2))) with (3 / 4) by field.
  cbn [forallb]. rewrite !rle_true by lra. cbn [andb bind special_edges findIntersections ballInf].
  unfold ballInf_findIntersections, for_range. cbn [Nat.sub for_n coord aget nth_error bind Nat.modulo Nat.divmod Nat.add fst snd].
  assert (D4 : rlt tol (Rabs (-2 - 2)) = true) by (apply rlt_true; replace (-2 - 2) with (- (4)) by ring; rewrite Rabs_Ropp, Rabs_pos_eq by lra; lra).
  rewrite D4. rewrite sqrt_1.
  replace ((1 - (2 - 0)) / (-2 - 2)) with (1 / 4) by field. replace ((- (1) - (2 - 0)) / (-2 - 2)) with (3 / 4) by field.
  assert (TRY : forall lam n b, (lam = 1 / 4 \/ lam = 3 / 4) -> ballInf_try 1 tol [0; 0] [[-2; -2]; [2; 2]; [-2; 2]] 0 1 lam (n, b) = (b' <- wr b n (1 - lam) ;; Ok (S n, b'))).
  { intros lam n b Hl. unfold ballInf_try. rewrite !rle_true by lra. cbn [andb]. unfold for_range. cbn [Nat.sub for_n coord aget nth_error bind].
    rewrite !rle_true by (destruct Hl as [-> | ->]; lra). reflexivity. }
  rewrite (TRY (1 / 4) 0%nat) by auto. cbn [wr aset alloc repeat length Nat.ltb Nat.leb upd bind].
  rewrite (TRY (3 / 4) 1%nat) by auto. cbn [wr aset length Nat.ltb Nat.leb upd bind].
  rewrite (TRY (1 / 4) 2%nat) by auto. cbn [wr aset length Nat.ltb Nat.leb upd bind]. reflexivity.
Qed.

Lemma interact_corners dim h2 (T1 T2 : simplex) : (forall v, In v T1 \/ In v T2 -> (dim <= length v)%nat) -> T1 <> [] -> T2 <> [] -> 0 <= h2 ->
  ball2_getRelativePosition dim h2 T1 T2 = Ok INTERACT -> forall v w, In v T1 -> In w T2 -> sep2 dim v w <= h2.
Proof.
  intros HV N1 N2 Hh HI. destruct (relative_ok dim h2 T1 T2 HV N1 N2 Hh) as (r & E & _ & HR & _). rewrite HI in E. injection E as <-. apply (proj1 HR eq_refl).
Qed.
Lemma remote_corners h2 a1 b1 a2 b2 : 0 <= h2 -> ball2_getRelativePosition 1 h2 [[a1]; [b1]] [[a2]; [b2]] = Ok REMOTE ->
  forall v w, In v [[a1]; [b1]] -> In w [[a2]; [b2]] -> h2 <= sep2 1 v w.
Proof.
  intros Hh HI. destruct (relative_ok 1 h2 [[a1]; [b1]] [[a2]; [b2]]) as (r & E & HR & _); [intros v [[<-|[<-|[]]]|[<-|[<-|[]]]]; cbn; lia|discriminate|discriminate|exact Hh|].
  rewrite HI in E. injection E as <-. apply (proj1 HR eq_refl).
Qed.
