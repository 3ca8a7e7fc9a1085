(** Relative position of simplices, and the outer loop for intervals. *)
From Coq Require Import R_sqrt Psatz.
From Verif Require Import LinR ReorderProofs InteractionModel InteractionSpec InteractionProofs InteractionProofs2 InteractionProofs3 InteractionProofs4 InteractionProofs5.
Open Scope R_scope.
Set Default Proof Using "Type".

Lemma sep2_pos dim v w : 0 <= sep2 dim v w.
Proof. unfold sep2. apply rsum_nonneg. intros. apply pow2_ge_0. Qed.
Lemma aget_nth (v : list R) k : (k < length v)%nat -> aget v k = Ok (nth k v 0).
Proof. intros H. unfold aget. rewrite (nth_error_nth' v 0 H). reflexivity. Qed.
Lemma dist2_ok dim v w : (dim <= length v)%nat -> (dim <= length w)%nat -> dist2 dim v w = Ok (sep2 dim v w).
Proof.
  intros Hv Hw. unfold dist2.
  destruct (for_range_inv (fun j d => d = rsum j (fun k => (nth k v 0 - nth k w 0) ^ 2)) (fun j d => a <- aget v j ;; b <- aget w j ;; Ok (d + (a - b) * (a - b))) 0 dim 0) as (s & E & HI).
  - lia.
  - reflexivity.
  - intros j d Hj ->. rewrite (aget_nth v j), (aget_nth w j) by lia. cbn [bind]. eexists. split; [reflexivity|]. cbn [rsum]. ring.
  - rewrite E, HI. reflexivity.
Qed.

Definition minmax (L : list R) (s : option R * R) : Prop :=
  ((fst s = None /\ L = []) \/ (exists m, fst s = Some m /\ In m L /\ forall d, In d L -> m <= d)) /\
  (forall d, In d L -> d <= snd s) /\ (snd s = 0 \/ In (snd s) L).
Lemma minmax_step L s d : minmax L s -> minmax (L ++ [d]) (omin (fst s) d, Rmax (snd s) d).
Proof.
  intros (H1 & H2 & H3). unfold minmax. cbn [fst snd]. split; [|split].
  - right. destruct H1 as [[-> ->]|(m & -> & Hm & HL)]; cbn [omin].
    + exists d. split; [reflexivity|]. split; [left; reflexivity|]. intros ? [<-|[]]. lra.
    + exists (Rmin m d). split; [reflexivity|]. split.
      * apply in_or_app. unfold Rmin. destruct (Rle_dec m d); [left; auto|right; left; auto].
      * intros e He. apply in_app_or in He. destruct He as [He|[<-|[]]]; [|apply Rmin_r]. apply Rle_trans with m; [apply Rmin_l|auto].
  - intros e He. apply in_app_or in He. destruct He as [He|[<-|[]]]; [|apply Rmax_r]. apply Rle_trans with (snd s); [auto|apply Rmax_l].
  - unfold Rmax. destruct (Rle_dec (snd s) d).
    + right. apply in_or_app. right. left. reflexivity.
    + destruct H3 as [H3|H3]; [left; exact H3|right; apply in_or_app; left; exact H3].
Qed.
Lemma relative_loop dim (T1 T2 : simplex) : (forall v, In v T1 \/ In v T2 -> (dim <= length v)%nat) ->
  exists s, for_list T1 (fun (v : point) s => for_list T2 (fun (w : point) '(dmin, dmax) => d <- dist2 dim v w ;; Ok (omin dmin d, Rmax dmax d)) s) (None, 0) = Ok s /\
    minmax (flat_map (fun v => map (sep2 dim v) T2) T1) s.
Proof.
  intros HD. destruct (for_list_inv (fun done s => minmax (flat_map (fun v => map (sep2 dim v) T2) done) s)
    (fun (v : point) s => for_list T2 (fun (w : point) '(dmin, dmax) => d <- dist2 dim v w ;; Ok (omin dmin d, Rmax dmax d)) s) T1 [] (None, 0)) as (s & E & HI).
  - cbn [flat_map]. unfold minmax. cbn [fst snd]. split; [left; auto|]. split; [intros ? []|left; reflexivity].
  - intros done v todo s ET HI. subst.
    assert (Hv : (dim <= length v)%nat) by (apply HD; left; cbn [app] in *; rewrite ?ET; apply in_or_app; right; left; reflexivity).
    destruct (for_list_inv (fun dn s => minmax (flat_map (fun v => map (sep2 dim v) T2) done ++ map (sep2 dim v) dn) s)
      (fun (w : point) '(dmin, dmax) => d <- dist2 dim v w ;; Ok (omin dmin d, Rmax dmax d)) T2 [] s) as (s' & E' & HI').
    + rewrite app_nil_r. exact HI.
    + intros dn w td [mn mx] ET2 HI2.
      assert (Hw : (dim <= length w)%nat) by (apply HD; right; cbn [app] in *; rewrite ?ET2; apply in_or_app; right; left; reflexivity).
      rewrite (dist2_ok dim v w Hv Hw). cbn [bind]. eexists. split; [reflexivity|]. cbn [app] in *. rewrite map_app, app_assoc. cbn [map]. apply (minmax_step _ (mn, mx)). exact HI2.
    + cbn [app] in HI'. exists s'. split; [exact E'|]. cbn [app]. rewrite flat_map_app. cbn [flat_map]. rewrite app_nil_r. exact HI'.
  - exists s. split; [exact E|]. cbn [app] in HI. exact HI.
Qed.
Lemma relative_ok dim h2 (T1 T2 : simplex) : (forall v, In v T1 \/ In v T2 -> (dim <= length v)%nat) -> T1 <> [] -> T2 <> [] -> 0 <= h2 ->
  exists r, ball2_getRelativePosition dim h2 T1 T2 = Ok r /\
    (r = REMOTE <-> forall v w, In v T1 -> In w T2 -> h2 <= sep2 dim v w) /\
    (r = INTERACT <-> (exists v w, In v T1 /\ In w T2 /\ sep2 dim v w < h2) /\ forall v w, In v T1 -> In w T2 -> sep2 dim v w <= h2) /\
    (r = CUT <-> (exists v w, In v T1 /\ In w T2 /\ sep2 dim v w < h2) /\ exists v w, In v T1 /\ In w T2 /\ h2 < sep2 dim v w).
Proof.
  intros HD N1 N2 Hh. unfold ball2_getRelativePosition. destruct (relative_loop dim T1 T2 HD) as ([mn mx] & E & H1 & H2 & H3).
  rewrite E. cbn [bind fst snd] in *. eexists. split; [reflexivity|].
  assert (HIn : forall d, In d (flat_map (fun v => map (sep2 dim v) T2) T1) <-> exists v w, In v T1 /\ In w T2 /\ d = sep2 dim v w).
  { intros d. rewrite in_flat_map. split.
    - intros (v & Hv & Hd). apply in_map_iff in Hd. destruct Hd as (w & <- & Hw). eauto.
    - intros (v & w & Hv & Hw & ->). exists v. split; [exact Hv|]. apply in_map. exact Hw. }
  destruct H1 as [[-> HL]|(m & -> & Hm & HL)].
  { destruct T1 as [|v T1]; [congruence|]. destruct T2 as [|w T2]; [congruence|]. discriminate HL. }
  apply HIn in Hm. destruct Hm as (v0 & w0 & Hv0 & Hw0 & Em).
  assert (HLow : forall v w, In v T1 -> In w T2 -> m <= sep2 dim v w) by (intros; apply HL, HIn; eauto).
  assert (HUp : forall v w, In v T1 -> In w T2 -> sep2 dim v w <= mx) by (intros; apply H2, HIn; eauto).
  destruct (Rle_dec h2 m) as [R1|R1]; [rewrite (rle_true h2 m R1)|rewrite (rle_false h2 m) by lra].
  - split; [|split].
    + split; [intros _ v w Hv Hw; specialize (HLow v w Hv Hw); lra|reflexivity].
    + split; [discriminate|]. intros [(v & w & Hv & Hw & Hl) _]. specialize (HLow v w Hv Hw). lra.
    + split; [discriminate|]. intros [(v & w & Hv & Hw & Hl) _]. specialize (HLow v w Hv Hw). lra.
  - assert (X : exists v w, In v T1 /\ In w T2 /\ sep2 dim v w < h2) by (exists v0, w0; rewrite <- Em; repeat split; auto; lra).
    destruct (Rle_dec mx h2) as [R2|R2]; [rewrite (rle_true mx h2 R2)|rewrite (rle_false mx h2) by lra].
    + split; [|split].
      * split; [discriminate|]. intros H. specialize (H v0 w0 Hv0 Hw0). lra.
      * split; [|reflexivity]. intros _. split; [exact X|]. intros v w Hv Hw. specialize (HUp v w Hv Hw). lra.
      * split; [discriminate|]. intros [_ (v & w & Hv & Hw & Hl)]. specialize (HUp v w Hv Hw). lra.
    + assert (Y : exists v w, In v T1 /\ In w T2 /\ h2 < sep2 dim v w).
      { destruct H3 as [H3|H3]; [lra|]. apply HIn in H3. destruct H3 as (v & w & Hv & Hw & E3). exists v, w. rewrite <- E3. repeat split; auto; lra. }
      split; [|split].
      * split; [discriminate|]. intros H. specialize (H v0 w0 Hv0 Hw0). lra.
      * split; [discriminate|]. intros [_ H]. destruct Y as (v & w & Hv & Hw & Hl). specialize (H v w Hv Hw). lra.
      * split; [auto|reflexivity].
Qed.

(** INTERACT: every point of the one is within the horizon of every point of the other. *)
Lemma nth_point dim n T l k : (k < dim)%nat -> nth k (the_point dim n T l) 0 = at_bary n T l k.
Proof.
  intros H. unfold the_point. rewrite (nth_indep _ 0 (at_bary n T l 0)) by (rewrite map_length, seq_length; exact H).
  rewrite map_nth, seq_nth by exact H. reflexivity.
Qed.
Lemma far_sep dim n x T l : far2 dim n x T l = sep2 dim (the_point dim n T l) x.
Proof. unfold far2, sep2. apply rsum_ext. intros k Hk. rewrite nth_point by exact Hk. reflexivity. Qed.
Lemma sep2_sym dim v w : sep2 dim v w = sep2 dim w v.
Proof. unfold sep2. apply rsum_ext. intros. ring. Qed.
Lemma far_all dim x T h2 l : bary (length T) l -> (forall v, In v T -> sep2 dim v x <= h2) -> far2 dim (length T) x T l <= h2.
Proof.
  intros Hb H. apply (far_hull dim (length T) x T _ h2 l (bary_hull (length T) l Hb)).
  intros p (i & Hi & Hp). rewrite (far_at_corner dim (length T) x T i p Hi Hp). apply H. apply nth_In. exact Hi.
Qed.
Lemma interact_all dim h2 T1 T2 l m : (forall v w, In v T1 -> In w T2 -> sep2 dim v w <= h2) -> bary (length T1) l -> bary (length T2) m ->
  sep2 dim (the_point dim (length T1) T1 l) (the_point dim (length T2) T2 m) <= h2.
Proof.
  intros H Hl Hm. rewrite sep2_sym. rewrite <- far_sep. apply far_all; [exact Hm|]. intros w Hw. rewrite sep2_sym, <- far_sep.
  apply far_all; [exact Hl|]. intros v Hv. apply H; auto.
Qed.

(** REMOTE: for disjoint intervals, no point is nearer than the horizon. *)
Lemma remote_1D h2 a1 b1 a2 b2 l m : a1 <= b1 -> a2 <= b2 -> b1 <= a2 \/ b2 <= a1 ->
  (forall v w, In v [[a1]; [b1]] -> In w [[a2]; [b2]] -> h2 <= sep2 1 v w) -> bary 2 l -> bary 2 m ->
  h2 <= sep2 1 (the_point 1 2 [[a1]; [b1]] l) (the_point 1 2 [[a2]; [b2]] m).
Proof.
  intros H1 H2 HD H Hl Hm. apply bary2 in Hl, Hm. destruct Hl as (L0 & L1 & LS), Hm as (M0 & M1 & MS).
  unfold sep2, the_point, at_bary. cbn [seq map rsum nth].
  set (p := 0 + l 0%nat * a1 + l 1%nat * b1). set (q := 0 + m 0%nat * a2 + m 1%nat * b2).
  assert (P : a1 <= p <= b1).
  { unfold p. assert (0 <= l 1%nat * (b1 - a1)) by (apply Rmult_le_pos; lra). assert (0 <= l 0%nat * (b1 - a1)) by (apply Rmult_le_pos; lra).
    replace (l 0%nat) with (1 - l 1%nat) at 1 by lra. replace (l 1%nat) with (1 - l 0%nat) at 3 by lra. split; lra. }
  assert (Q : a2 <= q <= b2).
  { unfold q. assert (0 <= m 1%nat * (b2 - a2)) by (apply Rmult_le_pos; lra). assert (0 <= m 0%nat * (b2 - a2)) by (apply Rmult_le_pos; lra).
    replace (m 0%nat) with (1 - m 1%nat) at 1 by lra. replace (m 1%nat) with (1 - m 0%nat) at 3 by lra. split; lra. }
  destruct HD as [HD|HD].
  - specialize (H [b1] [a2] ltac:(cbn; auto) ltac:(cbn; auto)). unfold sep2 in H. cbn [rsum nth] in H. nra.
  - specialize (H [a1] [b2] ltac:(cbn; auto) ltac:(cbn; auto)). unfold sep2 in H. cbn [rsum nth] in H. nra.
Qed.

(** The outer loop for intervals *)
Definition piece (v0 v1 l r : R) : mat * (nat -> R) * R :=
  (mset 1 1 (r - l) (mset 0 0 (r - l) mzero), (fun p => if (p =? 0)%nat then v1 - r else l - v0), r - l).
Lemma two_pieces v0 v1 p q r (S : (nat -> R) -> Prop) : v1 = v0 + 1 -> v0 <= p -> p <= q -> q <= r -> r <= v1 -> p < r ->
  (forall l, bary 2 l -> (S l <-> p - v0 <= l 1%nat <= r - v0)) ->
  subdivision 2 ((if rle (q - p) 0 then [] else [piece v0 v1 p q]) ++ (if rle (r - q) 0 then [] else [piece v0 v1 q r])) S.
Proof.
  intros -> H0 H1 H2 H3 H4 HS.
  assert (PS : forall s t, v0 <= s -> s <= t -> t <= v0 + 1 -> sub_simplex 2 (fst (fst (piece v0 (v0 + 1) s t))) (snd (fst (piece v0 (v0 + 1) s t))) (t - s)).
  { intros s t A1 A2 A3. replace (t - s) with ((t - v0) - (s - v0)) by ring. apply interval_sub; cbn [fst snd piece]; unfold mset, mzero; cbn [Nat.eqb andb]; lra. }
  assert (PC : forall s t l, s <= t -> bary 2 l -> (covers 2 (fst (fst (piece v0 (v0 + 1) s t))) (snd (fst (piece v0 (v0 + 1) s t))) l <-> s - v0 <= l 1%nat <= t - v0)).
  { intros s t l A1 Hb. apply interval_covers; [lra| | | | |exact Hb]; cbn [fst snd piece]; unfold mset, mzero; cbn [Nat.eqb andb]; lra. }
  assert (PD : forall s t l, s < t -> strictly_covers 2 (fst (fst (piece v0 (v0 + 1) s t))) (snd (fst (piece v0 (v0 + 1) s t))) l -> s - v0 < l 1%nat < t - v0).
  { intros s t l A1 Hb. apply (interval_strict (fst (fst (piece v0 (v0 + 1) s t))) (snd (fst (piece v0 (v0 + 1) s t)))); [lra| | |exact Hb|lra]; cbn [fst snd piece]; unfold mset, mzero; cbn [Nat.eqb andb]; lra. }
  destruct (Rle_dec (q - p) 0) as [A|A]; [rewrite (rle_true _ _ A)|rewrite (rle_false (q - p) 0) by lra];
  (destruct (Rle_dec (r - q) 0) as [B|B]; [rewrite (rle_true _ _ B)|rewrite (rle_false (r - q) 0) by lra]); cbn [app]; [lra| | |].
  - split; [|split].
    + intros A' b vol [E|[]]. unfold piece in E. injection E as <- <- <-. apply (PS q r); lra.
    + intros l Hb. rewrite (HS l Hb). split.
      * intros (A' & b & vol & [E|[]] & HC). unfold piece in E. injection E as <- <- <-. apply (PC q r l ltac:(lra) Hb) in HC. lra.
      * intros HC. do 3 eexists. split; [left; reflexivity|]. apply (PC q r l ltac:(lra) Hb). lra.
    + intros [|i] [|[|j]] s s' Hij E E'; try lia; discriminate.
  - split; [|split].
    + intros A' b vol [E|[]]. unfold piece in E. injection E as <- <- <-. apply (PS p q); lra.
    + intros l Hb. rewrite (HS l Hb). split.
      * intros (A' & b & vol & [E|[]] & HC). unfold piece in E. injection E as <- <- <-. apply (PC p q l ltac:(lra) Hb) in HC. lra.
      * intros HC. do 3 eexists. split; [left; reflexivity|]. apply (PC p q l ltac:(lra) Hb). lra.
    + intros [|i] [|[|j]] s s' Hij E E'; try lia; discriminate.
  - split; [|split].
    + intros A' b vol [E|[E|[]]]; unfold piece in E; injection E as <- <- <-; [apply (PS p q); lra|apply (PS q r); lra].
    + intros l Hb. rewrite (HS l Hb). split.
      * intros (A' & b & vol & [E|[E|[]]] & HC); unfold piece in E; injection E as <- <- <-; [apply (PC p q l ltac:(lra) Hb) in HC|apply (PC q r l ltac:(lra) Hb) in HC]; lra.
      * intros HC. destruct (Rle_dec (l 1%nat) (q - v0)) as [C|C].
        -- do 3 eexists. split; [left; reflexivity|]. apply (PC p q l ltac:(lra) Hb). lra.
        -- do 3 eexists. split; [right; left; reflexivity|]. apply (PC q r l ltac:(lra) Hb). lra.
    + intros [|i] [|[|j]] s s' Hij E E' l [C1 C2]; try lia; cbn [nth_error] in E, E'; try (destruct j; discriminate E'); try discriminate E'.
      * injection E as <-. injection E' as <-. apply (PD p q l ltac:(lra)) in C1. apply (PD q r l ltac:(lra)) in C2. lra.
Qed.

Lemma sq_le h u : 0 <= h -> (u ^ 2 <= h * h <-> - h <= u <= h).
Proof. intros Hh. split; [intros H; split; nra|intros [H1 H2]; nra]. Qed.
Lemma inv_mul a b d : 0 < d -> a <= b -> a * (1 / d) <= b * (1 / d).
Proof. intros Hd H. apply Rmult_le_compat_r; [|exact H]. unfold Rdiv. rewrite Rmult_1_l. left. apply Rinv_0_lt_compat. exact Hd. Qed.
Lemma inv_mul_lt a b d : 0 < d -> a < b -> a * (1 / d) < b * (1 / d).
Proof. intros Hd H. apply Rmult_lt_compat_r; [|exact H]. unfold Rdiv. rewrite Rmult_1_l. apply Rinv_0_lt_compat. exact Hd. Qed.
Lemma inv_mul_iff a t d : 0 < d -> (a * (1 / d) <= t <-> a <= d * t) /\ (t <= a * (1 / d) <-> d * t <= a).
Proof.
  intros Hd. assert (E : d * (a * (1 / d)) = a) by (field; lra). split; split; intros H.
  - rewrite <- E. apply Rmult_le_compat_l; lra.
  - apply Rmult_le_reg_l with d; [exact Hd|lra].
  - rewrite <- E. apply Rmult_le_compat_l; lra.
  - apply Rmult_le_reg_l with d; [exact Hd|lra].
Qed.

Lemma simplex_1D_ok h2 a1 b1 a2 b2 : a1 < b1 -> a2 < b2 -> 0 < h2 -> (b1 <= a2 \/ b2 <= a1 \/ (a1 = a2 /\ b1 = b2)) ->
  ball2_getRelativePosition 1 h2 [[a1]; [b1]] [[a2]; [b2]] = Ok CUT ->
  exists subs, simplex_1D h2 [[a1]; [b1]] [[a2]; [b2]] = Ok subs /\
    subdivision 2 subs (fun l => exists m, bary 2 m /\ sep2 1 (the_point 1 2 [[a1]; [b1]] l) (the_point 1 2 [[a2]; [b2]] m) <= h2).
Proof.
  intros H1 H2 Hh HD HR.
  destruct (relative_ok 1 h2 [[a1]; [b1]] [[a2]; [b2]]) as (r & Er & _ & _ & HC).
  { intros v [[<-|[<-|[]]]|[<-|[<-|[]]]]; cbn; lia. } { discriminate. } { discriminate. } { lra. }
  rewrite HR in Er. injection Er as <-. destruct HC as [HC _]. destruct (HC eq_refl) as [(v & w & Hv & Hw & Hlt) (v' & w' & Hv' & Hw' & Hgt)]. clear HC HR.
  set (h := sqrt h2). assert (Hs : h * h = h2) by (apply sqrt_sqrt; lra). assert (Hp : 0 < h) by (apply sqrt_lt_R0; lra).
  assert (X1 : (b1 <= a2 -> a2 - b1 < h) /\ (a2 <= a1 -> a1 - b2 < h)).
  { unfold sep2 in Hlt. destruct Hv as [<-|[<-|[]]]; destruct Hw as [<-|[<-|[]]]; cbn [rsum nth] in Hlt; split; intros; nra. }
  assert (X2 : (b1 <= a2 -> h < b2 - a1) /\ (b2 <= a1 \/ (a1 = a2 /\ b1 = b2) -> h < b1 - a2)).
  { unfold sep2 in Hgt. destruct Hv' as [<-|[<-|[]]]; destruct Hw' as [<-|[<-|[]]]; cbn [rsum nth] in Hgt; (split; [intros Y|intros [Y|[Y1 Y2]]; [|rewrite <- ?Y1, <- ?Y2 in *]]); nra. }
  clear Hlt Hgt Hv Hw Hv' Hw' v w v' w'.
  set (d := b1 - a1). assert (Hd : 0 < d) by (unfold d; lra).
  assert (Ed : Rabs (a1 - b1) = d) by (rewrite Rabs_minus_sym; apply Rabs_pos_eq; lra).
  assert (Ev : b1 * (1 / d) = a1 * (1 / d) + 1) by (unfold d; field; lra).
  assert (SP : forall l, bary 2 l -> at_bary 2 [[a1]; [b1]] l 0 = a1 + d * l 1%nat).
  { intros l Hb. apply bary2 in Hb. unfold at_bary, d. cbn [rsum nth]. replace (l 0%nat) with (1 - l 1%nat) by lra. ring. }
  assert (SQ : forall m, bary 2 m -> a2 <= at_bary 2 [[a2]; [b2]] m 0 <= b2).
  { intros m Hb. apply bary2 in Hb. unfold at_bary. cbn [rsum nth]. destruct Hb as (M0 & M1 & MS).
    assert (0 <= m 1%nat * (b2 - a2)) by (apply Rmult_le_pos; lra). assert (0 <= m 0%nat * (b2 - a2)) by (apply Rmult_le_pos; lra).
    replace (m 0%nat) with (1 - m 1%nat) at 1 by lra. replace (m 1%nat) with (1 - m 0%nat) at 3 by lra. split; lra. }
  assert (SS : forall l m, sep2 1 (the_point 1 2 [[a1]; [b1]] l) (the_point 1 2 [[a2]; [b2]] m) <= h2 <-> - h <= at_bary 2 [[a1]; [b1]] l 0 - at_bary 2 [[a2]; [b2]] m 0 <= h).
  { intros l m. rewrite <- sq_le by lra. rewrite Hs. unfold sep2. cbn [rsum the_point seq map nth]. split; intros; lra. }
  assert (C0 : bary 2 (corner 0) /\ at_bary 2 [[a2]; [b2]] (corner 0) 0 = a2).
  { split; [apply bary2; unfold corner; cbn [Nat.eqb]; lra|unfold at_bary, corner; cbn [rsum nth Nat.eqb]; ring]. }
  assert (C1 : bary 2 (corner 1) /\ at_bary 2 [[a2]; [b2]] (corner 1) 0 = b2).
  { split; [apply bary2; unfold corner; cbn [Nat.eqb]; lra|unfold at_bary, corner; cbn [rsum nth Nat.eqb]; ring]. }
  unfold simplex_1D, intervals1. fold h. cbn [coord aget nth_error bind]. rewrite Ed.
  destruct (Rlt_dec a1 a2) as [L|L]; [rewrite (rlt_true a1 a2 L)|rewrite (rlt_false a1 a2) by lra]; cbn [bind Nat.sub seq next_1D aget nth_error].
  - assert (HB : b1 <= a2) by (destruct HD as [|[|[? ?]]]; lra). destruct X1 as [X1 _], X2 as [X2 _]. specialize (X1 HB). specialize (X2 HB).
    set (p := Rmax a1 (a2 - h)). set (q := Rmin b1 (b2 - h)).
    assert (P1 : a1 <= p) by apply Rmax_l. assert (P2 : a2 - h <= p) by apply Rmax_r. assert (P3 : p < b1) by (apply Rmax_lub_lt; lra).
    assert (Q1 : q <= b1) by apply Rmin_l. assert (Q3 : p <= q) by (apply Rmax_lub; apply Rmin_glb; lra).
    assert (PM : p = a1 \/ p = a2 - h) by (unfold p, Rmax; destruct (Rle_dec a1 (a2 - h)); auto).
    eexists. split.
    2: { apply (two_pieces (a1 * (1 / d)) (b1 * (1 / d)) (p * (1 / d)) (q * (1 / d)) (b1 * (1 / d))); try apply inv_mul; try apply inv_mul_lt; try lra.
         intros l Hb. pose proof (SP l Hb) as EP. apply bary2 in Hb as Hb'.
         assert (EQ : p * (1 / d) - a1 * (1 / d) = (p - a1) * (1 / d)) by ring. rewrite EQ. clear EQ.
         replace (b1 * (1 / d) - a1 * (1 / d)) with 1 by lra. pose proof (inv_mul_iff (p - a1) (l 1%nat) d Hd) as [IFF _]. rewrite IFF. clear IFF.
         assert (0 <= d * l 1%nat) by (apply Rmult_le_pos; lra). assert (d * l 1%nat <= d) by (rewrite <- (Rmult_1_r d) at 2; apply Rmult_le_compat_l; lra). split.
         - intros (m & Hm & Hsep). apply SS in Hsep. rewrite EP in Hsep. specialize (SQ m Hm). split; [|lra]. destruct PM as [-> | ->]; lra.
         - intros [A _]. exists (corner 0). split; [apply C0|]. apply SS. rewrite EP, (proj2 C0). unfold d in *. lra. }
    destruct (rle (q * (1 / d) - p * (1 / d)) 0), (rle (b1 * (1 / d) - q * (1 / d)) 0); reflexivity.
  - assert (HB : b2 <= a1 \/ (a1 = a2 /\ b1 = b2)) by (destruct HD as [|[|]]; [lra|auto|auto]).
    destruct X1 as [_ X1], X2 as [_ X2]. specialize (X1 ltac:(lra)). specialize (X2 HB).
    set (p := Rmax a1 (a2 + h)). set (q := Rmin b1 (b2 + h)).
    assert (P1 : a1 <= p) by apply Rmax_l. assert (P3 : p <= q) by (apply Rmax_lub; apply Rmin_glb; lra).
    assert (Q1 : q <= b1) by apply Rmin_l. assert (Q2 : q <= b2 + h) by apply Rmin_r. assert (Q3 : a1 < q) by (apply Rmin_glb_lt; lra).
    assert (QM : q = b1 \/ q = b2 + h) by (unfold q, Rmin; destruct (Rle_dec b1 (b2 + h)); auto).
    eexists. split.
    2: { apply (two_pieces (a1 * (1 / d)) (b1 * (1 / d)) (a1 * (1 / d)) (p * (1 / d)) (q * (1 / d))); try apply inv_mul; try apply inv_mul_lt; try lra.
         intros l Hb. pose proof (SP l Hb) as EP. apply bary2 in Hb as Hb'.
         assert (EQ : q * (1 / d) - a1 * (1 / d) = (q - a1) * (1 / d)) by ring. rewrite EQ. clear EQ.
         replace (a1 * (1 / d) - a1 * (1 / d)) with 0 by lra. pose proof (inv_mul_iff (q - a1) (l 1%nat) d Hd) as [_ IFF]. rewrite IFF. clear IFF.
         assert (0 <= d * l 1%nat) by (apply Rmult_le_pos; lra). assert (d * l 1%nat <= d) by (rewrite <- (Rmult_1_r d) at 2; apply Rmult_le_compat_l; lra). split.
         - intros (m & Hm & Hsep). apply SS in Hsep. rewrite EP in Hsep. specialize (SQ m Hm). split; [lra|]. destruct QM as [-> | ->]; [fold d|]; lra.
         - intros [_ A]. destruct HB as [HB|[HB1 HB2]].
           + exists (corner 1). split; [apply C1|]. apply SS. rewrite EP, (proj2 C1). lra.
           + subst a2 b2. exists l. split; [exact Hb|]. apply SS. lra. }
    destruct (rle (p * (1 / d) - a1 * (1 / d)) 0), (rle (q * (1 / d) - p * (1 / d)) 0); reflexivity.
Qed.
