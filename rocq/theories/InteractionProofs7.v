(** The outer loop for triangles. *)
From Coq Require Import R_sqrt Psatz.
From Verif Require Import LinR ReorderProofs InteractionModel InteractionSpec InteractionProofs InteractionProofs2 InteractionProofs3 InteractionProofs4 InteractionProofs5 InteractionProofs6.
Open Scope R_scope.
Set Default Proof Using "Type".

Definition same_sub (n : nat) (s s' : (nat -> nat -> R) * (nat -> R) * R) : Prop :=
  snd s = snd s' /\ forall p q, (p < n)%nat -> (q < n)%nat -> fst (fst s) p q + snd (fst s) p = fst (fst s') p q + snd (fst s') p.
Lemma image_ext n A b A' b' m l : bary n m -> (forall p q, (p < n)%nat -> (q < n)%nat -> A p q + b p = A' p q + b' p) -> image n A b m l -> image n A' b' m l.
Proof.
  intros [_ Hs] H Hi p Hp. rewrite (Hi p Hp).
  assert (E : forall (B : nat -> nat -> R) (c : nat -> R), rsum n (fun j => B p j * m j) + c p = rsum n (fun j => (B p j + c p) * m j)).
  { intros B c. rewrite (rsum_ext n (fun j => (B p j + c p) * m j) (fun j => B p j * m j + c p * m j)) by (intros; ring). rewrite rsum_plus, rsum_scal, Hs. ring. }
  rewrite !E. apply rsum_ext. intros q Hq. rewrite (H p q Hp Hq). reflexivity.
Qed.
Lemma covers_ext n A b A' b' l : (forall p q, (p < n)%nat -> (q < n)%nat -> A p q + b p = A' p q + b' p) -> covers n A b l -> covers n A' b' l.
Proof. intros H (m & Hm & Hi). exists m. split; [exact Hm|]. apply (image_ext n A b A' b' m l Hm H Hi). Qed.
Lemma strict_ext n A b A' b' l : (forall p q, (p < n)%nat -> (q < n)%nat -> A p q + b p = A' p q + b' p) -> strictly_covers n A b l -> strictly_covers n A' b' l.
Proof. intros H (m & Hm & Hp & Hi). exists m. split; [exact Hm|]. split; [exact Hp|]. apply (image_ext n A b A' b' m l Hm H Hi). Qed.
Lemma det_ext M M' : (forall p q, (p < 3)%nat -> (q < 3)%nat -> M p q = M' p q) -> det 3 M = det 3 M'.
Proof. intros H. unfold det. rewrite !H by lia. reflexivity. Qed.
Lemma sub_ext A b A' b' v : (forall p q, (p < 3)%nat -> (q < 3)%nat -> A p q + b p = A' p q + b' p) -> sub_simplex 3 A b v -> sub_simplex 3 A' b' v.
Proof.
  intros H [H1 H2]. split.
  - intros q Hq. destruct (H1 q Hq) as [B1 B2]. split.
    + intros p Hp. rewrite <- (H p q Hp Hq). apply B1. exact Hp.
    + rewrite <- B2. apply rsum_ext. intros p Hp. symmetry. apply H; assumption.
  - rewrite H2. f_equal. apply det_ext. exact H.
Qed.
Lemma Forall2_nth_l {A B} (P : A -> B -> Prop) l l' : Forall2 P l l' -> forall i y, nth_error l' i = Some y -> exists x, nth_error l i = Some x /\ P x y.
Proof. induction 1; intros [|i] y' E; cbn [nth_error] in *; try discriminate; [injection E as <-; eauto|apply IHForall2; exact E]. Qed.
Lemma subdivision_ext subs subs' S : Forall2 (same_sub 3) subs subs' -> subdivision 3 subs S -> subdivision 3 subs' S.
Proof.
  intros HF (H1 & H2 & H3).
  assert (HF' : Forall2 (same_sub 3) subs' subs) by (clear - HF; induction HF; constructor; auto; destruct H as [E H]; split; [auto|intros; symmetry; apply H; auto]).
  split; [|split].
  - intros A b vol HI. apply In_nth_error in HI. destruct HI as (i & Ei). destruct (Forall2_nth_l _ _ _ HF i _ Ei) as ([[A0 b0] v0] & E0 & [EV EC]). cbn [fst snd] in *.
    subst v0. apply (sub_ext A0 b0 A b vol EC). apply H1. apply nth_error_In with i. exact E0.
  - intros l Hb. rewrite <- (H2 l Hb). split.
    + intros (A & b & vol & HI & HC). apply In_nth_error in HI. destruct HI as (i & Ei). destruct (Forall2_nth_l _ _ _ HF i _ Ei) as ([[A0 b0] v0] & E0 & [EV EC]). cbn [fst snd] in *.
      exists A0, b0, v0. split; [apply nth_error_In with i; exact E0|]. apply (covers_ext 3 A b A0 b0 l); [intros; symmetry; apply EC; auto|exact HC].
    + intros (A & b & vol & HI & HC). apply In_nth_error in HI. destruct HI as (i & Ei). destruct (Forall2_nth_l _ _ _ HF' i _ Ei) as ([[A0 b0] v0] & E0 & [EV EC]). cbn [fst snd] in *.
      exists A0, b0, v0. split; [apply nth_error_In with i; exact E0|]. apply (covers_ext 3 A b A0 b0 l); [intros; symmetry; apply EC; auto|exact HC].
  - intros i j s s' Hij Ei Ej l [C1 C2].
    destruct (Forall2_nth_l _ _ _ HF i _ Ei) as (t & E0 & [_ EC]). destruct (Forall2_nth_l _ _ _ HF j _ Ej) as (t' & E0' & [_ EC']).
    apply (H3 i j t t' Hij E0 E0' l). split; [apply (strict_ext 3 _ _ _ _ l (fun p q Hp Hq => eq_sym (EC p q Hp Hq)) C1)|apply (strict_ext 3 _ _ _ _ l (fun p q Hp Hq => eq_sym (EC' p q Hp Hq)) C2)].
Qed.
Lemma subdivision_swap n s t S : subdivision n [s; t] S -> subdivision n [t; s] S.
Proof.
  intros (H1 & H2 & H3). split; [|split].
  - intros A b vol HI. apply H1. cbn [In] in *. tauto.
  - intros l Hb. rewrite <- (H2 l Hb). split; intros (A & b & vol & HI & HC); exists A, b, vol; (split; [cbn [In] in *; tauto|exact HC]).
  - intros [|i] [|[|j]] u u' Hij E E' l [C1 C2]; try lia; cbn [nth_error] in E, E'; try (destruct j; discriminate E').
    injection E as <-. injection E' as <-. apply (H3 0%nat 1%nat s t ltac:(lia) eq_refl eq_refl l). auto.
Qed.

Section Outer.
  Variables x0 y0 x1 y1 x2 y2 u0 v0 u1 v1 u2 v2 h2 : R.
  Let T1 : simplex := [[x0; y0]; [x1; y1]; [x2; y2]].
  Let T2 : simplex := [[u0; v0]; [u1; v1]; [u2; v2]].
  Let D := ball2 2 h2.
  Let wx := px u0 u1 u2.
  Let wy := py v0 v1 v2.
  Definition W (j : nat) : point := [wx j; wy j].
  Definition dd (i j : nat) : R := g (wx j) (wy j) x0 y0 x1 y1 x2 y2 i.
  Let far (i j : nat) := apart x0 y0 x1 y1 x2 y2 i j.
  Let F (j : nat) (l : nat -> R) := far2 2 3 (W j) T1 l.
  Hypotheses (HN : forall i j, (i < 3)%nat -> (j < 3)%nat -> dd i j <> h2) (A01 : far 0 1) (A12 : far 1 2) (A20 : far 2 0).

  Lemma far_sym i j : far i j -> far j i.
  Proof. unfold far, apart. intros H [E1 E2]. apply H. auto. Qed.
  Lemma far_rot i j k : rot i j k -> far i j /\ far i k /\ far j k.
  Proof using A01 A12 A20. intros HR. pose proof (far_sym _ _ A01). pose proof (far_sym _ _ A12). pose proof (far_sym _ _ A20). unfold rot in HR. rots HR; auto. Qed.
  Lemma W_T2 j : (j < 3)%nat -> nth_error T2 j = Some (W j) /\ In (W j) T2.
  Proof. intros H. destruct j as [|[|[|]]]; [| | |lia]; (split; [reflexivity|cbn; auto]). Qed.
  Lemma T2_W w : In w T2 -> exists j, (j < 3)%nat /\ w = W j.
  Proof. intros [<-|[<-|[<-|[]]]]; [exists 0%nat|exists 1%nat|exists 2%nat]; (split; [lia|reflexivity]). Qed.
  Definition row (i : nat) : list bool := [rle (dd i 0) h2; rle (dd i 1) h2; rle (dd i 2) h2].
  Lemma row_aget i j : (j < 3)%nat -> aget (row i) j = Ok (rle (dd i j) h2).
  Proof. intros H. destruct j as [|[|[|]]]; [reflexivity|reflexivity|reflexivity|lia]. Qed.
  Lemma ind_ok : for_range 0 3 (fun i l => v <- aget T1 i ;; r <- inside_at D 3 v T2 ;; Ok (l ++ [r])) [] = Ok [row 0; row 1; row 2].
  Proof.
    unfold for_range. cbn [Nat.sub for_n aget nth_error T1 bind]. unfold D, T2. rewrite !inside3. cbn [bind app].
    assert (E : forall i j, g (px x0 x1 x2 i) (py y0 y1 y2 i) u0 v0 u1 v1 u2 v2 j = dd i j) by (intros; unfold dd, g, wx, wy; ring).
    unfold row. rewrite <- !E. reflexivity.
  Qed.
  Lemma far_dd i j : (i < 3)%nat -> (j < 3)%nat -> far2 2 3 (W j) T1 (corner i) = dd i j.
  Proof. intros Hi Hj. rewrite (far_at_corner 2 3 _ _ i _ Hi (fun _ _ => eq_refl)). unfold dd, g, W. destruct i as [|[|[|]]]; [| | |lia]; cbn [rsum nth px py T1]; ring. Qed.
  Lemma sees_dd i : (i < 3)%nat -> (sees T1 T2 h2 i <-> exists j, (j < 3)%nat /\ dd i j < h2).
  Proof using HN.
    intros Hi. split.
    - intros (w & Hw & Hl). apply T2_W in Hw. destruct Hw as (j & Hj & ->). rewrite (far_dd i j Hi Hj) in Hl. exists j. split; [exact Hj|]. pose proof (HN i j Hi Hj). lra.
    - intros (j & Hj & Hl). exists (W j). split; [apply W_T2; exact Hj|]. rewrite (far_dd i j Hi Hj). lra.
  Qed.

  (** c is where the circle around corner j leaves the edge from i to o. *)
  Definition crossing (j o r : nat) (c : R) : Prop :=
    0 < c < 1 /\ forall l, bary 3 l -> l r = 0 -> (F j l = h2 <-> l o = c) /\ (F j l <= h2 <-> l o <= c).
  (** c is the largest of them. *)
  Definition largest (n i o r : nat) (c : R) : Prop :=
    (forall j, (j < n)%nat -> dd i j < h2 -> exists cj, crossing j o r cj /\ cj <= c) /\
    ((c = 0 /\ forall j, (j < n)%nat -> h2 < dd i j) \/ (exists j, (j < n)%nat /\ dd i j < h2 /\ crossing j o r c)).
  Lemma largest_0 i o r : largest 0 i o r 0.
  Proof. split; [intros; lia|left; split; [reflexivity|intros; lia]]. Qed.
  Lemma largest_seen n i o r c v : largest n i o r c -> dd i n < h2 -> crossing n o r v -> largest (S n) i o r (Rmax c v).
  Proof.
    intros [H1 H2] Hn Hv. split.
    - intros j Hj Hl. destruct (Nat.eq_dec j n) as [->|Ne]; [exists v; split; [exact Hv|apply Rmax_r]|].
      destruct (H1 j ltac:(lia) Hl) as (cj & Hc & Hle). exists cj. split; [exact Hc|]. apply Rle_trans with c; [exact Hle|apply Rmax_l].
    - right. destruct H2 as [[-> _]|(j & Hj & Hl & Hc)].
      + exists n. split; [lia|]. split; [exact Hn|]. rewrite Rmax_right; [exact Hv|]. destruct Hv as [Hv _]. lra.
      + unfold Rmax. destruct (Rle_dec c v); [exists n; split; [lia|auto]|exists j; split; [lia|auto]].
  Qed.
  Lemma largest_unseen n i o r c : largest n i o r c -> h2 < dd i n -> largest (S n) i o r c.
  Proof.
    intros [H1 H2] Hn. split.
    - intros j Hj Hl. destruct (Nat.eq_dec j n) as [->|Ne]; [lra|]. apply H1; [lia|exact Hl].
    - destruct H2 as [[-> H2]|(j & Hj & Hl & Hc)]; [left|right].
      + split; [reflexivity|]. intros j Hj. destruct (Nat.eq_dec j n) as [->|Ne]; [exact Hn|apply H2; lia].
      + exists j. split; [lia|auto].
  Qed.
  Lemma largest_reach i o r c : (i < 3)%nat -> largest 3 i o r c -> (exists j, (j < 3)%nat /\ dd i j < h2) ->
    0 < c < 1 /\ forall l, bary 3 l -> l r = 0 ->
      (((exists w, In w T2 /\ far2 2 3 w T1 (corner i) <= h2 /\ far2 2 3 w T1 l = h2) /\ (forall w, In w T2 -> far2 2 3 w T1 (corner i) <= h2 -> h2 <= far2 2 3 w T1 l)) <-> l o = c).
  Proof using HN.
    intros Hi [H1 H2] (j0 & Hj0 & Hl0). destruct H2 as [[_ H2]|(j & Hj & Hl & Hc)]; [specialize (H2 j0 Hj0); lra|].
    split; [apply Hc|]. intros l Hb Hr. destruct Hc as [_ Hc]. specialize (Hc l Hb Hr). fold (F j l) in Hc. split.
    - intros [(w & Hw & Hs & HE) HA]. apply T2_W in Hw. destruct Hw as (k & Hk & ->). rewrite (far_dd i k Hi Hk) in Hs. pose proof (HN i k Hi Hk).
      destruct (H1 k Hk ltac:(lra)) as (ck & [_ Hck] & Hle). specialize (Hck l Hb Hr).
      assert (l o <= ck) by (apply Hck; unfold F; lra).
      specialize (HA (W j) (proj2 (W_T2 j Hj))). rewrite (far_dd i j Hi Hj) in HA. specialize (HA ltac:(lra)). fold (F j l) in HA.
      destruct (Rle_dec c (l o)) as [L|L]; [lra|]. assert (l o <= c) by lra. assert (F j l <= h2) by (apply Hc; lra). apply Hc. lra.
    - intros E. split.
      + exists (W j). split; [apply W_T2; exact Hj|]. split; [rewrite (far_dd i j Hi Hj); lra|]. apply Hc. exact E.
      + intros w Hw Hs. apply T2_W in Hw. destruct Hw as (k & Hk & ->). rewrite (far_dd i k Hi Hk) in Hs. pose proof (HN i k Hi Hk).
        destruct (H1 k Hk ltac:(lra)) as (ck & [_ Hck] & Hle). specialize (Hck l Hb Hr). fold (F k l).
        destruct (Rle_dec h2 (F k l)) as [L|L]; [exact L|]. assert (l o <= ck) by (apply Hck; lra). assert (l o = ck) by lra. assert (F k l = h2) by (apply Hck; lra). lra.
  Qed.
  (** Crossings found by the program *)
  Lemma cross_in j i o r b : rot i o r \/ rot o i r -> far i o -> (j < 3)%nat -> dd i j < h2 -> h2 < dd o j -> length b = 2%nat ->
    exists c b', findIntersections D (W j) T1 i o b = Ok (1%nat, b') /\ rd b' 0 = Ok c /\ length b' = 2%nat /\ crossing j o r c.
  Proof.
    intros HR HA Hj Hi Ho Hb.
    destruct (edge_in_out (wx j) (wy j) x0 y0 x1 y1 x2 y2 h2 i o r HR HA Hi Ho b Hb) as (c & b' & E1 & E2 & E3 & E4 & E5).
    exists c, b'. repeat (split; [assumption|]). exact E5.
  Qed.
  Lemma cross_out j i o r b : rot o i r \/ rot i o r -> far o i -> (j < 3)%nat -> dd i j < h2 -> h2 < dd o j -> length b = 2%nat ->
    exists c b', findIntersections D (W j) T1 o i b = Ok (1%nat, b') /\ rd b' 0 = Ok c /\ length b' = 2%nat /\ crossing j o r (1 - c).
  Proof.
    intros HR HA Hj Hi Ho Hb.
    destruct (edge_out_in (wx j) (wy j) x0 y0 x1 y1 x2 y2 h2 o i r HR HA Ho Hi b Hb) as (c & b' & E1 & E2 & E3 & E4 & E5).
    exists c, b'. repeat (split; [assumption|]). split; [lra|]. intros l Hlb Hlr. specialize (E5 l Hlb Hlr). fold (W j) in E5. fold (F j l) in E5.
    assert (l o + l i = 1) by (destruct HR as [HR|HR]; apply (rot_bary _ _ _ l HR) in Hlb; lra).
    destruct E5 as [[E5 E6] [E7 E8]]. split; split; intros X; [specialize (E5 X)|apply E6|specialize (E7 X)|apply E8]; lra.
  Qed.

  (** The points of reach_points by the number of corners that see T2. *)
  Definition seen (i : nat) := exists j, (j < 3)%nat /\ dd i j < h2.
  Lemma unseen i : (i < 3)%nat -> ~ seen i -> forall j, (j < 3)%nat -> h2 < dd i j.
  Proof using HN. intros Hi H j Hj. pose proof (HN i j Hi Hj). destruct (Rlt_dec (dd i j) h2) as [L|L]; [exfalso; apply H; exists j; auto|lra]. Qed.
  Lemma row_exists i : (i < 3)%nat -> (existsb (fun b => b) (row i) = true <-> seen i).
  Proof using HN.
    intros Hi. pose proof (HN i 0%nat Hi ltac:(lia)). pose proof (HN i 1%nat Hi ltac:(lia)). pose proof (HN i 2%nat Hi ltac:(lia)).
    unfold row. cbn [existsb]. rewrite !orb_true_iff. unfold rle. split.
    - intros [E|[E|[E|E]]]; [exists 0%nat|exists 1%nat|exists 2%nat|discriminate]; (split; [lia|]); destruct (Rle_dec _ h2) in E; try discriminate; lra.
    - intros (j & Hj & Hl). destruct j as [|[|[|]]]; [left|right; left|do 2 right; left|lia]; destruct (Rle_dec _ h2); auto; lra.
  Qed.

  Lemma outer_one_loop i o1 o2 : rot i o1 o2 -> seen i -> ~ seen o1 -> ~ seen o2 ->
    exists c1 c2 b, for_range 0 3 (fun j '(c1, c2, b) =>
       row_ <- aget [row 0; row 1; row 2] i ;; h <- aget row_ j ;;
       if (h : bool) then
         w <- aget T2 j ;;
         '(_, b) <- findIntersections D w T1 i o1 b ;; v1 <- rd b 0 ;;
         '(_, b) <- findIntersections D w T1 i o2 b ;; v2 <- rd b 0 ;;
         Ok (Rmax c1 v1, Rmax c2 v2, b)
       else Ok (c1, c2, b)) (0, 0, alloc 2) = Ok (c1, c2, b) /\ largest 3 i o1 o2 c1 /\ largest 3 i o2 o1 c2.
  Proof using HN A01 A12 A20.
    intros HR S0 U1 U2. destruct (far_rot i o1 o2 HR) as (F1 & F2 & _). assert (Hi : (i < 3 /\ o1 < 3 /\ o2 < 3)%nat) by (rots HR; lia). destruct Hi as (Hi & Ho1 & Ho2).
    match goal with |- exists c1 c2 b, for_range 0 3 ?f ?s = _ /\ _ => destruct (for_range_inv (fun n '(c1, c2, b) => length b = 2%nat /\ largest n i o1 o2 c1 /\ largest n i o2 o1 c2) f 0 3 s) as ([[c1 c2] b] & E & HI) end.
    - lia.
    - split; [reflexivity|]. split; apply largest_0.
    - intros j [[c1 c2] b] Hj (Hb & L1 & L2).
      assert (ER : aget [row 0; row 1; row 2] i = Ok (row i)) by (destruct i as [|[|[|]]]; [reflexivity|reflexivity|reflexivity|lia]). rewrite ER. cbn [bind].
      rewrite (row_aget i j) by lia. cbn [bind]. pose proof (HN i j Hi ltac:(lia)).
      destruct (Rle_dec (dd i j) h2) as [L|L]; [rewrite (rle_true _ _ L)|rewrite (rle_false (dd i j) h2) by lra].
      + assert (EW : aget T2 j = Ok (W j)) by (unfold aget; rewrite (proj1 (W_T2 j ltac:(lia))); reflexivity). rewrite EW. cbn [bind].
        destruct (cross_in j i o1 o2 b (rot_12 _ _ _ HR) F1 ltac:(lia) ltac:(lra) (unseen o1 Ho1 U1 j ltac:(lia)) Hb) as (v1' & b1 & E1 & E2 & E3 & C1). rewrite E1. cbn [bind]. rewrite E2. cbn [bind].
        destruct (cross_in j i o2 o1 b1 (rot_13 _ _ _ HR) F2 ltac:(lia) ltac:(lra) (unseen o2 Ho2 U2 j ltac:(lia)) E3) as (v2' & b2 & E1' & E2' & E3' & C2). rewrite E1'. cbn [bind]. rewrite E2'. cbn [bind].
        eexists. split; [reflexivity|]. cbn beta iota. split; [exact E3'|]. split; apply largest_seen; auto; lra.
      + eexists. split; [reflexivity|]. cbn beta iota. split; [exact Hb|]. split; apply largest_unseen; auto; lra.
    - exists c1, c2, b. split; [exact E|]. apply HI.
  Qed.

  Lemma rot_third i j k p q : rot i j k -> (p < 3)%nat -> (q < 3)%nat -> p <> q ->
    (p = i /\ q = j) \/ (p = j /\ q = i) \/ (p = i /\ q = k) \/ (p = k /\ q = i) \/ (p = j /\ q = k) \/ (p = k /\ q = j).
  Proof. intros HR Hp Hq Hn. unfold rot in HR. rots HR; lia. Qed.
  Lemma sees_seen i : (i < 3)%nat -> (sees T1 T2 h2 i <-> seen i).
  Proof using HN. intros Hi. apply sees_dd. exact Hi. Qed.

  Lemma outer_one_ok i o1 o2 : rot i o1 o2 -> seen i -> ~ seen o1 -> ~ seen o2 ->
    exists subs, outer_one D T1 T2 [row 0; row 1; row 2] i = Ok subs /\ subdivision 3 subs (hull 3 (reach_points T1 T2 h2)).
  Proof using HN A01 A12 A20.
    intros HR S0 U1 U2. destruct (rot_next i o1 o2 HR) as [En1 En2]. unfold outer_one. rewrite En1, En2.
    destruct (outer_one_loop i o1 o2 HR S0 U1 U2) as (c1 & c2 & b & E & L1 & L2). rewrite E. cbn [bind].
    assert (Hi : (i < 3 /\ o1 < 3 /\ o2 < 3)%nat) by (rots HR; lia). destruct Hi as (Hi & Ho1 & Ho2).
    destruct (largest_reach i o1 o2 c1 Hi L1 S0) as [Hc1 R1]. destruct (largest_reach i o2 o1 c2 Hi L2 S0) as [Hc2 R2].
    rewrite rlt_true by (apply Rmult_lt_0_compat; lra). eexists. split; [reflexivity|].
    apply (subdivision_ext (linear_subs [(tri_at i o1 o2 c1 c2, c1 * c2)])).
    - constructor; [|constructor]. split; [reflexivity|]. cbn [fst snd]. unfold tri_at, mset, mzero. clear - HR. intros p q Hp Hq.
      unfold rot in HR. rots HR; destruct p as [|[|[|]]]; try lia; destruct q as [|[|[|]]]; try lia; cbn [Nat.eqb andb]; lra.
    - apply (cut_triangle i o1 o2 c1 c2 _ HR Hc1 Hc2). intros p. unfold reach_points. split.
      + intros [Hb [(q & Hq & Eq & Sq)|(q & o & Hq & Ho & Es & Sq & So & RR)]]; (split; [exact Hb|]).
        * left. apply (sees_seen q Hq) in Sq. destruct (Nat.eq_dec q i) as [->|Nq]; [exact Eq|]. exfalso.
          destruct (rot_third i o1 o2 q i HR Hq Hi Nq) as [[? ?]|[[-> ?]|[[? ?]|[[-> ?]|[[? ?]|[? ?]]]]]]; try congruence; try (apply U1; exact Sq); try (apply U2; exact Sq); lia.
        * apply (sees_seen q Hq) in Sq. assert (So' : ~ seen o) by (intros X; apply So; apply (sees_seen o Ho); exact X).
          assert (Hqo : q <> o) by (intros ->; contradiction). apply (rot_bary i o1 o2 p HR) in Hb as Hb'.
          destruct (rot_third i o1 o2 q o HR Hq Ho Hqo) as [[-> ->]|[[-> ->]|[[-> ->]|[[-> ->]|[[-> ->]|[-> ->]]]]]]; try contradiction.
          -- right. left. assert (Z : p o2 = 0) by lra. split; [exact Z|]. apply (R1 p Hb Z). exact RR.
          -- right. right. assert (Z : p o1 = 0) by lra. split; [exact Z|]. apply (R2 p Hb Z). exact RR.
      + intros [Hb [Ei|[[Z Ec]|[Z Ec]]]]; (split; [exact Hb|]); apply (rot_bary i o1 o2 p HR) in Hb as Hb'.
        * left. exists i. split; [exact Hi|]. split; [exact Ei|]. apply (sees_seen i Hi). exact S0.
        * right. exists i, o1. split; [exact Hi|]. split; [exact Ho1|]. split; [lra|]. split; [apply (sees_seen i Hi); exact S0|]. split; [intros X; apply U1; apply (sees_seen o1 Ho1); exact X|].
          apply (R1 p Hb Z). exact Ec.
        * right. exists i, o2. split; [exact Hi|]. split; [exact Ho2|]. split; [lra|]. split; [apply (sees_seen i Hi); exact S0|]. split; [intros X; apply U2; apply (sees_seen o2 Ho2); exact X|].
          apply (R2 p Hb Z). exact Ec.
  Qed.

  Lemma outer_two_loop o i1 i2 : rot o i1 i2 -> ~ seen o -> seen i1 -> seen i2 ->
    exists c1 c2 b, for_range 0 3 (fun j '(c1, c2, b) =>
       row1 <- aget [row 0; row 1; row 2] i1 ;; h1 <- aget row1 j ;; row2 <- aget [row 0; row 1; row 2] i2 ;; h2 <- aget row2 j ;; w <- aget T2 j ;;
       '(c1, b) <- (if (h1 : bool) then '(_, b) <- findIntersections D w T1 o i1 b ;; v <- rd b 0 ;; Ok (Rmin c1 v, b) else Ok (c1, b)) ;;
       '(c2, b) <- (if (h2 : bool) then '(_, b) <- findIntersections D w T1 o i2 b ;; v <- rd b 0 ;; Ok (Rmin c2 v, b) else Ok (c2, b)) ;;
       Ok (c1, c2, b)) (1, 1, alloc 2) = Ok (c1, c2, b) /\ largest 3 i1 o i2 (1 - c1) /\ largest 3 i2 o i1 (1 - c2).
  Proof using HN A01 A12 A20.
    intros HR U0 S1 S2. destruct (far_rot o i1 i2 HR) as (F1 & F2 & _). assert (Hi : (o < 3 /\ i1 < 3 /\ i2 < 3)%nat) by (rots HR; lia). destruct Hi as (Ho & Hi1 & Hi2).
    assert (MM : forall c v, 1 - Rmin c v = Rmax (1 - c) (1 - v)) by (intros c v; unfold Rmin, Rmax; destruct (Rle_dec c v), (Rle_dec (1 - c) (1 - v)); lra).
    assert (ER : forall i, (i < 3)%nat -> aget [row 0; row 1; row 2] i = Ok (row i)) by (intros i Hi; destruct i as [|[|[|]]]; [reflexivity|reflexivity|reflexivity|lia]).
    match goal with |- exists c1 c2 b, for_range 0 3 ?f ?s = _ /\ _ => destruct (for_range_inv (fun n '(c1, c2, b) => length b = 2%nat /\ largest n i1 o i2 (1 - c1) /\ largest n i2 o i1 (1 - c2)) f 0 3 s) as ([[c1 c2] b] & E & HI) end.
    - lia.
    - split; [reflexivity|]. replace (1 - 1) with 0 by ring. split; apply largest_0.
    - intros j [[c1 c2] b] Hj (Hb & L1 & L2). rewrite (ER i1 Hi1), (ER i2 Hi2). cbn [bind]. rewrite (row_aget i1 j), (row_aget i2 j) by lia. cbn [bind].
      assert (EW : aget T2 j = Ok (W j)) by (unfold aget; rewrite (proj1 (W_T2 j ltac:(lia))); reflexivity). rewrite EW. cbn [bind].
      pose proof (HN i1 j Hi1 ltac:(lia)). pose proof (HN i2 j Hi2 ltac:(lia)). pose proof (unseen o Ho U0 j ltac:(lia)) as UU.
      assert (X : exists c1' b1, (if rle (dd i1 j) h2 then '(_, b) <- findIntersections D (W j) T1 o i1 b ;; v <- rd b 0 ;; Ok (Rmin c1 v, b) else Ok (c1, b)) = Ok (c1', b1) /\ length b1 = 2%nat /\ largest (S j) i1 o i2 (1 - c1')).
      { destruct (Rle_dec (dd i1 j) h2) as [L|L]; [rewrite (rle_true _ _ L)|rewrite (rle_false (dd i1 j) h2) by lra].
        - destruct (cross_out j i1 o i2 b (rot_12 _ _ _ HR) F1 ltac:(lia) ltac:(lra) UU Hb) as (v & b1 & E1 & E2 & E3 & C1). rewrite E1. cbn [bind]. rewrite E2. cbn [bind].
          do 2 eexists. split; [reflexivity|]. split; [exact E3|]. rewrite MM. apply largest_seen; auto; lra.
        - do 2 eexists. split; [reflexivity|]. split; [exact Hb|]. apply largest_unseen; auto; lra. }
      destruct X as (c1' & b1 & EX & Hb1 & L1'). match goal with |- exists s, bind ?e ?f = _ /\ _ => let EE := fresh in assert (EE : e = Ok (c1', b1)) by exact EX; rewrite EE end. cbn [bind].
      assert (X : exists c2' b2, (if rle (dd i2 j) h2 then '(_, b) <- findIntersections D (W j) T1 o i2 b1 ;; v <- rd b 0 ;; Ok (Rmin c2 v, b) else Ok (c2, b1)) = Ok (c2', b2) /\ length b2 = 2%nat /\ largest (S j) i2 o i1 (1 - c2')).
      { destruct (Rle_dec (dd i2 j) h2) as [L|L]; [rewrite (rle_true _ _ L)|rewrite (rle_false (dd i2 j) h2) by lra].
        - destruct (cross_out j i2 o i1 b1 (rot_13 _ _ _ HR) F2 ltac:(lia) ltac:(lra) UU Hb1) as (v & b2 & E1 & E2 & E3 & C1). rewrite E1. cbn [bind]. rewrite E2. cbn [bind].
          do 2 eexists. split; [reflexivity|]. split; [exact E3|]. rewrite MM. apply largest_seen; auto; lra.
        - do 2 eexists. split; [reflexivity|]. split; [exact Hb1|]. apply largest_unseen; auto; lra. }
      destruct X as (c2' & b2 & EX2 & Hb2 & L2'). match goal with |- exists s, bind ?e ?f = _ /\ _ => let EE := fresh in assert (EE : e = Ok (c2', b2)) by exact EX2; rewrite EE end. cbn [bind]. eexists. split; [reflexivity|]. cbn beta iota. auto.
    - exists c1, c2, b. split; [exact E|]. apply HI.
  Qed.

  Lemma outer_two_ok o i1 i2 : rot o i1 i2 -> ~ seen o -> seen i1 -> seen i2 ->
    exists subs, outer_two D T1 T2 [row 0; row 1; row 2] o = Ok subs /\ subdivision 3 subs (hull 3 (reach_points T1 T2 h2)).
  Proof using HN A01 A12 A20.
    intros HR U0 S1 S2. destruct (rot_next o i1 i2 HR) as [En1 En2]. unfold outer_two. rewrite En1, En2.
    destruct (outer_two_loop o i1 i2 HR U0 S1 S2) as (c1 & c2 & b & E & L1 & L2). rewrite E. cbn [bind].
    assert (Hi : (o < 3 /\ i1 < 3 /\ i2 < 3)%nat) by (rots HR; lia). destruct Hi as (Ho & Hi1 & Hi2).
    destruct (largest_reach i1 o i2 (1 - c1) Hi1 L1 S1) as [Hc1 R1]. destruct (largest_reach i2 o i1 (1 - c2) Hi2 L2 S2) as [Hc2 R2].
    assert (HK : forall p, reach_points T1 T2 h2 p <-> bary 3 p /\ (p i1 = 1 \/ p i2 = 1 \/ (p i2 = 0 /\ p i1 = c1) \/ (p i1 = 0 /\ p i2 = c2))).
    { intros p. unfold reach_points. split.
      - intros [Hb [(q & Hq & Eq & Sq)|(q & o' & Hq & Ho' & Es & Sq & So & RR)]]; (split; [exact Hb|]).
        + apply (sees_seen q Hq) in Sq. destruct (Nat.eq_dec q o) as [->|Nq]; [contradiction|].
          destruct (rot_third o i1 i2 q o HR Hq Ho Nq) as [[? ?]|[[-> ?]|[[? ?]|[[-> ?]|[[? ?]|[? ?]]]]]]; try congruence; auto; exfalso; unfold rot in HR; rots HR; lia.
        + apply (sees_seen q Hq) in Sq. assert (So' : ~ seen o') by (intros X; apply So; apply (sees_seen o' Ho'); exact X).
          assert (Hqo : q <> o') by (intros ->; contradiction). apply (rot_bary o i1 i2 p HR) in Hb as Hb'.
          destruct (rot_third o i1 i2 q o' HR Hq Ho' Hqo) as [[-> ->]|[[-> ->]|[[-> ->]|[[-> ->]|[[-> ->]|[-> ->]]]]]]; try contradiction.
          * do 2 right. left. assert (Z : p i2 = 0) by lra. split; [exact Z|]. apply (R1 p Hb Z) in RR. lra.
          * do 3 right. assert (Z : p i1 = 0) by lra. split; [exact Z|]. apply (R2 p Hb Z) in RR. lra.
      - intros [Hb [Ei|[Ei|[[Z Ec]|[Z Ec]]]]]; (split; [exact Hb|]); apply (rot_bary o i1 i2 p HR) in Hb as Hb'.
        + left. exists i1. split; [exact Hi1|]. split; [exact Ei|]. apply (sees_seen i1 Hi1). exact S1.
        + left. exists i2. split; [exact Hi2|]. split; [exact Ei|]. apply (sees_seen i2 Hi2). exact S2.
        + right. exists i1, o. split; [exact Hi1|]. split; [exact Ho|]. split; [lra|]. split; [apply (sees_seen i1 Hi1); exact S1|]. split; [intros X; apply U0; apply (sees_seen o Ho); exact X|].
          apply (R1 p Hb Z). lra.
        + right. exists i2, o. split; [exact Hi2|]. split; [exact Ho|]. split; [lra|]. split; [apply (sees_seen i2 Hi2); exact S2|]. split; [intros X; apply U0; apply (sees_seen o Ho); exact X|].
          apply (R2 p Hb Z). lra. }
    match goal with |- context [for_range 0 2 ?f (0, 0)] => assert (EL : exists d1 d2, for_range 0 2 f (0, 0) = Ok (d1, d2)) by (unfold for_range, coord, T2; clear - HR; unfold rot in HR; rots HR; cbn [Nat.sub for_n bind aget nth_error]; eauto) end.
    destruct EL as (d1 & d2 & EL). rewrite EL. cbn [bind]. clear EL E L1 L2 R1 R2.
    assert (0 < c1 * (1 - c2)) by (apply Rmult_lt_0_compat; lra). assert (0 < c2 * (1 - c1)) by (apply Rmult_lt_0_compat; lra).
    destruct (rlt d1 d2).
    - rewrite (rlt_true 0 (1 - c1)), (rlt_true 0 (c1 * (1 - c2))) by lra. cbn [app]. eexists. split; [reflexivity|].
      apply (subdivision_ext (linear_subs [(quadA2 o i1 i2 c1, 1 - c1); (quadA1 o i1 i2 c1 c2, c1 * (1 - c2))])).
      + clear - HR. constructor; [|constructor; [|constructor]]; (split; [reflexivity|]); cbn [fst snd]; unfold quadA1, quadA2, mset, mzero; intros p q Hp Hq;
        unfold rot in HR; rots HR; destruct p as [|[|[|]]]; try lia; destruct q as [|[|[|]]]; try lia; cbn [Nat.eqb andb]; lra.
      + apply subdivision_swap. apply (quadA_cut o i1 i2 c1 c2 _ HR ltac:(lra) ltac:(lra) HK).
    - rewrite (rlt_true 0 (1 - c2)), (rlt_true 0 (c2 * (1 - c1))) by lra. cbn [app]. eexists. split; [reflexivity|].
      apply (subdivision_ext (linear_subs [(quadB2 o i1 i2 c2, 1 - c2); (quadB1 o i1 i2 c1 c2, c2 * (1 - c1))])).
      + clear - HR. constructor; [|constructor; [|constructor]]; (split; [reflexivity|]); cbn [fst snd]; unfold quadB1, quadB2, mset, mzero; intros p q Hp Hq;
        unfold rot in HR; rots HR; destruct p as [|[|[|]]]; try lia; destruct q as [|[|[|]]]; try lia; cbn [Nat.eqb andb]; lra.
      + apply subdivision_swap. apply (quadB_cut o i1 i2 c1 c2 _ HR ltac:(lra) ltac:(lra) HK).
  Qed.

  Lemma simplex_2D_ok : seen 0 \/ seen 1 \/ seen 2 ->
    exists subs, simplex_2D D T1 T2 = Ok subs /\ subdivision 3 subs (hull 3 (reach_points T1 T2 h2)).
  Proof using HN A01 A12 A20.
    intros HS. unfold simplex_2D. rewrite ind_ok. cbn [bind map].
    assert (R0 : rot 0 1 2) by (unfold rot; auto). assert (R1 : rot 1 2 0) by (unfold rot; auto). assert (R2 : rot 2 0 1) by (unfold rot; auto).
    pose proof (row_exists 0 ltac:(lia)) as X0. pose proof (row_exists 1 ltac:(lia)) as X1. pose proof (row_exists 2 ltac:(lia)) as X2.
    destruct (existsb (fun b => b) (row 0)); destruct (existsb (fun b => b) (row 1)); destruct (existsb (fun b => b) (row 2));
    cbn [count_true filter length map negb first_true].
    - eexists. split; [reflexivity|]. apply cut_whole. intros p. unfold reach_points. split.
      + intros [Hb [(q & Hq & Eq & _)|(q & o & Hq & Ho & _ & _ & So & _)]]; (split; [exact Hb|]).
        * destruct q as [|[|[|]]]; auto; lia.
        * exfalso. apply So. apply (sees_seen o Ho). destruct o as [|[|[|]]]; [apply X0|apply X1|apply X2|lia]; reflexivity.
      + intros [Hb HE]. split; [exact Hb|]. left. destruct HE as [E|[E|E]]; [exists 0%nat|exists 1%nat|exists 2%nat]; (split; [lia|]); (split; [exact E|]); apply sees_seen; try lia; [apply X0|apply X1|apply X2]; reflexivity.
    - apply (outer_two_ok 2 0 1 R2); [rewrite <- X2; discriminate|apply X0; reflexivity|apply X1; reflexivity].
    - apply (outer_two_ok 1 2 0 R1); [rewrite <- X1; discriminate|apply X2; reflexivity|apply X0; reflexivity].
    - apply (outer_one_ok 0 1 2 R0); [apply X0; reflexivity|rewrite <- X1; discriminate|rewrite <- X2; discriminate].
    - apply (outer_two_ok 0 1 2 R0); [rewrite <- X0; discriminate|apply X1; reflexivity|apply X2; reflexivity].
    - apply (outer_one_ok 1 2 0 R1); [apply X1; reflexivity|rewrite <- X2; discriminate|rewrite <- X0; discriminate].
    - apply (outer_one_ok 2 0 1 R2); [apply X2; reflexivity|rewrite <- X0; discriminate|rewrite <- X1; discriminate].
    - exfalso. destruct HS as [H|[H|H]]; [apply X0 in H|apply X1 in H|apply X2 in H]; discriminate.
  Qed.
End Outer.
