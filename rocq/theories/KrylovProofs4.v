From Verif Require Import LinR KrylovModel KrylovSpec KrylovProofs KrylovProofs2 KrylovProofs3.
Open Scope R_scope.

Lemma last_seq_S d : last (seq 0 (S d)) 0%nat = d.
Proof. rewrite seq_S. apply last_app1. Qed.

Lemma cg_terminates : forall n A prec use2norm b x0 rel tolerance maxiter,
  spd n A -> (forall B, prec = Some B -> sym_op n B /\ posdef n B) -> length b = n ->
  0 <= tolerance -> (n <= maxiter)%nat ->
  exists it x rs,
    cg_solve n A prec (dot n) (eucl n) use2norm b x0 rel tolerance maxiter = Ok (it, x, rs) /\
    (length rs <= n + 1)%nat /\
    criterion prec (dot n) (eucl n) use2norm (true_residual n A b x)
      <= tol_of rel tolerance (eucl n) (true_residual n A b (guess n x0)) /\
    (tolerance = 0 -> A x = b).
Proof.
  intros n A prec use2norm b x0 rel tolerance maxiter spdA precOk Hb Ht Hmax.
  destruct (cg_runs n A prec use2norm b spdA precOk Hb x0 rel tolerance Ht) as (m & Hm & Hn & Hz & H).
  destruct (H maxiter) as (d & it & H1 & H2 & H3 & H4 & H5).
  set (q := sq n A (prec_op prec) b (guess n x0)) in *.
  assert (ER : forall k, sr (q k) = true_residual n A b (sx (q k))) by (intros k; apply (res_eq n A (prec_op prec) b (guess n x0) spdA k)).
  assert (HC : criterion prec (dot n) (eucl n) use2norm (sr (q d)) <= tol_of rel tolerance (eucl n) (true_residual n A b (guess n x0))).
  { destruct (Nat.eq_dec d maxiter) as [E|E]; [|apply H4; lia].
    assert (d = m) by lia. subst m. rewrite (crit_zero n A prec use2norm b spdA precOk Hb) by auto.
    unfold tol_of. destruct rel; auto. apply Rmult_le_pos; auto. apply sqrt_pos. }
  exists it, (sx (q d)), (map (fun e => criterion prec (dot n) (eucl n) use2norm (sr (q e))) (seq 0 (S d))).
  split; [exact H3|]. split; [rewrite map_length, seq_length; lia|]. split; [rewrite <- ER; exact HC|].
  intros ->. assert (Z : forall i, (i < n)%nat -> rat (sr (q d)) i = 0).
  { apply (crit_nonpos n A prec use2norm b spdA precOk Hb).
    replace 0 with (tol_of rel 0 (eucl n) (true_residual n A b (guess n x0))) by (unfold tol_of; destruct rel; lra). exact HC. }
  apply (rvec_ext n); auto; [apply spdA|]. intros i Hi. specialize (Z i Hi). rewrite ER in Z.
  unfold true_residual in Z. rewrite rat_comb in Z by auto. lra.
Qed.

Lemma dot_lin_sum n k (c : nat -> R) (u : nat -> nat -> R) v w :
  (forall l, (l < n)%nat -> rat w l = rsum k (fun j => c j * u j l)) ->
  dot n v w = rsum k (fun j => c j * rsum n (fun l => rat v l * u j l)).
Proof.
  intros H. unfold dot. rewrite (rsum_ext n _ (fun l => rsum k (fun j => c j * (rat v l * u j l)))).
  2: { intros l Hl. rewrite H, <- rsum_scal by auto. apply rsum_ext. intros. lra. }
  rewrite rsum_swap. apply rsum_ext. intros j Hj. apply rsum_scal.
Qed.

Lemma cg_orthogonal : forall n A prec use2norm b x0,
  spd n A -> (forall B, prec = Some B -> sym_op n B /\ posdef n B) -> length b = n ->
  exists X : nat -> vec,
    (forall j, exists it rs, cg_solve n A prec (dot n) (eucl n) use2norm b x0 false 0 j = Ok (it, X j, rs)) /\
    (forall i j, i <> j -> dot n (true_residual n A b (X i)) (prec_op prec (true_residual n A b (X j))) = 0) /\
    (forall i j, i <> j -> dot n (comb n 1 (X (S i)) (-1) (X i)) (A (comb n 1 (X (S j)) (-1) (X j))) = 0) /\
    (forall i xs y (c : nat -> R), A xs = b ->
       (forall l, (l < n)%nat -> rat y l = rat (X i) l + rsum i (fun j => c j * (rat (X (S j)) l - rat (X j) l))) ->
       energy n A xs (X i) <= energy n A xs y).
Proof.
  intros n A prec use2norm b x0 spdA precOk Hb.
  destruct (cg_exact n A prec use2norm b spdA precOk Hb x0 false) as (m & Hm & HI & Hnz & Hz & H).
  set (q := sq n A (prec_op prec) b (guess n x0)) in *.
  assert (ER : forall k, true_residual n A b (sx (q k)) = sr (q k)) by (intros k; symmetry; apply (res_eq n A (prec_op prec) b (guess n x0) spdA k)).
  pose proof (symB n A prec use2norm b spdA precOk Hb) as SB.
  destruct spdA as ([lenA linA] & SA & PA).
  set (X := fun j => sx (q (Nat.min j m))).
  (* increments *)
  assert (Hinc : forall j, exists a, ((m <= j)%nat -> a = 0) /\ forall l, (l < n)%nat -> rat (X (S j)) l - rat (X j) l = a * rat (sp (q (Nat.min j m))) l).
  { intros j. unfold X. destruct (Nat.lt_ge_cases j m) as [Hj|Hj].
    - rewrite (Nat.min_l j), (Nat.min_l (S j)) by lia. exists (al n A (q j)). split; [lia|]. intros l Hl.
      change (sx (q (S j))) with (comb n 1 (sx (q j)) (al n A (q j)) (sp (q j))). rewrite rat_comb by auto. lra.
    - rewrite !Nat.min_r by lia. exists 0. split; auto. intros. lra. }
  exists X. split; [|split; [|split]].
  - intros j. destruct (H j) as (it & E). eauto.
  - assert (G : forall i j, (j < i)%nat -> dot n (true_residual n A b (X i)) (prec_op prec (true_residual n A b (X j))) = 0).
    { intros i j Hij. unfold X. rewrite !ER. destruct (Nat.lt_ge_cases j m) as [Hj|Hj].
      - apply (iv_rz n A (prec_op prec) b (guess n x0) (Nat.min i m)); [apply HI; lia|lia].
      - rewrite dot_zero_l; auto. replace (Nat.min i m) with m by lia. auto. }
    intros i j Hij. destruct (Nat.lt_ge_cases j i) as [Hl|Hl]; [apply G; auto|].
    rewrite SB, dot_comm. apply G. lia.
  - assert (G : forall i j, (j < i)%nat -> dot n (comb n 1 (X (S i)) (-1) (X i)) (A (comb n 1 (X (S j)) (-1) (X j))) = 0).
    { intros i j Hij. destruct (Hinc i) as (a & Ha & Ei), (Hinc j) as (a' & Ha' & Ej).
      assert (forall k c, (forall l, (l < n)%nat -> rat (X (S k)) l - rat (X k) l = c * rat (sp (q (Nat.min k m))) l) ->
        comb n 1 (X (S k)) (-1) (X k) = comb n c (sp (q (Nat.min k m))) 0 (sp (q (Nat.min k m)))) as C.
      { intros k c E. unfold comb. apply tab_ext. intros l Hl. specialize (E l Hl). lra. }
      rewrite (C i a Ei), (C j a' Ej), linA, dot_comb_l, !dot_comb_r.
      destruct (Nat.lt_ge_cases i m) as [Hi|Hi].
      - rewrite !Nat.min_l by lia. assert (dot n (sp (q i)) (A (sp (q j))) = 0) as ->.
        { apply (iv_pp n A (prec_op prec) b (guess n x0) i); auto. apply HI. lia. }
        lra.
      - assert (a = 0) as -> by (rewrite Ha by auto; reflexivity). lra. }
    intros i j Hij. destruct (Nat.lt_ge_cases j i) as [Hl|Hl]; [apply G; auto|].
    rewrite SA, dot_comm. apply G. lia.
  - intros i xs y c Hxs Hy. unfold energy.
    set (e := comb n 1 xs (-1) (X i)). set (w := comb n 1 y (-1) (X i)).
    assert (comb n 1 xs (-1) y = comb n 1 e (-1) w) as ->.
    { unfold comb. apply tab_ext. intros l Hl. unfold e, w. rewrite !rat_comb by auto. lra. }
    assert (HAe : A e = true_residual n A b (X i)).
    { unfold e. rewrite linA, Hxs. reflexivity. }
    assert (Hw : dot n (A e) w = 0).
    { rewrite HAe. rewrite (dot_lin_sum n i c (fun j l => rat (X (S j)) l - rat (X j) l)).
      2: { intros l Hl. unfold w. rewrite rat_comb, Hy by auto. lra. }
      apply rsum_zero. intros j Hj. destruct (Hinc j) as (a & Ha & Ej).
      rewrite (rsum_ext n _ (fun l => a * (rat (true_residual n A b (X i)) l * rat (sp (q (Nat.min j m))) l))).
      2: { intros l Hl. rewrite Ej by auto. lra. }
      rewrite rsum_scal. fold (dot n (true_residual n A b (X i)) (sp (q (Nat.min j m)))).
      destruct (Nat.lt_ge_cases j m) as [Hjm|Hjm].
      - unfold X. rewrite ER. assert (dot n (sr (q (Nat.min i m))) (sp (q (Nat.min j m))) = 0) as ->.
        { apply (iv_rp n A (prec_op prec) b (guess n x0) (Nat.min i m)); [apply HI; lia|lia]. }
        lra.
      - assert (a = 0) as -> by (rewrite Ha by auto; reflexivity). lra. }
    rewrite linA, dot_comb_l, !dot_comb_r, (dot_comm n w (A e)), (SA e w), Hw.
    assert (0 <= dot n w (A w)); [|lra].
    destruct (zero_dec n w) as [Z|Z]; [rewrite dot_zero_l by auto; lra|]. left. apply PA. auto.
Qed.
