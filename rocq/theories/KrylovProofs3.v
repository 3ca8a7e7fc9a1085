(** Conjugate gradients for symmetric positive definite operators. *)
From Verif Require Import LinR KrylovModel KrylovSpec KrylovProofs KrylovProofs2.
Set Default Proof Using "Type".
Open Scope R_scope.

Section Seq.
  Variables (n : nat) (A : vec -> vec) (B : vec -> vec) (b : vec) (x0 : vec).
  Hypothesis spdA : spd n A.
  Hypothesis symB : forall x y, dot n x (B y) = dot n (B x) y.
  Hypothesis posB : posdef n B.

  Let linA : linear n A. Proof using spdA. apply spdA. Qed.
  Let symA : sym_op n A. Proof using spdA. apply spdA. Qed.
  Let posA : posdef n A. Proof using spdA. apply spdA. Qed.

  Record st := St { sx : vec; sr : vec; sp : vec; sb : R }.
  Definition al (s : st) : R := sb s / dot n (sp s) (A (sp s)).
  Definition step (s : st) : st :=
    let x := comb n 1 (sx s) (al s) (sp s) in
    let r := comb n 1 (sr s) (- al s) (A (sp s)) in
    let z := B r in
    let be := dot n r z in
    St x r (comb n (be / sb s) (sp s) 1 z) be.
  Definition s0 : st :=
    let r := true_residual n A b x0 in St x0 r (B r) (dot n r (B r)).
  Fixpoint sq (k : nat) : st := match k with O => s0 | S k => step (sq k) end.

  Let r k := sr (sq k).
  Let p k := sp (sq k).
  Let x k := sx (sq k).
  Let z k := B (r k).
  Let nz k := exists i, (i < n)%nat /\ rat (r k) i <> 0.

  Lemma sb_eq k : sb (sq k) = dot n (r k) (z k).
  Proof. destruct k; reflexivity. Qed.
  Lemma res_eq k : r k = true_residual n A b (x k).
  Proof using spdA.
    induction k as [|k IH]; [reflexivity|].
    unfold r, x. cbn [sq step sr sx]. fold (r k). rewrite IH. apply step_res. auto.
  Qed.

  Record inv (i : nat) : Prop := Inv {
    iv_rp : forall j, (j < i)%nat -> dot n (r i) (p j) = 0;
    iv_rz : forall j, (j < i)%nat -> dot n (r i) (z j) = 0;
    iv_pp : forall j, (j < i)%nat -> dot n (p i) (A (p j)) = 0;
    iv_d  : dot n (r i) (p i) = sb (sq i) }.

  Lemma nz_pos i : inv i -> nz i -> 0 < sb (sq i) /\ 0 < dot n (p i) (A (p i)).
  Proof using spdA posB.
    intros Hi Hn. assert (Hs : 0 < sb (sq i)) by (rewrite sb_eq; apply posB; auto).
    split; auto. apply posA. destruct (zero_dec n (p i)) as [Z|Z]; auto. exfalso.
    pose proof (iv_d i Hi) as E. rewrite (dot_zero_r n (r i) (p i) Z) in E. lra.
  Qed.

  Lemma inv_step i : (forall j, (j <= i)%nat -> inv j) -> (forall j, (j <= i)%nat -> nz j) -> inv (S i).
  Proof using spdA posB symB.
    intros HI Hn.
    assert (Hpos : forall j, (j <= i)%nat -> 0 < sb (sq j) /\ 0 < dot n (p j) (A (p j))).
    { intros j Hj. apply nz_pos; auto. }
    assert (Hr : forall j, r (S j) = comb n 1 (r j) (- al (sq j)) (A (p j))) by reflexivity.
    assert (Hp : forall j, p (S j) = comb n (sb (sq (S j)) / sb (sq j)) (p j) 1 (z (S j))) by reflexivity.
    assert (Hal : forall j, (j <= i)%nat -> al (sq j) <> 0).
    { intros j Hj. unfold al. fold (p j). destruct (Hpos j Hj). apply Rgt_not_eq, Rdiv_lt_0_compat; auto. }
    (* (r_{i+1}, p_j) *)
    assert (H1 : forall j, (j < S i)%nat -> dot n (r (S i)) (p j) = 0).
    { intros j Hj. rewrite Hr, dot_comb_l. destruct (Nat.eq_dec j i) as [->|Hne].
      - rewrite (iv_d i (HI i (le_n i))), (dot_comm n (A (p i))). unfold al. fold (p i).
        destruct (Hpos i (le_n i)). field. lra.
      - rewrite (iv_rp i (HI i (le_n i)) j) by lia.
        rewrite <- symA, (iv_pp i (HI i (le_n i)) j) by lia. lra. }
    (* (r_{i+1}, z_j) *)
    assert (H2 : forall j, (j < S i)%nat -> dot n (r (S i)) (z j) = 0).
    { intros j Hj. destruct j as [|j].
      - apply (H1 0%nat). lia.
      - pose proof (H1 (S j) Hj) as E. rewrite Hp, dot_comb_r in E. rewrite (H1 j) in E by lia. lra. }
    assert (H4 : dot n (r (S i)) (p (S i)) = sb (sq (S i))).
    { rewrite Hp, dot_comb_r, H1, sb_eq by lia. lra. }
    constructor; auto.
    (* conjugacy *)
    intros j Hj. rewrite Hp, dot_comb_l.
    assert (HAp : dot n (z (S i)) (A (p j)) = (dot n (z (S i)) (r j) - dot n (z (S i)) (r (S j))) / al (sq j)).
    { rewrite (Hr j), dot_comb_r. field. apply Hal. lia. }
    rewrite HAp.
    assert (Hzr : forall k, dot n (z (S i)) (r k) = dot n (r (S i)) (z k)).
    { intros k. unfold z at 1. rewrite <- symB. reflexivity. }
    rewrite !Hzr, (H2 j) by auto.
    destruct (Nat.eq_dec j i) as [->|Hne].
    - rewrite <- sb_eq. unfold al. fold (p i). destruct (Hpos i (le_n i)). field. lra.
    - rewrite (H2 (S j)), (iv_pp i (HI i (le_n i)) j) by lia. unfold Rdiv. lra.
  Qed.

  Lemma inv_0 : inv 0.
  Proof. constructor; try (intros; lia). reflexivity. Qed.

  Lemma inv_all m : (forall j, (j < m)%nat -> nz j) -> forall i, (i <= m)%nat -> inv i.
  Proof using spdA posB symB.
    intros Hn. induction i as [i IH] using lt_wf_ind. intros Hi. destruct i as [|i]; [apply inv_0|].
    apply inv_step; intros j Hj; [apply IH; lia|apply Hn; lia].
  Qed.

  (** Some residual among the first n + 1 vanishes. *)
  Lemma vanishes : exists m, (m <= n)%nat /\ (forall j, (j < m)%nat -> nz j) /\
    forall i, (i < n)%nat -> rat (r m) i = 0.
  Proof using spdA posB symB.
    assert (D : forall q, (exists m, (m < q)%nat /\ (forall j, (j < m)%nat -> nz j) /\ forall i, (i < n)%nat -> rat (r m) i = 0)
        \/ forall j, (j < q)%nat -> nz j).
    { induction q as [|q [(m & Hm & H)|IH]].
      - right. intros; lia.
      - left. exists m. split; [lia|auto].
      - destruct (zero_dec n (r q)) as [Z|Z].
        + left. exists q. auto.
        + right. intros j Hj. destruct (Nat.eq_dec j q); subst; auto. apply IH. lia. }
    destruct (D (S n)) as [(m & Hm & H)|Hn]; [exists m; split; [lia|auto]|]. exfalso.
    destruct (dependent n (S n) (fun k i => rat (p k) i) ltac:(lia)) as (c & (k0 & Hk0 & Hc) & H0).
    assert (HI : forall i, (i < S n)%nat -> inv i) by (intros; apply (inv_all (S n)); auto; lia).
    assert (E : forall w, rsum (S n) (fun k => c k * dot n (p k) w) = 0).
    { intros w. unfold dot.
      rewrite (rsum_ext _ _ (fun k => rsum n (fun i => c k * rat (p k) i * rat w i))).
      2: { intros k Hk. rewrite <- rsum_scal. apply rsum_ext. intros. lra. }
      rewrite rsum_swap. apply rsum_zero. intros i Hi.
      rewrite (rsum_ext _ _ (fun k => rat w i * (c k * rat (p k) i))) by (intros; lra).
      rewrite rsum_scal, H0 by auto. lra. }
    specialize (E (A (p k0))). rewrite (rsum_delta (S n) k0) in E; auto.
    - destruct (nz_pos k0 (HI k0 Hk0) (Hn k0 Hk0)). apply Rmult_integral in E. destruct E; [auto|lra].
    - intros k Hk Hne. destruct (Nat.lt_ge_cases k k0) as [Hl|Hl].
      + rewrite symA, dot_comm, (iv_pp k0 (HI k0 Hk0) k Hl). lra.
      + rewrite (iv_pp k (HI k Hk) k0) by lia. lra.
  Qed.
End Seq.

Lemma eucl_sq n v : eucl n v * eucl n v = dot n v v.
Proof. apply sqrt_sqrt, dot_self_nonneg. Qed.
Lemma eucl_zero n v : eucl n v <= 0 -> forall i, (i < n)%nat -> rat v i = 0.
Proof.
  intros H. apply dot_self_zero. rewrite <- eucl_sq. pose proof (sqrt_pos (dot n v v)). unfold eucl in *.
  assert (sqrt (dot n v v) = 0) as -> by lra. lra.
Qed.

Set Default Proof Using "All".
Section Run.
  Variables (n : nat) (A : vec -> vec) (prec : option (vec -> vec)) (use2norm : bool) (b : vec).
  Hypothesis spdA : spd n A.
  Hypothesis precOk : forall B, prec = Some B -> sym_op n B /\ posdef n B.
  Hypothesis Hb : length b = n.
  Let B := prec_op prec.
  Let crit := criterion prec (dot n) (eucl n) use2norm.

  Lemma symB : forall x y, dot n x (B y) = dot n (B x) y.
  Proof. intros x y. unfold B, prec_op. destruct prec as [B'|]; [apply precOk; auto|reflexivity]. Qed.
  Lemma posB : posdef n B.
  Proof.
    unfold B, prec_op. destruct prec as [B'|]; [apply precOk; auto|].
    intros x (i & Hi & E). pose proof (dot_self_nonneg n x). destruct (Req_EM_T (dot n x x) 0) as [Z|Z]; [|lra].
    elim E. apply (dot_self_zero n x Z i Hi).
  Qed.

  Lemma crit_zero r : (forall i, (i < n)%nat -> rat r i = 0) -> crit r = 0.
  Proof.
    intros H. unfold crit, criterion, eucl. destruct prec as [B'|]; [destruct use2norm|];
    rewrite (dot_zero_l n r) by auto; apply sqrt_0.
  Qed.
  Lemma crit_nonpos r : crit r <= 0 -> forall i, (i < n)%nat -> rat r i = 0.
  Proof.
    intros H. pose proof posB as PB. unfold crit, criterion in H. unfold B, prec_op in PB.
    destruct prec as [B'|]; [destruct use2norm|]; try (apply eucl_zero; exact H).
    destruct (zero_dec n r) as [Z|Z]; auto. specialize (PB r Z). exfalso.
    pose proof (sqrt_lt_R0 _ PB). lra.
  Qed.
  Lemma beta_eq r : cg_beta prec (dot n) (eucl n) use2norm r = (dot n r (B r), crit r, B r).
  Proof.
    unfold cg_beta, crit, criterion, B, prec_op. destruct prec; [reflexivity|]. rewrite eucl_sq. reflexivity.
  Qed.
  Lemma first_eq r : cg_first prec (dot n) (eucl n) use2norm r = (B r, dot n r (B r), crit r).
  Proof. unfold cg_first, crit, criterion, B, prec_op. destruct prec; reflexivity. Qed.

  Section From.
    Variable x0 : vec.
    Let q := sq n A B b x0.
    Let nz k := exists i, (i < n)%nat /\ rat (sr (q k)) i <> 0.
    Variable m : nat.
    Hypothesis Hm : forall j, (j < m)%nat -> nz j.
    Hypothesis Hz : forall i, (i < n)%nat -> rat (sr (q m)) i = 0.

    Lemma loop_follow tol : 0 <= tol -> forall fuel i it kk rs, (i < m)%nat ->
      exists d it', (d <= fuel)%nat /\ (i + d <= m)%nat /\
        cg_loop n A prec (dot n) (eucl n) use2norm b tol fuel it kk (sx (q i)) (sr (q i)) (sp (q i)) (sb (q i)) rs
          = Ok (it', sx (q (i + d)), rs ++ map (fun e => crit (sr (q (i + S e)))) (seq 0 d)) /\
        ((d < fuel)%nat -> crit (sr (q (i + d))) <= tol) /\
        (forall e, (0 < e < d)%nat -> ~ crit (sr (q (i + e))) <= tol).
    Proof.
      intros Ht. induction fuel as [|fuel IH]; intros i it kk rs Hi.
      - exists 0%nat, it. rewrite Nat.add_0_r. cbn [cg_loop seq map]. rewrite app_nil_r. repeat apply conj; auto; try lia; intros; lia.
      - cbn [cg_loop].
        pose proof (inv_all n A B b x0 spdA symB posB m Hm i ltac:(lia)) as HI.
        destruct (nz_pos n A B b x0 spdA posB i HI (Hm i Hi)) as [P1 P2]. fold q in P1, P2.
        rewrite rdiv_ok by lra. cbn [bind].
        change (comb n 1 (sx (q i)) (sb (q i) / dot n (sp (q i)) (A (sp (q i)))) (sp (q i))) with (sx (q (S i))).
        change (comb n 1 (sr (q i)) (- (sb (q i) / dot n (sp (q i)) (A (sp (q i))))) (A (sp (q i)))) with (sr (q (S i))).
        rewrite residual_true.
        assert (ER : true_residual n A b (sx (q (S i))) = sr (q (S i))) by (symmetry; apply (res_eq n A B b x0 spdA (S i))).
        rewrite ER.
        destruct (if (kk =? 50)%nat then (sr (q (S i)), 0%nat) else (sr (q (S i)), kk)) as [r kk'] eqn:Er.
        assert (r = sr (q (S i))) as -> by (destruct (kk =? 50)%nat; congruence).
        rewrite beta_eq. destruct (Rle_dec (crit (sr (q (S i)))) tol) as [Hle|Hgt].
        + exists 1%nat, it. rewrite Nat.add_1_r. cbn [seq map]. rewrite Nat.add_1_r. repeat apply conj; auto; try lia; intros; lia.
        + rewrite rdiv_ok by lra. cbn [bind].
          assert (Hi' : (S i < m)%nat).
          { destruct (Nat.eq_dec (S i) m) as [E|E]; [|lia]. exfalso. apply Hgt. rewrite E, crit_zero by auto. auto. }
          change (comb n (dot n (sr (q (S i))) (B (sr (q (S i)))) / sb (q i)) (sp (q i)) 1 (B (sr (q (S i))))) with (sp (q (S i))).
          replace (dot n (sr (q (S i))) (B (sr (q (S i))))) with (sb (q (S i))) by apply sb_eq.
          destruct (IH (S i) (S it) (S kk') (rs ++ [crit (sr (q (S i)))]) Hi') as (d & it' & H1 & H2 & H3 & H4 & H5).
          exists (S d), it'. split; [lia|]. split; [lia|]. split; [|split].
          * rewrite H3. rewrite Nat.add_succ_r. cbn [plus]. rewrite <- app_assoc. cbn [app seq map].
            rewrite Nat.add_1_r. do 4 f_equal. rewrite <- seq_shift, map_map. apply map_ext. intros e.
            do 3 f_equal. lia.
          * intros Hd. rewrite Nat.add_succ_r. apply H4. lia.
          * intros e He. destruct (Nat.eq_dec e 1) as [->|Hne]; [rewrite Nat.add_1_r; auto|].
            replace (i + e)%nat with (S i + (e - 1))%nat by lia. apply H5. lia.
    Qed.
  End From.

  Lemma cg_runs x0 rel tolerance : 0 <= tolerance ->
    let init := guess n x0 in
    let q := sq n A B b init in
    let tol := tol_of rel tolerance (eucl n) (true_residual n A b init) in
    exists m, (m <= n)%nat /\ (forall j, (j < m)%nat -> exists i, (i < n)%nat /\ rat (sr (q j)) i <> 0) /\
      (forall i, (i < n)%nat -> rat (sr (q m)) i = 0) /\
      forall maxiter, exists d it, (d <= maxiter)%nat /\ (d <= m)%nat /\
        cg_solve n A prec (dot n) (eucl n) use2norm b x0 rel tolerance maxiter
          = Ok (it, sx (q d), map (fun e => crit (sr (q e))) (seq 0 (S d))) /\
        ((d < maxiter)%nat -> crit (sr (q d)) <= tol) /\
        (forall e, (e < d)%nat -> ~ crit (sr (q e)) <= tol).
  Proof.
    intros Ht init q tol.
    destruct (vanishes n A B b init spdA symB posB) as (m & Hm & Hn & Hz). fold q in Hn, Hz.
    exists m. split; [auto|]. split; [auto|]. split; [auto|]. intros maxiter.
    assert (Htol : 0 <= tol).
    { unfold tol, tol_of. destruct rel; auto. apply Rmult_le_pos; auto. apply sqrt_pos. }
    unfold cg_solve.
    pose proof (start_guess n A b x0) as Hg. pose proof (start_res n A b (proj1 spdA) Hb x0) as Hr.
    destruct (start n A x0 b) as [x r]. cbn [fst snd] in Hg, Hr. fold init in Hg, Hr. subst x r.
    change (tolerance_of rel tolerance (eucl n) (true_residual n A b init)) with tol.
    rewrite first_eq. change (true_residual n A b init) with (sr (q 0%nat)).
    destruct (Rle_dec (crit (sr (q 0%nat))) tol) as [Hle|Hgt].
    - exists 0%nat, 0%nat. repeat apply conj; auto; try lia; intros; lia.
    - assert (Hm0 : (0 < m)%nat).
      { destruct (Nat.eq_dec m 0%nat) as [->|]; [|lia]. exfalso. apply Hgt. rewrite crit_zero by auto. auto. }
      destruct (loop_follow init m Hn Hz tol Htol maxiter 0%nat 0%nat 0%nat [crit (sr (q 0%nat))] Hm0)
        as (d & it & H1 & H2 & H3 & H4 & H5). fold q in H3, H4, H5.
      exists d, it. split; [auto|]. split; [auto|]. split; [|split].
      + change (B (sr (q 0%nat))) with (sp (q 0%nat)). change (dot n (sr (q 0%nat)) (sp (q 0%nat))) with (sb (q 0%nat)).
        change init with (sx (q 0%nat)). rewrite H3. cbn [seq map app plus]. rewrite <- seq_shift, map_map. reflexivity.
      + exact H4.
      + intros e He. destruct e as [|e]; auto. apply (H5 (S e)). lia.
  Qed.

  (** With tolerance 0 and limit j: the iterate j, or the solution. *)
  Lemma cg_exact x0 rel :
    let init := guess n x0 in
    let q := sq n A B b init in
    exists m, (m <= n)%nat /\ (forall i, (i <= m)%nat -> inv n A B b init i) /\
      (forall j, (j < m)%nat -> exists i, (i < n)%nat /\ rat (sr (q j)) i <> 0) /\
      (forall i, (i < n)%nat -> rat (sr (q m)) i = 0) /\
      forall j, exists it, cg_solve n A prec (dot n) (eucl n) use2norm b x0 rel 0 j
          = Ok (it, sx (q (Nat.min j m)), map (fun e => crit (sr (q e))) (seq 0 (S (Nat.min j m)))).
  Proof.
    intros init q. destruct (cg_runs x0 rel 0 (Rle_refl 0)) as (m & Hm & Hn & Hz & H).
    exists m. split; [auto|]. split; [apply (inv_all n A B b init spdA symB posB m Hn)|]. split; [auto|]. split; [auto|].
    intros j. destruct (H j) as (d & it & H1 & H2 & H3 & H4 & H5). exists it.
    assert (Ht : tol_of rel 0 (eucl n) (true_residual n A b (guess n x0)) = 0) by (unfold tol_of; destruct rel; lra).
    rewrite Ht in *. assert (d = Nat.min j m) as <-; [|exact H3].
    destruct (Nat.eq_dec d m) as [->|Hne]; [lia|]. destruct (Nat.eq_dec d j) as [->|Hnj]; [lia|]. exfalso.
    destruct (Hn d ltac:(lia)) as (i & Hi & E). apply E. apply (crit_nonpos (sr (sq n A B b (guess n x0) d))); auto. apply H4. lia.
  Qed.
End Run.
