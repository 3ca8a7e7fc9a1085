(** BiCGStab. *)
From Verif Require Import LinR KrylovModel KrylovSpec KrylovProofs.
Set Default Proof Using "Type".
Open Scope R_scope.

Section Bi.
  Variables (n : nat) (A : vec -> vec) (prec : option (vec -> vec)).
  Variables (inner : vec -> vec -> R) (norm : vec -> R) (b : vec).
  Hypothesis lin : linear n A.
  Hypothesis Hb : length b = n.

  Let crit x := norm (true_residual n A b x).
  Let loop := bi_loop n A prec inner norm.

  Lemma bi_step_res x p2 s2 alpha omega :
    comb n 1 (comb n 1 (true_residual n A b x) (- alpha) (A p2)) (- omega) (A s2)
    = true_residual n A b (comb n 1 x 1 (comb n alpha p2 omega s2)).
  Proof using lin.
    destruct lin as [_ H]. unfold true_residual. rewrite !H. unfold comb at 1 4. apply tab_ext.
    intros i Hi. rewrite !rat_comb by auto. lra.
  Qed.

  Lemma bi_loop_spec tol r0 : forall fuel k x r p kappa rs0 it y rs,
    r = true_residual n A b x ->
    loop tol r0 fuel k x r p kappa rs0 = Ok (it, y, rs) ->
    exists xs, (length xs <= fuel)%nat /\ last (x :: xs) x = y /\ rs = rs0 ++ map crit xs /\
      (forall j, (S j < length xs)%nat -> ~ crit (nth j xs x) < tol) /\
      ((length xs < fuel)%nat -> crit y < tol) /\
      (it <= k + fuel)%nat /\
      (forall j, (j <= length xs)%nat -> exists it',
         loop tol r0 j k x r p kappa rs0 = Ok (it', nth j (x :: xs) x, rs0 ++ map crit (firstn j xs))).
  Proof using lin.
    clear Hb.
    induction fuel as [|fuel IH]; intros k x r p kappa rs0 it y rs Hr H; cbn [loop bi_loop] in H.
    - injection H as <- <- <-. exists []. cbn [length]. split; [lia|]. split; [reflexivity|].
      split; [cbn; rewrite app_nil_r; auto|]. split; [intros; lia|]. split; [intros; lia|]. split; [lia|].
      intros j Hj. assert (j = 0)%nat by lia. subst j. exists k. cbn. rewrite app_nil_r. reflexivity.
    - apply bind_ok in H as (alpha & Ha & H). apply bind_ok in H as (omega & Ho & H).
      set (p2 := bi_prec prec p) in *. set (s := comb n 1 r (- alpha) (A p2)) in *.
      set (s2 := bi_prec prec s) in *.
      set (x' := comb n 1 x 1 (comb n alpha p2 omega s2)) in *.
      assert (Hr' : comb n 1 s (- omega) (A s2) = true_residual n A b x').
      { unfold s. rewrite Hr. apply bi_step_res. }
      rewrite Hr' in H. fold (crit x') in H.
      destruct (Rlt_dec (crit x') tol) as [Hle|Hgt].
      + injection H as <- <- <-. exists [x']. cbn [length]. split; [lia|]. split; [reflexivity|].
        split; [reflexivity|]. split; [intros; lia|]. split; [auto|]. split; [lia|].
        intros j Hj. destruct j as [|[|j]]; [| |lia].
        * exists k. cbn [nth firstn map]. rewrite app_nil_r. reflexivity.
        * exists k. unfold loop. cbn [bi_loop]. fold p2. rewrite Ha. cbn [bind]. fold s. fold s2.
          rewrite Ho. cbn [bind]. fold x'. rewrite Hr'. fold (crit x').
          destruct (Rlt_dec (crit x') tol); [|contradiction]. reflexivity.
      + apply bind_ok in H as (q & Hq & H). apply bind_ok in H as (beta & Hbeta & H).
        destruct (IH _ _ _ _ _ _ _ _ _ eq_refl H) as (xs & Hl & Hla & Hrs & Hn & Hs & Hit & Hpre).
        exists (x' :: xs). cbn [length].
        assert (Hla' : last (x :: x' :: xs) x = y).
        { rewrite <- Hla. change (last (x :: x' :: xs) x) with (last (x' :: xs) x).
          clear. induction xs as [|a xs IHx] using rev_ind; auto.
          rewrite !app_comm_cons, !last_app1. auto. }
        split; [lia|]. split; [auto|]. split; [|split; [|split; [|split]]].
        * rewrite Hrs, <- app_assoc. reflexivity.
        * intros j Hj. destruct j as [|j]; cbn [nth]; auto. rewrite (nth_indep xs x x') by lia. apply Hn. lia.
        * intros Hlt. apply Hs. lia.
        * lia.
        * intros j Hj. destruct j as [|j].
          -- exists k. cbn [nth firstn map]. rewrite app_nil_r. reflexivity.
          -- destruct (Hpre j ltac:(lia)) as (it' & E'). exists it'. unfold loop. cbn [bi_loop].
             fold p2. rewrite Ha. cbn [bind]. fold s. fold s2. rewrite Ho. cbn [bind]. fold x'. rewrite Hr'. fold (crit x').
             destruct (Rlt_dec (crit x') tol); [contradiction|]. rewrite Hq. cbn [bind]. rewrite Hbeta. cbn [bind].
             fold loop. rewrite E'.
             cbn [nth firstn map]. rewrite <- app_assoc. cbn [app].
             destruct j as [|j]; auto. cbn [nth]. rewrite (nth_indep xs x' x) by lia. reflexivity.
  Qed.

  Lemma bi_thm x0 rel tolerance maxiter it y rs :
    bicgstab_solve n A prec inner norm b x0 rel tolerance maxiter = Ok (it, y, rs) ->
    let init := guess n x0 in
    let tol := tol_of rel tolerance norm (true_residual n A b init) in
    exists xs,
      explains (fun c => c < tol)
        (fun x => let r := true_residual n A b x in sqrt (inner r (prec_op prec r))) crit init y maxiter xs rs /\
      (it <= maxiter)%nat /\
      (forall j, (j < length xs)%nat -> exists it',
         bicgstab_solve n A prec inner norm b x0 rel tolerance j = Ok (it', nth j xs init, firstn (S j) rs)).
  Proof using lin Hb.
    intros H init tol. unfold bicgstab_solve in *.
    pose proof (start_guess n A b x0) as Hg. pose proof (start_res n A b lin Hb x0) as Hr.
    destruct (start n A x0 b) as [x r]. cbn [fst snd] in Hg, Hr. fold init in Hg, Hr. subst x r.
    change (tolerance_of rel tolerance norm (true_residual n A b init)) with tol in *.
    destruct (bi_loop_spec tol _ maxiter 0 init _ _ _ _ it y rs eq_refl H)
      as (xs & Hl & Hla & Hrs & Hn & Hs & Hit & Hpre).
    exists (init :: xs). split; [|split].
    - exists xs. repeat apply conj; auto.
    - auto.
    - intros j Hj. cbn [length] in Hj. destruct (Hpre j ltac:(lia)) as (it' & E). exists it'. fold loop. rewrite E, Hrs.
      cbn [app]. rewrite !firstn_cons, firstn_map. reflexivity.
  Qed.
End Bi.

(** * Breakdown *)
Lemma rdiv_zero a : rdiv a 0 = Err EDiv0.
Proof. unfold rdiv. destruct (Req_EM_T 0 0); [reflexivity|contradiction]. Qed.
Lemma rdiv_ok a c : c <> 0 -> rdiv a c = Ok (a / c).
Proof. intros H. unfold rdiv. destruct (Req_EM_T c 0); [contradiction|reflexivity]. Qed.

Lemma bi_exact_guess n A b x0 rel tolerance maxiter :
  linear n A -> length b = n ->
  (forall i, (i < n)%nat -> rat (true_residual n A b (guess n x0)) i = 0) -> (0 < maxiter)%nat ->
  bicgstab_solve n A None (dot n) (eucl n) b x0 rel tolerance maxiter = Err EDiv0.
Proof.
  intros lin Hb Hz Hm. unfold bicgstab_solve.
  pose proof (start_res n A b lin Hb x0) as Hr.
  destruct (start n A x0 b) as [x r]. cbn [fst snd] in Hr. subst r.
  destruct maxiter as [|m]; [lia|]. cbn [bi_loop bi_prec].
  rewrite (dot_zero_r n (A (true_residual n A b (guess n x0))) (true_residual n A b (guess n x0))) by auto.
  rewrite rdiv_zero. reflexivity.
Qed.

Lemma bi_scalar n c b x0 rel tolerance maxiter :
  (0 < maxiter)%nat ->
  bicgstab_solve n (fun v => comb n c v 0 v) None (dot n) (eucl n) b x0 rel tolerance maxiter = Err EDiv0.
Proof.
  intros Hm. unfold bicgstab_solve.
  set (A := fun v => comb n c v 0 v).
  assert (lin : linear n A).
  { split; [intros; apply comb_length|]. intros a x a' y. unfold A, comb. apply tab_ext. intros i Hi. rewrite !rat_tab by auto. lra. }
  assert (Hdot : forall v w, dot n (A v) w = c * dot n v w).
  { intros. unfold A. rewrite dot_comb_l. lra. }
  destruct (start n A x0 b) as [x r]. destruct maxiter as [|m]; [lia|]. cbn [bi_loop bi_prec].
  rewrite Hdot. destruct (Req_EM_T (c * dot n r r) 0) as [E|E].
  - rewrite E, rdiv_zero. reflexivity.
  - rewrite rdiv_ok by auto. cbn [bind].
    set (s := comb n 1 r (- (dot n r r / (c * dot n r r))) (A r)).
    assert (Hc : c <> 0 /\ dot n r r <> 0) by (split; intros E'; apply E; rewrite E'; lra).
    assert (Hs : forall i, (i < n)%nat -> rat s i = 0).
    { intros i Hi. unfold s, A. rewrite !rat_comb by auto. field. tauto. }
    assert (Hn : eucl n (A s) = 0).
    { unfold eucl. rewrite Hdot, (dot_zero_l n s) by auto. rewrite Rmult_0_r. apply sqrt_0. }
    rewrite Hn, Rmult_0_r, rdiv_zero. reflexivity.
Qed.
