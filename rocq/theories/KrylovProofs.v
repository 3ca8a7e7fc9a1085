From Verif Require Import LinR KrylovModel KrylovSpec.
Set Default Proof Using "Type".

Lemma bind_ok {X Y} (m : res X) (f : X -> res Y) y : bind m f = Ok y -> exists x, m = Ok x /\ f x = Ok y.
Proof. destruct m; cbn; intros H; [eauto|discriminate]. Qed.

Section Lists.
Local Close Scope R_scope.
Lemma last_app1 {X} (l : list X) a d : last (l ++ [a]) d = a.
Proof. induction l as [|b l IH]; cbn; auto. rewrite IH. destruct (l ++ [a]) eqn:E; auto. destruct l; discriminate. Qed.
End Lists.

Section Res.
  Variables (n : nat) (A : vec -> vec) (b : vec).
  Hypothesis lin : linear n A.
  Hypothesis Hb : length b = n.

  Lemma residual_true x : residual n A x b = true_residual n A b x.
  Proof. unfold residual, true_residual, comb. apply tab_ext. intros. lra. Qed.

  Lemma start_guess x0 : fst (start n A x0 b) = guess n x0.
  Proof. destruct x0; reflexivity. Qed.
  Lemma start_res x0 : snd (start n A x0 b) = true_residual n A b (guess n x0).
  Proof using lin Hb.
    destruct x0 as [x|]; cbn [start guess snd]; [apply residual_true|].
    unfold true_residual. rewrite (lin_zero n A lin). apply (rvec_ext n); auto using comb_length.
    intros i Hi. rewrite rat_comb by auto. rewrite rat_vzero. lra.
  Qed.

  Lemma step_res x p alpha :
    comb n 1 (true_residual n A b x) (- alpha) (A p) = true_residual n A b (comb n 1 x alpha p).
  Proof using lin.
    destruct lin as [_ H]. unfold true_residual. rewrite H. unfold comb at 1 3. apply tab_ext.
    intros i Hi. rewrite !rat_comb by auto. lra.
  Qed.
End Res.

Lemma first_crit prec inner norm use2norm r : (forall v, norm v = sqrt (inner v v)) ->
  snd (cg_first prec inner norm use2norm r) = criterion prec inner norm use2norm r.
Proof. intros Hnorm. unfold cg_first, criterion. destruct prec; cbn; auto. Qed.
Lemma beta_crit prec inner norm use2norm r :
  snd (fst (cg_beta prec inner norm use2norm r)) = criterion prec inner norm use2norm r.
Proof. unfold cg_beta, criterion. destruct prec; cbn; auto. Qed.

Section CG1.
  Variables (n : nat) (A : vec -> vec) (prec : option (vec -> vec)).
  Variables (inner : vec -> vec -> R) (norm : vec -> R) (use2norm : bool) (b : vec).
  Hypothesis lin : linear n A.
  Hypothesis Hb : length b = n.
  Hypothesis Hnorm : forall v, norm v = sqrt (inner v v).

  Let crit x := criterion prec inner norm use2norm (true_residual n A b x).

  Let loop := cg_loop n A prec inner norm use2norm b.

  (** The loop started from iterate [x] with true residual. *)
  Lemma cg_loop_spec tol : forall fuel i k x r p bo rs0 it y rs,
    r = true_residual n A b x ->
    loop tol fuel i k x r p bo rs0 = Ok (it, y, rs) ->
    exists xs, (length xs <= fuel)%nat /\ last (x :: xs) x = y /\ rs = rs0 ++ map crit xs /\
      (forall j, (S j < length xs)%nat -> ~ crit (nth j xs x) <= tol) /\
      ((length xs < fuel)%nat -> crit y <= tol) /\
      (xs <> [] /\ crit y <= tol /\ S it = (i + length xs)%nat \/
       (xs <> [] -> ~ crit y <= tol) /\ length xs = fuel /\ it = (i + fuel)%nat) /\
      (forall j, (j <= length xs)%nat -> exists it',
         loop tol j i k x r p bo rs0 = Ok (it', nth j (x :: xs) x, rs0 ++ map crit (firstn j xs))).
  Proof using lin.
    clear Hb Hnorm.
    induction fuel as [|fuel IH]; intros i k x r p bo rs0 it y rs Hr H; cbn [loop cg_loop] in H.
    - injection H as <- <- <-. exists []. cbn [length]. split; [lia|]. split; [reflexivity|].
      split; [cbn; rewrite app_nil_r; auto|]. split; [intros; lia|]. split; [intros; lia|]. split.
      + right. split; [intros H; elim H; reflexivity|]. split; [reflexivity|lia].
      + intros j Hj. assert (j = 0)%nat by lia. subst j. exists i. cbn. rewrite app_nil_r. reflexivity.
    - apply bind_ok in H as (alpha & Ha & H).
      set (x' := comb n 1 x alpha p) in *.
      assert (Hr' : comb n 1 r (- alpha) (A p) = true_residual n A b x').
      { rewrite Hr. apply step_res. auto. }
      set (k' := if (k =? 50)%nat then 0%nat else k).
      assert (Hrk : (if (k =? 50)%nat then (residual n A x' b, O) else (comb n 1 r (- alpha) (A p), k))
          = (true_residual n A b x', k')).
      { unfold k'. destruct (k =? 50)%nat; [rewrite residual_true|rewrite Hr']; reflexivity. }
      rewrite Hrk in H. pose proof (beta_crit prec inner norm use2norm (true_residual n A b x')) as Hc. fold (crit x') in Hc.
      destruct (cg_beta prec inner norm use2norm (true_residual n A b x')) as [[beta cc] z] eqn:Eb.
      cbn [fst snd] in Hc. subst cc.
      destruct (Rle_dec (crit x') tol) as [Hle|Hgt].
      + injection H as <- <- <-. exists [x']. cbn [length]. split; [lia|]. split; [reflexivity|].
        split; [reflexivity|]. split; [intros; lia|]. split; [auto|]. split.
        * left. split; [discriminate|]. split; auto. lia.
        * intros j Hj. destruct j as [|[|j]]; [| |lia].
          -- exists i. cbn [nth firstn map]. rewrite app_nil_r. reflexivity.
          -- exists i. unfold loop. cbn [cg_loop]. rewrite Ha. cbn [bind]. fold x'. rewrite Hrk, Eb.
             destruct (Rle_dec (crit x') tol); [|contradiction]. reflexivity.
      + apply bind_ok in H as (temp & Ht & H).
        destruct (IH _ _ _ _ _ _ _ _ _ _ eq_refl H) as (xs & Hl & Hla & Hrs & Hn & Hs & Hit & Hpre).
        exists (x' :: xs). cbn [length].
        assert (Hla' : last (x :: x' :: xs) x = y).
        { rewrite <- Hla. change (last (x :: x' :: xs) x) with (last (x' :: xs) x).
          clear. induction xs as [|a xs IHx] using rev_ind; auto.
          rewrite !app_comm_cons, !last_app1. auto. }
        split; [lia|]. split; [auto|]. split; [|split; [|split; [|split]]].
        * rewrite Hrs, <- app_assoc. reflexivity.
        * intros j Hj. destruct j as [|j]; cbn [nth]; auto. rewrite (nth_indep xs x x') by lia. apply Hn. lia.
        * intros Hlt. apply Hs. lia.
        * destruct Hit as [(Hne & Hm & Hi)|(Hm & Hi & Hi')].
          -- left. split; [discriminate|]. split; auto. lia.
          -- right. split; [|split; lia]. intros _. destruct xs as [|a xs]; [|apply Hm; discriminate].
             cbn in Hla. subst y. auto.
        * intros j Hj. destruct j as [|j].
          -- exists i. cbn [nth firstn map]. rewrite app_nil_r. reflexivity.
          -- destruct (Hpre j ltac:(lia)) as (it' & E'). exists it'. unfold loop. cbn [cg_loop].
             rewrite Ha. cbn [bind]. fold x'. rewrite Hrk, Eb.
             destruct (Rle_dec (crit x') tol); [contradiction|]. rewrite Ht. cbn [bind]. fold loop. rewrite E'.
             cbn [nth firstn map]. rewrite <- app_assoc. cbn [app].
             destruct j as [|j]; auto. cbn [nth]. rewrite (nth_indep xs x' x) by lia. reflexivity.
  Qed.

  Lemma cg_thm x0 rel tolerance maxiter it y rs :
    cg_solve n A prec inner norm use2norm b x0 rel tolerance maxiter = Ok (it, y, rs) ->
    let init := guess n x0 in
    let tol := tol_of rel tolerance norm (true_residual n A b init) in
    exists xs, 
      explains (fun c => c <= tol) crit crit init y (if Rle_dec (crit init) tol then 0%nat else maxiter) xs rs /\
      (length rs = 1%nat \/ ~ crit init <= tol) /\
      (it <= maxiter)%nat /\
      ((1 < length rs)%nat /\ crit y <= tol -> (it + 2 = length rs)%nat) /\
      (length rs = 1%nat \/ ~ crit y <= tol -> (it + 1 = length rs)%nat) /\
      (forall j, (j < length xs)%nat -> exists it',
         cg_solve n A prec inner norm use2norm b x0 rel tolerance j = Ok (it', nth j xs init, firstn (S j) rs)).
  Proof using lin Hb Hnorm.
    intros H init tol. unfold cg_solve in *.
    pose proof (start_guess n A b x0) as Hg. pose proof (start_res n A b lin Hb x0) as Hr.
    destruct (start n A x0 b) as [x r]. cbn [fst snd] in Hg, Hr. fold init in Hg, Hr. subst x r.
    change (tolerance_of rel tolerance norm (true_residual n A b init)) with tol in *.
    pose proof (first_crit prec inner norm use2norm (true_residual n A b init) Hnorm) as Hc. fold (crit init) in Hc.
    destruct (cg_first prec inner norm use2norm (true_residual n A b init)) as [[p bo] cc].
    cbn [snd] in Hc. subst cc.
    destruct (Rle_dec (crit init) tol) as [Hle|Hgt].
    - injection H as <- <- <-. exists [init]. split; [exists []; cbn; repeat split; auto; lia|].
      split; auto. split; [lia|]. split; [cbn [length]; lia|]. split; [reflexivity|]. intros j Hj. cbn [length] in Hj. assert (j = 0)%nat by lia. subst j. exists 0%nat.
      reflexivity.
    - destruct (cg_loop_spec tol maxiter 0 0 init _ p bo [crit init] it y rs eq_refl H)
        as (xs & Hl & Hla & Hrs & Hn & Hs & Hit & Hpre).
      assert (Hlen : length rs = S (length xs)) by (rewrite Hrs; cbn [app length]; rewrite map_length; auto).
      exists (init :: xs). split; [|split; [|split; [|split; [|split]]]].
      + exists xs. split; auto.
      + auto.
      + destruct Hit as [(Hne & _ & Hi)|(_ & _ & Hi)]; lia.
      + intros [Hl1 Hy]. destruct Hit as [(Hne & _ & Hi)|(Hi & _ & _)]; [lia|]. exfalso. apply Hi; auto.
        intros E. rewrite E in Hlen. cbn in Hlen. lia.
      + intros Hor. destruct Hit as [(Hne & Hy & Hi)|(_ & Hf & Hi)]; [|lia].
        destruct Hor as [Hor|Hor]; [|contradiction]. destruct xs; [elim Hne; auto|]. cbn [length] in Hlen. lia.
      + intros j Hj. cbn [length] in Hj. destruct (Hpre j ltac:(lia)) as (it' & E). exists it'. fold loop. rewrite E, Hrs.
        cbn [app]. rewrite !firstn_cons, firstn_map. reflexivity.
  Qed.
End CG1.
