(** Runs of GMRES. *)
From Coq Require Import Sorting.Sorted.
From Verif Require Import LinR KrylovModel KrylovSpec KrylovProofs KrylovProofs2 GMRESModel GMRESSpec GMRESProofs GMRESProofs2 GMRESProofs3.
Set Default Proof Using "Type".
Open Scope R_scope.

Section Solve.
  Variables (n : nat) (A : vec -> vec) (prec : option (vec -> vec)) (left flexible : bool).
  Variables (inner : vec -> vec -> R) (norm : vec -> R) (b : vec).
  Hypotheses (HA : linear n A) (HI : inner_product n inner) (HN : forall v, norm v = sqrt (inner v v)).
  Hypotheses (HS : supported n prec left flexible).
  Notation L := (gop A prec left).
  Notation dir := (gdir prec left).
  Notation rho := (gres n A prec left b).
  Notation Inv := (Inv n A prec left flexible inner).
  Notation least := (least n A prec left norm b).
  Notation run := (run n A prec left inner norm b eps).

  Lemma inv_start x w : 0 < norm (rho x) ->
    Inv (rho x) 0 (Work (put (w_Q w) 0 (scale n (1 / norm (rho x)) (rho x))) (w_Z w) (w_H w) (w_c w) (w_s w) (put (w_gamma w) 0 (norm (rho x))) (w_y w)).
  Proof using HA HI HN HS.
    intros P. pose proof (rho_length n A prec left flexible b HA HS x) as Lr. set (r := rho x) in *. set (g := norm r) in *.
    assert (Eg : inner r r = g * g) by (unfold g; rewrite HN, sqrt_sqrt; [reflexivity|apply (in_pos n inner HI); exact Lr]).
    constructor; cbn [w_Q w_Z w_H w_c w_s w_gamma w_y]; try (intros; lia).
    - intros j Hj. replace j with 0%nat by lia. rewrite put_same. apply tab_length.
    - intros j k Hj Hk. replace j with 0%nat by lia. replace k with 0%nat by lia. rewrite put_same, (scale_comb n), !(in_l n inner HI), !(in_r n inner HI), Eg. cbn [Nat.eqb]. field. lra.
    - exists (fun _ => g). apply (rvec_ext n); auto using lincomb_length. intros l Hl. rewrite rat_lincomb by auto. cbn [rsum]. rewrite put_same, (scale_comb n), rat_comb by auto. field. lra.
    - rewrite lincomb_O. cbn [wv]. rewrite !put_same. apply (rvec_ext n); auto using comb_length. intros l Hl. rewrite rat_comb, rat_vzero, (scale_comb n), rat_comb by auto. field. lra.
  Qed.

  Lemma restarts_ok tol maxiter : 0 < tol -> (0 < maxiter)%nat -> forall k allIter w x hd, length x = n -> hd <> [] ->
    exists rs o, run tol maxiter k x rs o /\
    forall y, o = Some y -> exists it c, gm_restarts n A prec left flexible inner norm b tol maxiter k false allIter w x hd = Ok (it, y, hd ++ rs) /\ (it + c = allIter + length rs)%nat /\ (c <= k)%nat /\ (rs <> [] -> 1 <= c)%nat.
  Proof using HA HI HN HS.
    intros Pt Pm. induction k as [|k IH]; intros allIter w x hd Lx Hh.
    - exists [], (Some x). split; [apply run_out|]. intros y E. injection E as <-. exists allIter, 0%nat. rewrite app_nil_r. split; [reflexivity|]. split; [reflexivity|]. split; [lia|]. intros C; contradiction C; reflexivity.
    - cbn [gm_restarts]. rewrite (residual_ok n A prec left b x). set (g := norm (rho x)).
      assert (G0 : 0 <= g) by (unfold g; rewrite HN; apply sqrt_pos).
      replace (match hd with [] => [Rabs (put (w_gamma w) 0 g 0%nat)] | _ :: _ => hd end) with hd by (destruct hd; [contradiction|reflexivity]).
      rewrite put_same, (Rabs_right g) by lra. destruct (Rlt_dec g tol) as [Hlt|Hge].
      + exists [], (Some x). split; [apply run_stop; exact Hlt|]. intros y E. injection E as <-. exists allIter, 0%nat. rewrite app_nil_r. split; [reflexivity|]. split; [reflexivity|]. split; [lia|]. intros C; contradiction C; reflexivity.
      + rewrite rdiv_ok by lra. cbn [bind].
        pose proof (inv_start x w ltac:(unfold g in *; lra)) as I0. fold g in I0.
        set (w0 := Work _ _ _ _ _ _ _) in I0 |- *.
        destruct (loop_ok n A prec left flexible inner norm b HA HI HN HS tol x hd maxiter 0 w0 [] I0 eq_refl ltac:(lia) ltac:(intros; lia)) as (cs & i & w1 & rs & E & C).
        rewrite app_nil_r in E. rewrite E. cbn [bind]. clear E.
        assert (Good : Inv (rho x) (S i) w1 -> length rs = S i -> (S i <= maxiter)%nat -> (forall j, (j < S i)%nat -> least x (S j) (w_Q w1) (nth j rs 0)) ->
          (forall j, (j < i)%nat -> tol <= nth j rs 0) -> (cs <> Exhausted -> nth i rs 0 < tol) -> (cs = Exhausted -> S i = maxiter) -> nth i rs 0 = Rabs (w_gamma w1 (S i)) ->
          exists rs' o, run tol maxiter (S k) x rs' o /\ forall y, o = Some y -> exists it c,
            (' (w, x) <- gm_update n prec left flexible w1 i x ;; gm_restarts n A prec left flexible inner norm b tol maxiter k (match cs with Exhausted => false | _ => true end) (allIter + i) w x (hd ++ rs)) = Ok (it, y, hd ++ rs') /\ (it + c = allIter + length rs')%nat /\ (c <= S k)%nat /\ (rs' <> [] -> 1 <= c)%nat).
        { intros I1 Ln Lm Le Lt Lc Lx' Lv. destruct (update_ok n A prec left flexible inner norm b HA HI HN HS x i w1 I1 Lx) as (w2 & a & E & Nx). rewrite E. cbn [bind].
          set (x' := comb n 1 x 1 (lincomb n (S i) a (fun k => dir (w_Q w1 k)))) in *.
          assert (Rec : forall rs' o, run tol maxiter k x' rs' o -> run tol maxiter (S k) x (rs ++ rs') o).
          { intros rs' o HR. unfold x' in HR. eapply (run_cycle n A prec left inner norm b eps tol maxiter k x (S i) (w_Q w1) rs a); auto; try lia.
            - fold g. lra.
            - apply (inv_arnoldi n A prec left flexible inner). exact I1.
            - intros j Hj. apply Lt. lia.
            - intros Hlt. replace (S i - 1)%nat with i by lia. apply Lc. intros C'. apply Lx' in C'. lia.
            - replace (S i - 1)%nat with i by lia. fold x'. rewrite Nx. auto. }
          destruct cs.
          1,2: exists (rs ++ []), (Some x'); split; [apply Rec, run_stop; rewrite Nx, <- Lv; apply Lc; discriminate|]; intros y Ey; injection Ey as <-; exists (allIter + i)%nat, 1%nat; rewrite app_nil_r, Ln; split; [destruct k; reflexivity|]; split; [lia|]; split; intros; lia.
          destruct (IH (allIter + i)%nat w2 x' (hd ++ rs) (comb_length _ _ _ _ _)) as (rs' & o & HR & HE).
          { intros C'. apply app_eq_nil in C'. tauto. }
          exists (rs ++ rs'), o. split; [apply Rec, HR|]. intros y Ey. destruct (HE y Ey) as (it & c & Ht & Hi & Hc1 & Hc2). exists it, (S c). rewrite Ht, app_assoc, app_length, Ln. split; [reflexivity|]. split; [lia|]. split; intros; lia. }
        destruct cs.
        * destruct C as (Ci & u & a & Iu & Ln & Le & Hn). exists rs, None. split; [|discriminate].
          eapply (run_break n A prec left inner norm b eps tol maxiter k x i (w_Q u) rs a); auto.
          -- fold g. lra.
          -- apply (inv_arnoldi n A prec left flexible inner). exact Iu.
          -- intros j Hj. apply Le. exact Hj.
          -- intros j Hj. apply Le. exact Hj.
        * destruct C as (I1 & Ln & Lm & Le & Lt & Lc & Lx' & Lv). apply Good; auto.
        * destruct C as (I1 & Ln & Lm & Le & Lt & Lc & Lx' & Lv). apply Good; auto. intros C'; contradiction C'; reflexivity.
  Qed.
  Lemma solve_ok w x0 rel tolerance maxiter restarts : length b = n -> (forall x, x0 = Some x -> length x = n) -> (0 < maxiter)%nat ->
    let init := guess n x0 in
    let tol := tol_of rel tolerance norm (true_residual n A b init) in
    0 < tol ->
    exists rs o, run tol maxiter (S restarts) init rs o /\
    forall y, o = Some y -> exists it c, gmres_solve n A prec left flexible inner norm b w x0 rel tolerance maxiter (S restarts) = Ok (it, y, norm (rho init) :: rs) /\ (it + c = length rs)%nat /\ (c <= S restarts)%nat /\ (rs <> [] -> 1 <= c)%nat.
  Proof using HA HI HN HS.
    intros Hb Hx Pm init tol Pt. unfold gmres_solve. destruct (Nat.ltb_spec 0 maxiter) as [_|]; [|lia]. cbn [guard bind].
    pose proof (start_guess n A b x0) as Hg. pose proof (start_res n A b HA Hb x0) as Hr.
    destruct (start n A x0 b) as [x r]. cbn [fst snd] in Hg, Hr. fold init in Hg, Hr. subst x r.
    change (tolerance_of rel tolerance norm (true_residual n A b init)) with tol.
    assert (Li : length init = n) by (unfold init; destruct x0 as [x|]; cbn [guess]; [apply Hx; reflexivity|apply vzero_length]).
    destruct (restarts_ok tol maxiter Pt Pm (S restarts) 0 w init [norm (rho init)] Li ltac:(discriminate)) as (rs & o & HR & HE).
    exists rs, o. split; [exact HR|]. intros y Ey. destruct (HE y Ey) as (it & c & E & Hi). exists it, c. split; [|exact Hi]. etransitivity; [|exact E]. cbn [gm_restarts]. rewrite (residual_ok n A prec left b init), put_same.
    rewrite (Rabs_right (norm (rho init))) by (apply Rle_ge; rewrite HN; apply sqrt_pos). reflexivity.
  Qed.
End Solve.

(** * What a run means *)
Lemma last_cons (l : list R) : forall a c, last (a :: l) c = last l a.
Proof. induction l as [|d l IH]; intros a c; [reflexivity|]. change (last (a :: d :: l) c) with (last (d :: l) c). rewrite !IH. reflexivity. Qed.
Lemma sorted_app c (l l' : list R) : Sorted Rge (c :: l) -> Sorted Rge (last l c :: l') -> Sorted Rge (c :: l ++ l').
Proof.
  revert c. induction l as [|a l IH]; intros c H1 H2; [exact H2|]. cbn [app]. inversion H1 as [|x y S H]; subst. constructor.
  - apply IH; auto. rewrite <- (last_cons l a c). exact H2.
  - inversion H; subst. constructor. auto.
Qed.
Lemma sorted_nth l : (forall j, (S j < length l)%nat -> nth (S j) l 0 <= nth j l 0) -> Sorted Rge l.
Proof.
  induction l as [|a l IH]; intros H; constructor.
  - apply IH. intros j Hj. apply (H (S j)). cbn [length]. lia.
  - destruct l as [|d l]; constructor. apply Rle_ge. apply (H 0%nat). cbn [length]. lia.
Qed.
Lemma last_nth' (l : list R) c : (0 < length l)%nat -> last l c = nth (length l - 1) l 0.
Proof.
  induction l as [|a l IH]; intros H; cbn [length] in *; [lia|]. destruct l as [|d l]; [reflexivity|]. change (last (a :: d :: l) c) with (last (d :: l) c). rewrite IH by (cbn [length]; lia). cbn [length]. replace (S (S (length l)) - 1)%nat with (S (S (length l) - 1)) by lia. reflexivity.
Qed.
Section Facts.
  Variables (n : nat) (A : vec -> vec) (prec : option (vec -> vec)) (left : bool).
  Variables (inner : vec -> vec -> R) (norm : vec -> R) (b : vec).
  Notation rho := (gres n A prec left b).
  Notation least := (least n A prec left norm b).
  Lemma lincomb_extend m (a : nat -> R) V : lincomb n (S m) (put a m 0) V = lincomb n m a V.
  Proof.
    rewrite lincomb_S, put_same. rewrite (lincomb_ext n m (put a m 0) a V V); [|intros; apply put_other; lia|auto].
    apply (rvec_ext n); auto using comb_length, lincomb_length. intros l Hl. rewrite rat_comb by auto. lra.
  Qed.
  Lemma least_mono x m q v v' : least x m q v -> least x (S m) q v' -> v' <= v.
  Proof. intros ((a & <-) & _) (_ & M). specialize (M (put a m 0)). cbv zeta in M. rewrite lincomb_extend in M. exact M. Qed.
  Lemma least_first x q v : length x = n -> least x 1 q v -> v <= norm (rho x).
  Proof.
    intros Lx (_ & M). specialize (M (fun _ => 0)). cbv zeta in M. replace (comb n 1 x 1 (lincomb n 1 (fun _ => 0) (fun k => gdir prec left (q k)))) with x in M; [exact M|].
    apply (rvec_ext n); auto using comb_length. intros l Hl. rewrite rat_comb, rat_lincomb by auto. cbn [rsum]. lra.
  Qed.
  Lemma run_facts eps tol maxiter k x rs o : run n A prec left inner norm b eps tol maxiter k x rs o -> length x = n ->
    Sorted Rge (norm (rho x) :: rs) /\
    forall y, o = Some y -> norm (rho y) = last rs (norm (rho x)) /\ (norm (rho y) < tol \/ length rs = (k * maxiter)%nat).
  Proof.
    assert (Cyc : forall x m q rs, length x = n -> length rs = m -> (forall j, (j < m)%nat -> least x (S j) q (nth j rs 0)) -> Sorted Rge (norm (rho x) :: rs)).
    { intros z m q l Lz Ll H. apply sorted_nth. intros j Hj. cbn [length] in Hj. destruct j as [|j]; cbn [nth].
      - apply (least_first z q); auto. apply H. lia.
      - apply (least_mono z (S j) q); apply H; lia. }
    induction 1 as [k x H|x|k x m q rs a rs' o Ht Hm Ha Hl Hle Hs Hc x' Hx' HR IH|k x m q rs a Ht Hm Ha Hl Hle Hs He]; intros Lx.
    - split; [repeat constructor|]. intros y E. injection E as <-. auto.
    - split; [repeat constructor|]. intros y E. injection E as <-. auto.
    - destruct IH as (S1 & S2); [apply comb_length|]. assert (El : last rs (norm (rho x)) = nth (m - 1) rs 0) by (rewrite last_nth' by lia; rewrite Hl; reflexivity). split.
      + apply sorted_app; [eapply Cyc; eauto|]. rewrite El, <- Hx'. exact S1.
      + intros y Ey. destruct (S2 y Ey) as (N & D). split.
        * rewrite N. destruct rs' as [|d rs']; [cbn [last]; rewrite app_nil_r, El; exact Hx'|].
          rewrite (last_nth' (d :: rs')) by (cbn [length]; lia). rewrite last_nth' by (rewrite app_length; cbn [length]; lia). rewrite app_nth2 by (rewrite app_length; cbn [length]; lia). f_equal. rewrite app_length. cbn [length]. lia.
        * destruct D as [D|D]; [auto|]. destruct (Nat.eq_dec m maxiter) as [Em|Nm]; [right; rewrite app_length, D, Hl; lia|].
          left. destruct HR as [k x'' H|x''|k x'' m' q' rs'' a' rs' o' Ht' Hm' Ha' Hl' Hle' Hs' Hc' x2 Hx2 HR|k x'' m' q' rs'' a' Ht' Hm' Ha' Hl' Hle' Hs' He'].
          -- injection Ey as <-. exact H.
          -- injection Ey as <-. rewrite Hx'. apply Hc. lia.
          -- rewrite Hx' in Ht'. specialize (Hc ltac:(lia)). lra.
          -- discriminate.
    - split; [eapply Cyc; eauto|]. discriminate.
  Qed.
End Facts.
