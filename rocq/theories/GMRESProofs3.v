(** The loops of GMRES. *)
From Verif Require Import LinR KrylovModel KrylovSpec KrylovProofs KrylovProofs2 GMRESModel GMRESSpec GMRESProofs GMRESProofs2.
Set Default Proof Using "Type".
Open Scope R_scope.

Lemma eps_pos : 0 < eps. Proof. unfold eps. lra. Qed.

Section Loop.
  Variables (n : nat) (A : vec -> vec) (prec : option (vec -> vec)) (left flexible : bool).
  Variables (inner : vec -> vec -> R) (norm : vec -> R) (b : vec).
  Hypotheses (HA : linear n A) (HI : inner_product n inner) (HN : forall v, norm v = sqrt (inner v v)).
  Hypotheses (HS : supported n prec left flexible).
  Notation L := (gop A prec left).
  Notation dir := (gdir prec left).
  Notation rho := (gres n A prec left b).
  Notation Inv := (Inv n A prec left flexible inner).
  Notation least := (least n A prec left norm b).

  Lemma least_ext x m q q' v : (forall k, (k < m)%nat -> q k = q' k) -> least x m q v -> least x m q' v.
  Proof.
    clear HA HI HN HS. intros E ((a & Ha) & M). assert (G : forall a, lincomb n m a (fun k => dir (q' k)) = lincomb n m a (fun k => dir (q k))) by (intros; apply lincomb_ext; intros; [reflexivity|rewrite E by auto; reflexivity]).
    split.
    - exists a. rewrite G. exact Ha.
    - intros a'. rewrite G. apply M.
  Qed.
  Lemma inv_dim r0 i w : Inv r0 i w -> (0 < n)%nat.
  Proof using HI.
    clear HA HN HS. intros I. pose proof (i_orth _ _ _ _ _ _ _ _ _ I 0%nat 0%nat ltac:(lia) ltac:(lia)) as O. pose proof (i_len _ _ _ _ _ _ _ _ _ I 0%nat ltac:(lia)) as E.
    assert (G : forall v, length v = 0%nat -> inner_product 0 inner -> inner v v = 0).
    { intros [|a v] H IP; [|discriminate]. exact (in_zero 0 inner IP []). }
    destruct (Nat.eq_dec n 0) as [Z|Z]; [|lia]. exfalso. rewrite Z in E. assert (IP : inner_product 0 inner) by (rewrite <- Z; exact HI). rewrite (G _ E IP) in O. cbn in O. lra.
  Qed.

  Lemma loop_step tol fuel i w rs r0 : Inv r0 i w ->
    (exists w' a, gm_loop n A prec left flexible inner norm tol (S fuel) i w rs = Ok (Breakdown, i, w', rs) /\
       norm (comb n 1 (L (dir (w_Q w i))) (-1) (lincomb n (S i) a (w_Q w))) <= eps) \/
    (exists w', Inv r0 (S i) w' /\ (forall k, (k <= i)%nat -> w_Q w' k = w_Q w k) /\
       gm_loop n A prec left flexible inner norm tol (S fuel) i w rs =
       let v := Rabs (w_gamma w' (S i)) in
       if Rlt_dec v tol then Ok (Converged, i, w', rs ++ [v]) else gm_loop n A prec left flexible inner norm tol fuel (S i) w' (rs ++ [v])).
  Proof using HA HI HN HS.
    intros I. cbn [gm_loop]. destruct (expand_ok n A prec left flexible HS (w_Q w i)) as (E1 & E2). destruct (gm_expand A prec left (w_Q w i)) as [z r]. cbn [fst snd] in *. subst r.
    pose proof (inv_dim _ _ _ I) as Pn. destruct (Nat.ltb_spec 0 n) as [_|]; [|lia].
    destruct (orthogonalize_ok n inner HI (w_Q w) i (S i) (w_H w) (L (dir (w_Q w i))) (i_orth _ _ _ _ _ _ _ _ _ I) (S i) ltac:(lia)) as (Er & P & F).
    destruct (gm_orthogonalize n inner (w_Q w) i (S i) (w_H w) (L (dir (w_Q w i)))) as [H' r']. cbn [fst snd] in *.
    assert (LL : length (L (dir (w_Q w i))) = n) by apply (proj1 (L_linear n A prec left flexible HA HS)). specialize (Er LL).
    assert (Lr : length r' = n) by (rewrite Er; apply comb_length).
    set (t := norm r'). rewrite put2_same.
    assert (T0 : 0 <= t) by (unfold t; rewrite HN; apply sqrt_pos).
    assert (Tt : inner r' r' = t * t) by (unfold t; rewrite HN, sqrt_sqrt; [reflexivity|apply (in_pos n inner HI); exact Lr]).
    rewrite (Rabs_right t) by lra. destruct (Rlt_dec eps t) as [Hlt|Hge].
    - right. pose proof eps_pos. assert (Pt : 0 < t) by lra. rewrite rdiv_ok by lra. cbn [bind].
      destruct (rotate_ok n (w_Q w) (w_c w) (w_s w) i (put2 H' (S i) i t) i ltac:(intros; apply (i_cs _ _ _ _ _ _ _ _ _ I); lia)) as (R & F').
      set (H3 := gm_rotate (w_c w) (w_s w) i i (put2 H' (S i) i t)) in *.
      assert (H3t : H3 (S i) i = t) by (rewrite F' by (right; lia); apply put2_same). rewrite H3t.
      set (Z' := if flexible then put (w_Z w) i z else w_Z w).
      destruct (inv_step n A prec left flexible inner HI r0 i w (fun j => H' j i) t r' H3 Z' (w_y w) I) as (Pb & I').
      + rewrite Er. apply (rvec_ext n); auto using comb_length. intros l Hl. rewrite !rat_comb by auto. lra.
      + exact Lr.
      + intros j Hj. apply P. lia.
      + exact Tt.
      + exact Pt.
      + intros l Hl. rewrite (R l Hl). apply rsum_ext. intros j Hj. rewrite put2_row by lia. reflexivity.
      + intros j k Hk. rewrite F' by lia. rewrite put2_col by lia. apply F. left. lia.
      + intros Fl k Hk. unfold Z'. rewrite Fl. destruct (Nat.eq_dec k i) as [-> |Hne]; [rewrite put_same; auto|]. rewrite put_other by auto. apply (i_Z _ _ _ _ _ _ _ _ _ I Fl). lia.
      + rewrite !rdiv_ok by lra. cbn [bind]. rewrite !put_same. rewrite (put_other (w_gamma w) (S i) _ i) by lia.
        eexists. split; [exact I'|]. split; [intros k Hk; apply put_other; lia|]. reflexivity.
    - left. eexists _, (fun j => H' j i). split; [reflexivity|]. rewrite <- Er. fold t. lra.
  Qed.

  Lemma loop_ok tol x hd : forall fuel i w pre, Inv (rho x) i w -> length pre = i -> (0 < i + fuel)%nat ->
    (forall j, (j < i)%nat -> least x (S j) (w_Q w) (nth j pre 0) /\ tol <= nth j pre 0) ->
    exists cs i' w' rs, gm_loop n A prec left flexible inner norm tol fuel i w (hd ++ pre) = Ok (cs, i', w', hd ++ rs) /\
    match cs with
    | Breakdown => (i' < i + fuel)%nat /\ exists u a, Inv (rho x) i' u /\ length rs = i' /\ (forall j, (j < i')%nat -> least x (S j) (w_Q u) (nth j rs 0) /\ tol <= nth j rs 0) /\
        norm (comb n 1 (L (dir (w_Q u i'))) (-1) (lincomb n (S i') a (w_Q u))) <= eps
    | _ => Inv (rho x) (S i') w' /\ length rs = S i' /\ (S i' <= i + fuel)%nat /\ (forall j, (j < S i')%nat -> least x (S j) (w_Q w') (nth j rs 0)) /\
        (forall j, (j < i')%nat -> tol <= nth j rs 0) /\ (cs = Converged -> nth i' rs 0 < tol) /\ (cs = Exhausted -> S i' = (i + fuel)%nat) /\ nth i' rs 0 = Rabs (w_gamma w' (S i'))
    end.
  Proof using HA HI HN HS.
    induction fuel as [|fuel IH]; intros i w pre I Lp Pf H.
    - destruct i as [|i]; [lia|]. cbn [gm_loop pred]. exists Exhausted, i, w, pre. split; [reflexivity|]. split; [exact I|]. split; [exact Lp|]. split; [lia|]. split; [|split; [|split; [|split]]].
      + intros j Hj. apply H. lia.
      + intros j Hj. apply H. lia.
      + discriminate.
      + lia.
      + destruct (inv_least n A prec left flexible inner norm b HA HI HN HS x i w (w_y w) I) as (y & _ & _ & (a & Ea) & M). destruct (H i ltac:(lia)) as (((a' & Ea') & M') & _).
        apply Rle_antisym; [rewrite <- Ea; apply M'|rewrite <- Ea'; apply M].
    - destruct (loop_step tol fuel i w (hd ++ pre) (rho x) I) as [(w' & a & E & Hn)|(w' & I' & EQ & E)].
      + exists Breakdown, i, w', pre. split; [exact E|]. split; [lia|]. exists w, a. auto.
      + rewrite E. cbv zeta. set (v := Rabs (w_gamma w' (S i))). rewrite <- app_assoc.
        assert (Lv : least x (S i) (w_Q w') v) by (destruct (inv_least n A prec left flexible inner norm b HA HI HN HS x i w' (w_y w') I') as (y & _ & _ & M); exact M).
        assert (H' : forall j, (j < i)%nat -> least x (S j) (w_Q w') (nth j (pre ++ [v]) 0) /\ tol <= nth j (pre ++ [v]) 0).
        { intros j Hj. rewrite app_nth1 by lia. destruct (H j Hj) as (H1 & H2). split; [|exact H2]. revert H1. apply least_ext. intros k Hk. symmetry. apply EQ. lia. }
        assert (Nv : nth i (pre ++ [v]) 0 = v) by (rewrite app_nth2 by lia; rewrite Lp, Nat.sub_diag; reflexivity).
        assert (Lp' : length (pre ++ [v]) = S i) by (rewrite app_length; cbn [length]; lia).
        destruct (Rlt_dec v tol) as [Hlt|Hge].
        * exists Converged, i, w', (pre ++ [v]). split; [reflexivity|]. split; [exact I'|]. split; [exact Lp'|]. split; [lia|]. split; [|split; [|split; [|split]]].
          -- intros j Hj. destruct (Nat.eq_dec j i) as [-> |Hne]; [rewrite Nv; exact Lv|]. apply H'. lia.
          -- intros j Hj. apply H'. lia.
          -- rewrite Nv. auto.
          -- discriminate.
          -- exact Nv.
        * replace (i + S fuel)%nat with (S i + fuel)%nat by lia. apply IH; auto; [lia|]. intros j Hj. destruct (Nat.eq_dec j i) as [-> |Hne]; [rewrite Nv; split; [exact Lv|lra]|]. apply H'. lia.
  Qed.

  (** The update of the iterate *)
  Lemma update_ok x i w : Inv (rho x) (S i) w -> length x = n ->
    exists w' a, gm_update n prec left flexible w i x = Ok (w', comb n 1 x 1 (lincomb n (S i) a (fun k => dir (w_Q w k)))) /\
    norm (rho (comb n 1 x 1 (lincomb n (S i) a (fun k => dir (w_Q w k))))) = Rabs (w_gamma w (S i)).
  Proof using HA HI HN HS.
    intros I Lx. destruct (inv_least n A prec left flexible inner norm b HA HI HN HS x i w (w_y w) I) as (y & E & N & _).
    unfold gm_update. rewrite E. cbn [bind w_Q w_Z]. eexists _, y. split; [|exact N].
    assert (G1 : flexible = true -> gemvF n (S i) (w_Z w) y = lincomb n (S i) y (fun k => dir (w_Q w k))).
    { intros Fl. apply lincomb_ext; [auto|]. intros k Hk. apply (i_Z _ _ _ _ _ _ _ _ _ I Fl). lia. }
    unfold supported in HS. destruct flexible.
    - destruct prec as [B|]; [|discriminate]. destruct left; [destruct HS; discriminate|]. rewrite G1; auto.
    - destruct prec as [B|]; [destruct left|]; try reflexivity. destruct HS as ([HB|HB] & _); [|discriminate]. do 3 f_equal. exact (lin_lincomb n B (S i) y (w_Q w) HB).
  Qed.
End Loop.
