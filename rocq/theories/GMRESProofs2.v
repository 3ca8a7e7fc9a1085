(** One cycle of GMRES. *)
From Verif Require Import LinR KrylovModel KrylovSpec KrylovProofs KrylovProofs2 GMRESModel GMRESSpec GMRESProofs.
Set Default Proof Using "Type".
Open Scope R_scope.

Section Cycle.
  Variables (n : nat) (A : vec -> vec) (prec : option (vec -> vec)) (left flexible : bool).
  Variables (inner : vec -> vec -> R) (norm : vec -> R) (b : vec).
  Hypotheses (HA : linear n A) (HI : inner_product n inner) (HN : forall v, norm v = sqrt (inner v v)).
  Hypotheses (HS : supported n prec left flexible).
  Notation L := (gop A prec left).
  Notation dir := (gdir prec left).
  Notation rho := (gres n A prec left b).

  Lemma L_linear : linear n L.
  Proof using HA HS.
    unfold gop, supported in *. destruct prec as [B|]; [|exact HA]. destruct left; [|exact HA]. destruct HS as ((B1 & B2) & _). destruct HA as (A1 & A2). split; [auto|]. intros. rewrite A2, B2. reflexivity.
  Qed.
  Lemma rho_length x : length (rho x) = n.
  Proof using HA HS.
    unfold gres, supported in *. destruct prec as [B|]; [|apply comb_length]. destruct left; [|apply comb_length]. destruct HS as ((B1 & B2) & _). apply B1.
  Qed.
  Lemma true_shift x d : true_residual n A b (comb n 1 x 1 d) = comb n 1 (true_residual n A b x) (-1) (A d).
  Proof using HA. unfold true_residual. rewrite (proj2 HA). apply tab_ext. intros l Hl. rewrite !rat_comb by auto. lra. Qed.
  Lemma rho_shift x d : rho (comb n 1 x 1 d) = comb n 1 (rho x) (-1) (L d).
  Proof using HA HS.
    unfold gres, gop, supported in *. destruct prec as [B|]; [|apply true_shift]. destruct left; [|apply true_shift]. destruct HS as ((B1 & B2) & _). rewrite true_shift, B2. reflexivity.
  Qed.
  Lemma residual_ok x : gm_residual n A prec left b x = rho x.
  Proof.
    clear HS. unfold gm_residual, gres, true_residual. destruct prec as [B|]; [|reflexivity]. destruct left; [|reflexivity]. f_equal. apply tab_ext. intros. lra.
  Qed.
  Lemma expand_ok q : snd (gm_expand A prec left q) = L (dir q) /\ (flexible = true -> fst (gm_expand A prec left q) = dir q).
  Proof using HS.
    unfold gm_expand, gop, gdir, supported in *. destruct prec as [B|]; [destruct left|]; cbn [fst snd]; split; try reflexivity; intros F; [destruct HS|]; congruence.
  Qed.

  Record Inv (r0 : vec) (i : nat) (w : work) : Prop := {
    i_len : forall j, (j <= i)%nat -> length (w_Q w j) = n;
    i_orth : orthonormal inner (S i) (w_Q w);
    i_cs : forall k, (k < i)%nat -> w_c w k * w_c w k + w_s w k * w_s w k = 1;
    i_start : exists g, r0 = lincomb n 1 g (w_Q w);
    i_hess : forall k, (k < i)%nat -> exists h, L (dir (w_Q w k)) = lincomb n (S (S k)) h (w_Q w) /\ 0 < h (S k);
    i_tri : forall k, (k < i)%nat -> L (dir (w_Q w k)) = lincomb n (S k) (fun j => w_H w j k) (vv n (w_Q w) (w_c w) (w_s w));
    i_diag : forall k, (k < i)%nat -> 0 < w_H w k k;
    i_rhs : r0 = comb n 1 (lincomb n i (w_gamma w) (vv n (w_Q w) (w_c w) (w_s w))) (w_gamma w i) (wv n (w_Q w) (w_c w) (w_s w) i);
    i_Z : flexible = true -> forall k, (k < i)%nat -> w_Z w k = dir (w_Q w k) }.

  Lemma inv_arnoldi r0 i w : Inv r0 i w -> arnoldi n A prec left inner r0 (S i) (w_Q w).
  Proof. clear HS HN HA HI. intros I. split; [intros; apply (i_len _ _ _ I); lia|]. split; [apply (i_orth _ _ _ I)|]. split; [apply (i_start _ _ _ I)|]. intros k Hk. apply (i_hess _ _ _ I). lia. Qed.

  Lemma norm_square v t : inner v v = t * t -> norm v = Rabs t.
  Proof using HN. intros E. rewrite HN, E. apply sqrt_Rsqr_abs. Qed.

  (** The solution of the least squares problem *)
  Lemma inv_solution r0 i w y0 : Inv r0 (S i) w -> exists y, gm_back (w_H w) (w_gamma w) i (S i) y0 = Ok y /\
    forall l, (l < n)%nat -> rat r0 l - rat (L (lincomb n (S i) y (fun k => dir (w_Q w k)))) l = w_gamma w (S i) * rat (wv n (w_Q w) (w_c w) (w_s w) (S i)) l.
  Proof using HA HS.
    intros I. destruct (back_ok (w_H w) (w_gamma w) i ltac:(intros j Hj; pose proof (i_diag _ _ _ I j ltac:(lia)); lra) (S i) y0 ltac:(lia)) as (y & E & Y).
    { intros j Hj. lia. }
    exists y. split; [exact E|]. intros l Hl. rewrite (i_rhs _ _ _ I) at 1. rewrite rat_comb, rat_lincomb by auto. rewrite (lin_lincomb n L _ _ _ L_linear), rat_lincomb by auto.
    set (v := vv n (w_Q w) (w_c w) (w_s w)). set (z := rat (wv n (w_Q w) (w_c w) (w_s w) (S i)) l).
    rewrite (rsum_ext (S i) (fun k => y k * rat (L (dir (w_Q w k))) l) (fun k => rsum (S k) (fun j => w_H w j k * y k * rat (v j) l))).
    2: { intros k Hk. rewrite (i_tri _ _ _ I) by auto. rewrite rat_lincomb by auto. rewrite <- rsum_scal. apply rsum_ext. intros. unfold v. ring. }
    rewrite (triangle_swap (S i) (fun j k => w_H w j k * y k * rat (v j) l)).
    rewrite (rsum_ext (S i) (fun j => rsum (S i) _) (fun j => w_gamma w j * rat (v j) l)); [lra|].
    intros j Hj. rewrite <- (back_sum (w_H w) y j i (w_gamma w j)) by (try apply Y; lia). rewrite Rmult_comm, <- rsum_scal. apply rsum_ext. intros k Hk. destruct (j <=? k)%nat; ring.
  Qed.
  Lemma wv_orth_L r0 i w k : Inv r0 i w -> (k < i)%nat -> inner (L (dir (w_Q w k))) (wv n (w_Q w) (w_c w) (w_s w) i) = 0.
  Proof using HI.
    intros I Hk. rewrite (i_tri _ _ _ I) by auto. rewrite (in_lincomb n inner HI). apply rsum_zero. intros j Hj.
    rewrite (vv_orth n inner HI _ _ _ (S i) (i_orth _ _ _ I)); [lra|intros; apply (i_cs _ _ _ I); lia|lia].
  Qed.
  Lemma wv_unit r0 i w : Inv r0 i w -> inner (wv n (w_Q w) (w_c w) (w_s w) i) (wv n (w_Q w) (w_c w) (w_s w) i) = 1.
  Proof using HI. intros I. apply (wv_facts n inner HI _ _ _ (S i) (i_orth _ _ _ I)); [intros; apply (i_cs _ _ _ I); lia|lia]. Qed.
  Lemma inv_least x i w y0 : Inv (rho x) (S i) w -> exists y, gm_back (w_H w) (w_gamma w) i (S i) y0 = Ok y /\
    norm (rho (comb n 1 x 1 (lincomb n (S i) y (fun k => dir (w_Q w k))))) = Rabs (w_gamma w (S i)) /\
    least n A prec left norm b x (S i) (w_Q w) (Rabs (w_gamma w (S i))).
  Proof using HA HS HI HN.
    intros I. destruct (inv_solution _ i w y0 I) as (y & E & SS). exists y. split; [exact E|].
    set (u := wv n (w_Q w) (w_c w) (w_s w) (S i)) in *. set (g := w_gamma w (S i)) in *. set (D := fun k => dir (w_Q w k)) in *.
    assert (U : inner u u = 1) by apply (wv_unit _ _ _ I).
    assert (Ey : rho (comb n 1 x 1 (lincomb n (S i) y D)) = comb n g u 0 u).
    { rewrite rho_shift. apply tab_ext. intros l Hl. specialize (SS l Hl). lra. }
    assert (Ny : norm (rho (comb n 1 x 1 (lincomb n (S i) y D))) = Rabs g).
    { apply norm_square. rewrite Ey, !(in_l n inner HI), !(in_r n inner HI), U. ring. }
    split; [exact Ny|]. split; [exists y; exact Ny|]. intros a. cbv beta zeta. fold D.
    set (z := L (lincomb n (S i) (fun k => 1 * y k + -1 * a k) D)).
    assert (Ea : rho (comb n 1 x 1 (lincomb n (S i) a D)) = comb n g u 1 z).
    { rewrite rho_shift. unfold z. rewrite lincomb_comb, (proj2 L_linear). apply tab_ext. intros l Hl. specialize (SS l Hl). rewrite rat_comb by auto. lra. }
    assert (Z : inner z u = 0).
    { unfold z. rewrite (lin_lincomb n L _ _ _ L_linear), (in_lincomb n inner HI). apply rsum_zero. intros k Hk. unfold D, u. rewrite (wv_orth_L _ _ _ k I) by auto. lra. }
    rewrite Ea, HN, !(in_l n inner HI), !(in_r n inner HI), U, Z, (in_comm n inner HI u z), Z. rewrite <- sqrt_Rsqr_abs. unfold Rsqr. apply sqrt_le_1_alt.
    assert (0 <= inner z z) by (apply (in_pos n inner HI); apply (proj1 L_linear)). lra.
  Qed.

  (** A new column *)
  Lemma scale_comb a r : scale n a r = comb n a r 0 r.
  Proof. apply tab_ext. intros. lra. Qed.
  Lemma inv_step r0 i w h t r' H3 Z' y' : Inv r0 i w ->
    L (dir (w_Q w i)) = comb n 1 (lincomb n (S i) h (w_Q w)) 1 r' -> length r' = n ->
    (forall j, (j <= i)%nat -> inner (w_Q w j) r' = 0) -> inner r' r' = t * t -> 0 < t ->
    (forall l, (l < n)%nat -> rsum i (fun j => H3 j i * rat (vv n (w_Q w) (w_c w) (w_s w) j) l) + H3 i i * rat (wv n (w_Q w) (w_c w) (w_s w) i) l = rsum (S i) (fun j => h j * rat (w_Q w j) l)) ->
    (forall j k, (k < i)%nat -> H3 j k = w_H w j k) ->
    (flexible = true -> forall k, (k <= i)%nat -> Z' k = dir (w_Q w k)) ->
    let beta := sqrt (H3 i i ^ 2 + t ^ 2) in
    0 < beta /\
    Inv r0 (S i) (Work (put (w_Q w) (S i) (scale n (1 / t) r')) Z' (put2 H3 i i beta) (put (w_c w) i (H3 i i / beta)) (put (w_s w) i (t / beta))
      (put (put (w_gamma w) (S i) (- (t / beta) * w_gamma w i)) i (H3 i i / beta * w_gamma w i)) y').
  Proof using HI.
    intros I ET Lr O N Pt R F FZ beta.
    assert (Pb : 0 < beta) by (apply sqrt_lt_R0; nra).
    assert (Sb : beta * beta = H3 i i * H3 i i + t * t) by (unfold beta; rewrite sqrt_sqrt; [ring|nra]).
    clearbody beta. split; [exact Pb|]. set (q := scale n (1 / t) r'). set (c' := H3 i i / beta). set (s' := t / beta).
    assert (C : c' * c' + s' * s' = 1) by (unfold c', s'; transitivity ((H3 i i * H3 i i + t * t) / (beta * beta)); [field; lra|rewrite <- Sb; field; lra]).
    set (Q := put (w_Q w) (S i) q). set (c := put (w_c w) i c'). set (s := put (w_s w) i s').
    assert (EQ : forall k, (k <= i)%nat -> Q k = w_Q w k) by (intros; apply put_other; lia).
    assert (EC : forall k, (k < i)%nat -> c k = w_c w k) by (intros; apply put_other; lia).
    assert (ES : forall k, (k < i)%nat -> s k = w_s w k) by (intros; apply put_other; lia).
    assert (Ev : forall k, (k < i)%nat -> vv n Q c s k = vv n (w_Q w) (w_c w) (w_s w) k) by (intros k Hk; apply vv_ext; intros; [apply EQ|split; [apply EC|apply ES]]; lia).
    assert (Ew : wv n Q c s i = wv n (w_Q w) (w_c w) (w_s w) i) by (apply wv_ext; intros; [apply EQ|split; [apply EC|apply ES]]; lia).
    assert (Eq : Q (S i) = q) by apply put_same. assert (Ec : c i = c') by apply put_same. assert (Es : s i = s') by apply put_same.
    constructor; cbn [w_Q w_Z w_H w_c w_s w_gamma w_y]; fold q c' s'; fold Q c s.
    - intros j Hj. destruct (Nat.eq_dec j (S i)) as [-> |Hne]; [rewrite Eq; apply tab_length|]. rewrite EQ by lia. apply (i_len _ _ _ I). lia.
    - assert (G : forall j, (j <= i)%nat -> inner (w_Q w j) q = 0).
      { intros j Hj. unfold q. rewrite scale_comb, (in_r n inner HI), O by auto. lra. }
      intros j k Hj Hk. destruct (Nat.eq_dec j (S i)) as [-> |Hj'], (Nat.eq_dec k (S i)) as [-> |Hk']; rewrite ?Eq, ?EQ by lia.
      + rewrite Nat.eqb_refl. unfold q. rewrite scale_comb, !(in_l n inner HI), !(in_r n inner HI), N. field. lra.
      + rewrite (in_comm n inner HI), G by lia. destruct (Nat.eqb_spec (S i) k); [lia|reflexivity].
      + rewrite G by lia. destruct (Nat.eqb_spec j (S i)); [lia|reflexivity].
      + apply (i_orth _ _ _ I); lia.
    - intros k Hk. destruct (Nat.eq_dec k i) as [-> |Hne]; [rewrite Ec, Es; exact C|]. rewrite EC, ES by lia. apply (i_cs _ _ _ I). lia.
    - destruct (i_start _ _ _ I) as (g & G). exists g. rewrite G. apply lincomb_ext; [auto|]. intros k Hk. symmetry. apply EQ. lia.
    - intros k Hk. destruct (Nat.eq_dec k i) as [-> |Hne].
      + exists (put h (S i) t). rewrite put_same. split; [|exact Pt]. rewrite EQ, ET by lia. rewrite (lincomb_S n (S i)), put_same, Eq.
        rewrite (lincomb_ext n (S i) (put h (S i) t) h Q (w_Q w)); [|intros; apply put_other; lia|intros; apply EQ; lia].
        apply tab_ext. intros l Hl. unfold q. rewrite scale_comb, rat_comb by auto. field. lra.
      + destruct (i_hess _ _ _ I k ltac:(lia)) as (g & G & P). exists g. split; [|exact P]. rewrite EQ, G by lia. apply lincomb_ext; [auto|]. intros j Hj. symmetry. apply EQ. lia.
    - intros k Hk. destruct (Nat.eq_dec k i) as [-> |Hne].
      + rewrite EQ, ET by lia. rewrite (lincomb_S n i (fun j => put2 H3 i i beta j i)). cbv beta. rewrite put2_same.
        rewrite (lincomb_ext n i (fun j => put2 H3 i i beta j i) (fun j => H3 j i) (vv n Q c s) (vv n (w_Q w) (w_c w) (w_s w))); [|intros; apply put2_row; lia|intros; apply Ev; lia].
        apply tab_ext. intros l Hl. rewrite !rat_lincomb by auto. rewrite <- (R l Hl). change (vv n Q c s i) with (comb n (c i) (wv n Q c s i) (s i) (Q (S i))). rewrite rat_comb, Ew, Eq, Ec, Es by auto. unfold q. rewrite scale_comb, rat_comb by auto. unfold c', s'. field. lra.
      + rewrite EQ, (i_tri _ _ _ I) by lia. apply lincomb_ext; [|intros; symmetry; apply Ev; lia]. intros j Hj. rewrite put2_col by lia. symmetry. apply F. lia.
    - intros k Hk. destruct (Nat.eq_dec k i) as [-> |Hne]; [rewrite put2_same; exact Pb|]. rewrite put2_col by lia. rewrite F by lia. apply (i_diag _ _ _ I). lia.
    - rewrite (i_rhs _ _ _ I) at 1. rewrite (lincomb_S n i), put_same, put_other, put_same by lia.
      rewrite (lincomb_ext n i (put (put (w_gamma w) (S i) (- s' * w_gamma w i)) i (c' * w_gamma w i)) (w_gamma w) (vv n Q c s) (vv n (w_Q w) (w_c w) (w_s w))).
      2: { intros k Hk. rewrite !put_other by lia. reflexivity. }
      2: { intros. apply Ev. lia. }
      apply tab_ext. intros l Hl. cbn [wv]. change (vv n Q c s i) with (comb n (c i) (wv n Q c s i) (s i) (Q (S i))). rewrite !rat_comb, Ew, Ec, Es by auto.
      set (p := rat (lincomb n i (w_gamma w) (vv n (w_Q w) (w_c w) (w_s w))) l). set (g := w_gamma w i). set (a := rat (wv n (w_Q w) (w_c w) (w_s w) i) l). set (d := rat (Q (S i)) l).
      transitivity (p + g * a * (c' * c' + s' * s')); [rewrite C; ring|ring].
    - intros Fl k Hk. rewrite FZ by (auto; lia). rewrite EQ by lia. reflexivity.
  Qed.
End Cycle.
