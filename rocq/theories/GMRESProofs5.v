(** Krylov spaces, and systems for the examples and refutations of GMRES. *)
From Verif Require Import LinR KrylovModel KrylovSpec KrylovProofs KrylovProofs2 GMRESModel GMRESSpec GMRESProofs GMRESProofs2 GMRESProofs3 GMRESProofs4.
Set Default Proof Using "Type".
Open Scope R_scope.

Section Span.
  Variable n : nat.
  Definition span (m : nat) (V : nat -> vec) (v : vec) : Prop := exists a, v = lincomb n m a V.
  Lemma span_mono m V v : span m V v -> forall k, (m <= k)%nat -> span k V v.
  Proof. intros H. induction k as [|k IH]; intros Hk; [replace 0%nat with m by lia; exact H|]. destruct (Nat.eq_dec m (S k)) as [<- |Hne]; [exact H|]. destruct IH as (a & ->); [lia|]. exists (put a k 0). symmetry. apply lincomb_extend. Qed.
  Lemma span_comb m V a v b w : span m V v -> span m V w -> span m V (comb n a v b w).
  Proof. intros (x & ->) (y & ->). exists (fun k => a * x k + b * y k). symmetry. apply lincomb_comb. Qed.
  Lemma span_lincomb m M V W a : (forall k, (k < m)%nat -> span M W (V k)) -> span M W (lincomb n m a V).
  Proof.
    induction m as [|m IH]; intros H.
    - exists (fun _ => 0). rewrite lincomb_O. apply tab_ext. intros i Hi. symmetry. apply rsum_zero. intros. lra.
    - rewrite lincomb_S. apply span_comb; [apply IH; intros; apply H; lia|apply H; lia].
  Qed.
  Lemma span_unit m V k : (k < m)%nat -> length (V k) = n -> span m V (V k).
  Proof.
    intros Hk Hl. apply (span_mono (S k)); [|lia]. exists (put (fun _ => 0) k 1). rewrite lincomb_S, put_same. apply (rvec_ext n); auto using comb_length. intros l Hl'. rewrite rat_comb, rat_lincomb by auto.
    rewrite rsum_zero; [lra|]. intros j Hj. rewrite put_other by lia. lra.
  Qed.
End Span.

Section Krylov.
  Variables (n : nat) (A : vec -> vec) (prec : option (vec -> vec)) (left : bool) (inner : vec -> vec -> R).
  Notation T := (fun v => gop A prec left (gdir prec left v)).
  Hypotheses (HA : linear n A) (HP : forall B, prec = Some B -> linear n B).
  Lemma T_linear : linear n T.
  Proof using HA HP.
    unfold gop, gdir. destruct prec as [B|]; [|exact HA]. destruct (HP B eq_refl) as (B1 & B2). destruct HA as (A1 & A2). destruct left; split; auto; intros; rewrite ?A2, ?B2, ?A2; reflexivity.
  Qed.
  Lemma dir_linear a m V : (forall k, (k < m)%nat -> length (V k) = n) -> lincomb n m a (fun k => gdir prec left (V k)) = gdir prec left (lincomb n m a V).
  Proof using HP.
    intros H. unfold gdir. destruct prec as [B|]; [|reflexivity]. destruct left; [reflexivity|]. symmetry. apply lin_lincomb. apply HP. reflexivity.
  Qed.
  Lemma power_length r k : length r = n -> length (power T k r) = n.
  Proof using HA HP. intros H. destruct k; [exact H|]. cbn [power]. apply (proj1 T_linear). Qed.
  Lemma power_span r m q : arnoldi n A prec left inner r m q -> forall j, (j < m)%nat -> span n (S j) q (power T j r).
  Proof using HA HP.
    intros (Lq & O & St & He). induction j as [|j IH]; intros Hj; [exact St|]. destruct (IH ltac:(lia)) as (a & E). cbn [power]. rewrite E, (lin_lincomb n T _ _ _ T_linear). apply span_lincomb.
    intros k Hk. destruct (He k ltac:(lia)) as (h & Eh & _). apply (span_mono n (S (S k))); [|lia]. exists h. exact Eh.
  Qed.
  Lemma basis_span r m q : (exists i, (i < n)%nat /\ rat r i <> 0) -> length r = n -> arnoldi n A prec left inner r m q -> forall j, (j < m)%nat -> span n (S j) (fun k => power T k r) (q j).
  Proof using HA HP.
    intros Nz Lr (Lq & O & (g & Eg) & He).
    assert (G : forall j, (j < m)%nat -> forall k, (k <= j)%nat -> span n (S k) (fun k => power T k r) (q k)).
    { induction j as [|j IH]; intros Hj k Hk.
      - replace k with 0%nat by lia. exists (fun _ => 1 / g 0%nat). apply (rvec_ext n); auto using lincomb_length. intros l Hl. rewrite rat_lincomb by auto. cbn [rsum power].
        assert (Hg : g 0%nat <> 0). { intros Z. destruct Nz as (i & Hi & N). apply N. rewrite Eg, rat_lincomb by auto. cbn [rsum]. rewrite Z. lra. }
        rewrite Eg at 1. rewrite rat_lincomb by auto. cbn [rsum]. field. exact Hg.
      - destruct (Nat.eq_dec k (S j)) as [-> |Hne]; [|apply IH; lia]. destruct (He j ltac:(lia)) as (h & Eh & Ph).
        assert (E : q (S j) = comb n (1 / h (S j)) (T (q j)) (- (1 / h (S j))) (lincomb n (S j) h q)).
        { apply (rvec_ext n); auto using comb_length. intros l Hl. rewrite rat_comb by auto. rewrite Eh, (lincomb_S n (S j)), rat_comb by auto. field. lra. }
        rewrite E. apply span_comb.
        + destruct (IH ltac:(lia) j ltac:(lia)) as (a & Ea). rewrite Ea, (lin_lincomb n T _ _ _ T_linear). apply span_lincomb. intros k Hk'. apply (span_unit n (S (S j)) (fun k => power T k r) (S k)); [lia|apply power_length, Lr].
        + apply span_lincomb. intros k Hk'. apply (span_mono n (S k)); [apply IH; lia|lia]. }
    intros j Hj. apply (G j Hj). lia.
  Qed.
  Lemma krylov_ok r m q : (exists i, (i < n)%nat /\ rat r i <> 0) -> length r = n -> arnoldi n A prec left inner r m q -> forall k v, (k <= m)%nat ->
    (exists a, v = lincomb n k a q) <-> (exists a, v = lincomb n k a (fun j => power T j r)).
  Proof using HA HP.
    intros Nz Lr Ar k v Hk. split; intros (a & ->); apply span_lincomb; intros j Hj; apply (span_mono n (S j)); try lia; [apply (basis_span r m)|apply (power_span r m)]; auto; lia.
  Qed.
End Krylov.

(** Without restarts the solver returns the minimiser over a Krylov space. *)
Lemma optimal_ok n A prec left inner norm b eps tol maxiter x rs y : linear n A -> (forall B, prec = Some B -> linear n B) -> inner_product n inner -> (forall v, norm v = sqrt (inner v v)) -> 0 < tol -> length x = n -> length b = n ->
  run n A prec left inner norm b eps tol maxiter 1 x rs (Some y) ->
  let at_ a := comb n 1 x 1 (gdir prec left (lincomb n (length rs) a (fun j => power (fun v => gop A prec left (gdir prec left v)) j (gres n A prec left b x)))) in
  (exists a, y = at_ a) /\ forall a, norm (gres n A prec left b y) <= norm (gres n A prec left b (at_ a)).
Proof.
  intros HA HP HI HN Pt Lx Lb HR at_.
  assert (HS : supported n prec left false).
  { unfold supported. destruct prec as [B|]; [|reflexivity]. pose proof (HP B eq_refl) as HB. destruct left; auto. split; [auto|]. apply HB. }
  assert (D0 : forall V a, comb n 1 x 1 (gdir prec left (lincomb n 0 a V)) = x).
  { intros V a. rewrite lincomb_O. assert (Z : gdir prec left (vzero n) = vzero n) by (unfold gdir; destruct prec as [B|]; [destruct left; [reflexivity|apply lin_zero, HP; reflexivity]|reflexivity]).
    rewrite Z. apply (rvec_ext n); auto using comb_length. intros l Hl. rewrite rat_comb, rat_vzero by auto. lra. }
  remember 1%nat as one eqn:E1. remember (Some y) as out eqn:Eo. destruct HR as [k x H|x|k x m q rs1 a rs' o Ht Hm Ha Hl Hle Hs Hc x' Hx' HR'|]; try discriminate.
  - injection Eo as ->. split; [exists (fun _ => 0); unfold at_; cbn [length]; rewrite D0; reflexivity|]. intros a. unfold at_. cbn [length]. rewrite D0. lra.
  - injection E1 as E1. subst m k o. assert (E : rs' = [] /\ y = x') by (inversion HR'; auto). destruct E as (-> & ->).
    pose proof (rho_length n A prec left false b HA HS x) as Lr.
    assert (Nz : exists i, (i < n)%nat /\ rat (gres n A prec left b x) i <> 0).
    { destruct (zero_dec n (gres n A prec left b x)) as [Z|Nz]; [|exact Nz]. exfalso. assert (E : gres n A prec left b x = vzero n) by (apply (rvec_ext n); auto using vzero_length; intros; rewrite rat_vzero; auto).
      rewrite E, HN, (in_zero n inner HI), sqrt_0 in Ht. lra. }
    assert (Hd : forall a, lincomb n (length rs1) a (fun k => gdir prec left (q k)) = gdir prec left (lincomb n (length rs1) a q)).
    { intros a'. apply (dir_linear n prec left HP). intros k Hk. apply Ha. lia. }
    unfold at_. rewrite app_nil_r. split.
    + destruct (proj1 (krylov_ok n A prec left inner HA HP _ _ q Nz Lr Ha (length rs1) (lincomb n (length rs1) a q) ltac:(lia)) ltac:(eauto)) as (a' & E). exists a'. unfold x'. rewrite Hd, E. reflexivity.
    + intros a'. destruct (proj2 (krylov_ok n A prec left inner HA HP _ _ q Nz Lr Ha (length rs1) (lincomb n (length rs1) a' (fun j => power (fun v => gop A prec left (gdir prec left v)) j (gres n A prec left b x))) ltac:(lia)) ltac:(eauto)) as (a2 & E).
      rewrite E, <- Hd, Hx'. destruct (Hle (length rs1 - 1)%nat ltac:(lia)) as (_ & M). replace (S (length rs1 - 1)) with (length rs1) in M by lia. apply M.
Qed.

(** * Relative tolerance and an exact guess *)
Lemma exact_guess n A prec left flexible inner norm b w x0 tolerance maxiter restarts : linear n A -> inner_product n inner -> (forall v, norm v = sqrt (inner v v)) -> length b = n ->
  (forall B, prec = Some B -> linear n B) -> (forall i, (i < n)%nat -> rat (true_residual n A b (guess n x0)) i = 0) -> (0 < maxiter)%nat ->
  gmres_solve n A prec left flexible inner norm b w x0 true tolerance maxiter (S restarts) = Err EDiv0.
Proof.
  intros HA HI HN Hb HP Hz Hm. unfold gmres_solve. destruct (Nat.ltb_spec 0 maxiter) as [_|]; [|lia]. cbn [guard bind].
  pose proof (start_guess n A b x0) as Hg. pose proof (start_res n A b HA Hb x0) as Hr.
  destruct (start n A x0 b) as [x r]. cbn [fst snd] in Hg, Hr. subst r x. set (init := guess n x0) in *.
  assert (E : true_residual n A b init = vzero n) by (apply (rvec_ext n); [apply comb_length|apply vzero_length|]; intros; rewrite rat_vzero; auto).
  assert (Er : gres n A prec left b init = vzero n).
  { unfold gres. rewrite E. destruct prec as [B|]; [destruct left; [apply lin_zero, HP; reflexivity|reflexivity]|reflexivity]. }
  assert (N0 : norm (vzero n) = 0) by (rewrite HN, (in_zero n inner HI), sqrt_0; reflexivity).
  cbn [gm_restarts tolerance_of]. rewrite (residual_ok n A prec left b init), Er, E, N0, put_same. rewrite Rabs_R0. destruct (Rlt_dec 0 (tolerance * 0)) as [C|_]; [lra|].
  unfold rdiv. destruct (Req_EM_T 0 0) as [_|C]; [reflexivity|lra].
Qed.

(** * A system on which the method breaks down: [[3, 1], [4, 2]] x = (1, 0) *)
Definition ex_G : vec -> vec := mulmv 2 (fun i j => nth j (nth i [[3; 1]; [4; 2]] []) 0).
Lemma ex_G_val a b : ex_G [a; b] = [3 * a + b; 4 * a + 2 * b].
Proof. unfold ex_G, mulmv, tab, rat. cbn. f_equal; [lra|]. f_equal. lra. Qed.
Lemma dot2 a b c d : dot 2 [a; b] [c; d] = a * c + b * d. Proof. unfold dot, rat. cbn. lra. Qed.
Lemma comb2 u a b v c d : comb 2 u [a; b] v [c; d] = [u * a + v * c; u * b + v * d]. Proof. reflexivity. Qed.
Lemma scale2 u a b : scale 2 u [a; b] = [u * a; u * b]. Proof. reflexivity. Qed.
Lemma sqrt_is a b : 0 <= b -> a = b * b -> sqrt a = b. Proof. intros H ->. apply sqrt_square. exact H. Qed.
Lemma list2 (a b c d : R) : a = c -> b = d -> [a; b] = [c; d]. Proof. intros -> ->. reflexivity. Qed.
Lemma dot_ip n : inner_product n (dot n).
Proof.
  split; [apply dot_comm|]. split; [apply dot_comb_l|]. intros x _ (i & Hi & Hx). pose proof (dot_self_nonneg n x) as H. destruct (Req_dec (dot n x x) 0) as [Z|]; [|lra].
  exfalso. apply Hx. apply (dot_self_zero n x Z i Hi).
Qed.

Lemma first_step fl tol f w rs : w_Q w 0%nat = [1; 0] -> w_gamma w 0%nat = 1 -> 0 < tol <= 4 / 5 ->
  exists w', gm_loop 2 ex_G None false fl (dot 2) (eucl 2) tol (S f) 0 w rs = gm_loop 2 ex_G None false fl (dot 2) (eucl 2) tol f 1 w' (rs ++ [4 / 5]) /\
  w_Q w' 0%nat = [1; 0] /\ w_Q w' 1%nat = [0; 1] /\ w_gamma w' 0%nat = 3 / 5 /\ w_gamma w' 1%nat = - (4 / 5) /\ w_H w' 0%nat 0%nat = 5 /\ (fl = true -> w_Z w' 0%nat = [3; 4]).
Proof.
  intros HQ Hg Ht. cbn [gm_loop gm_expand gm_orthogonalize gm_rotate Nat.ltb Nat.leb]. rewrite HQ, ex_G_val, put2_same, dot2.
  replace (1 * (3 * 1 + 0) + 0 * (4 * 1 + 2 * 0)) with 3 by ring. rewrite comb2. rewrite !put2_same.
  assert (N : eucl 2 [1 * (3 * 1 + 0) + - (3) * 1; 1 * (4 * 1 + 2 * 0) + - (3) * 0] = 4) by (unfold eucl; rewrite dot2; apply sqrt_is; lra). rewrite N. rewrite (Rabs_right 4) by lra.
  destruct (Rlt_dec eps 4) as [_|C]; [|unfold eps in C; lra]. rewrite rdiv_ok by lra. cbn [bind].
  rewrite put2_row, put2_same by lia. assert (B : sqrt (3 ^ 2 + 4 ^ 2) = 5) by (apply sqrt_is; lra). rewrite B. rewrite !rdiv_ok by lra. cbn [bind]. rewrite !put_same, put_other, put_same, put_other, Hg by lia.
  replace (Rabs (- (4 / 5) * 1)) with (4 / 5) by (rewrite Rmult_1_r, Rabs_Ropp, Rabs_right; lra).
  destruct (Rlt_dec (4 / 5) tol) as [C|_]; [lra|]. eexists. split; [reflexivity|]. cbn [w_Q w_gamma w_H w_Z]. rewrite put_other, put_same, put_same, put_other, put_same, put2_same by lia.
  split; [exact HQ|]. split; [rewrite scale2; apply list2; lra|]. split; [lra|]. split; [lra|]. split; [reflexivity|]. intros ->. rewrite put_same. apply list2; lra.
Qed.
Lemma ex_start fl w tol m r : 0 < tol <= 4 / 5 -> exists w', w_Q w' 0%nat = [1; 0] /\ w_gamma w' 0%nat = 1 /\
  gmres_solve 2 ex_G None false fl (dot 2) (eucl 2) [1; 0] w None false tol (S m) (S r) =
  (' (cs, i, w, residuals) <- gm_loop 2 ex_G None false fl (dot 2) (eucl 2) tol (S m) 0 w' [1] ;;
   ' (w, x) <- gm_update 2 None false fl w i [0; 0] ;;
   gm_restarts 2 ex_G None false fl (dot 2) (eucl 2) [1; 0] tol (S m) r (match cs with Exhausted => false | _ => true end) i w x residuals).
Proof.
  intros Ht. unfold gmres_solve. cbn [guard Nat.ltb Nat.leb bind start tolerance_of gm_restarts]. unfold gm_residual. change (vzero 2) with [0; 0]. rewrite ex_G_val, comb2.
  replace (1 * 1 + -1 * (3 * 0 + 0)) with 1 by lra. replace (1 * 0 + -1 * (4 * 0 + 2 * 0)) with 0 by lra.
  assert (N : eucl 2 [1; 0] = 1) by (unfold eucl; rewrite dot2; apply sqrt_is; lra). rewrite N, put_same, Rabs_R1. destruct (Rlt_dec 1 tol) as [C|_]; [lra|]. rewrite rdiv_ok by lra. cbn [bind].
  eexists. split; [|split; [|reflexivity]]; cbn [w_Q w_gamma]; rewrite put_same; [rewrite scale2; apply list2; lra|reflexivity].
Qed.
Lemma ex_one_iteration w : gmres_solve 2 ex_G None false false (dot 2) (eucl 2) [1; 0] w None false (1 / 2) 1 1 = Ok (0%nat, [3 / 25; 0], [1; 4 / 5]).
Proof.
  destruct (ex_start false w (1 / 2) 0 0 ltac:(lra)) as (w' & HQ & Hg & ->). destruct (first_step false (1 / 2) 0 w' [1] HQ Hg ltac:(lra)) as (w2 & -> & HQ0 & HQ1 & Hg0 & Hg1 & HH & _).
  cbn [gm_loop bind pred gm_update gm_back Nat.sub gm_temp]. unfold gm_update. cbn [gm_back Nat.sub gm_temp]. rewrite HH, Hg0, rdiv_ok by lra. cbn [bind w_Q gm_restarts app]. do 3 f_equal.
  unfold gemvF, tab. cbn [seq map rsum]. rewrite HQ0, put_same, comb2. unfold rat. cbn [nth]. apply list2; lra.
Qed.
(** Without a preconditioner the flexible variant adds A q instead of q. *)
Lemma flexible_false w : gmres_solve 2 ex_G None false true (dot 2) (eucl 2) [1; 0] w None false (1 / 2) 1 1 = Ok (0%nat, [9 / 25; 12 / 25], [1; 4 / 5]) /\
  1 < eucl 2 (true_residual 2 ex_G [1; 0] [9 / 25; 12 / 25]).
Proof.
  split.
  - destruct (ex_start true w (1 / 2) 0 0 ltac:(lra)) as (w' & HQ & Hg & ->). destruct (first_step true (1 / 2) 0 w' [1] HQ Hg ltac:(lra)) as (w2 & -> & HQ0 & HQ1 & Hg0 & Hg1 & HH & HZ).
    cbn [gm_loop bind pred]. unfold gm_update. cbn [gm_back Nat.sub gm_temp]. rewrite HH, Hg0, rdiv_ok by lra. cbn [bind w_Q w_Z gm_restarts app]. do 3 f_equal.
    unfold gemvF, tab. cbn [seq map rsum]. rewrite HZ, put_same, comb2 by auto. unfold rat. cbn [nth]. apply list2; lra.
  - unfold true_residual. rewrite ex_G_val, comb2. unfold eucl. rewrite dot2. rewrite <- sqrt_1 at 1. apply sqrt_lt_1_alt. split; lra.
Qed.
(** The iteration in which the method breaks down skips the previous rotations. *)
Lemma breakdown_false w tol m r : 0 < tol <= 4 / 5 ->
  gmres_solve 2 ex_G None false false (dot 2) (eucl 2) [1; 0] w None false tol (S (S m)) (S r) = Ok (1%nat, [1 / 5; - (2 / 5)], [1; 4 / 5]) /\
  true_residual 2 ex_G [1; 0] [1 / 5; - (2 / 5)] = [4 / 5; 0] /\ ex_G [1; -2] = [1; 0].
Proof.
  intros Ht. split; [|split].
  2: { unfold true_residual. rewrite ex_G_val, comb2. apply list2; lra. }
  2: { rewrite ex_G_val. apply list2; lra. }
  destruct (ex_start false w tol (S m) r Ht) as (w' & HQ & Hg & ->). destruct (first_step false tol (S m) w' [1] HQ Hg Ht) as (w2 & -> & HQ0 & HQ1 & Hg0 & Hg1 & HH & _).
  cbn [gm_loop gm_expand gm_orthogonalize Nat.ltb Nat.leb]. rewrite HQ0, HQ1, ex_G_val, put2_same, dot2, comb2.
  replace (1 * (3 * 0 + 1) + 0 * (4 * 0 + 2 * 1)) with 1 by ring. rewrite put2_same, dot2, comb2.
  replace (0 * (1 * (3 * 0 + 1) + - (1) * 1) + 1 * (1 * (4 * 0 + 2 * 1) + - (1) * 0)) with 2 by ring.
  rewrite !put2_same. set (v := [1 * _ + _; 1 * _ + _]). assert (N : eucl 2 v = 0) by (unfold eucl, v; rewrite dot2; apply sqrt_is; lra). rewrite N, Rabs_R0.
  destruct (Rlt_dec eps 0) as [C|_]; [pose proof eps_pos; lra|]. cbn [bind]. unfold gm_update. cbn [gm_back Nat.sub gm_temp w_H w_gamma w_y Nat.add].
  rewrite (put2_row _ 2) by lia. rewrite put2_same, Hg1. rewrite rdiv_ok by lra. cbn [bind].
  rewrite !(put2_row _ 2) by lia. rewrite !(put2_row _ 1) by lia. rewrite put2_same, put2_col, HH, Hg0, put_same by lia. rewrite rdiv_ok by lra. cbn [bind w_Q].
  replace (gm_restarts _ _ _ _ _ _ _ _ _ _ _ true _ _ _ _) with (Ok (1%nat, comb 2 1 [0; 0] 1 (gemvF 2 2 (w_Q w2) (put (put (w_y w2) 1 (- (4 / 5) / 2)) 0 ((3 / 5 - 1 * (- (4 / 5) / 2)) / 5))), [1] ++ [4 / 5])) by (destruct r; reflexivity).
  do 3 f_equal. unfold gemvF, tab. cbn [seq map rsum]. rewrite HQ0, HQ1, put_same, put_other, put_same, comb2 by lia. unfold rat. cbn [nth]. apply list2; lra.
Qed.
Lemma ex_guess : forall i, (i < 2)%nat -> rat (true_residual 2 ex_G [1; 0] (guess 2 (Some [1; -2]))) i = 0.
Proof. intros i Hi. unfold true_residual. cbn [guess]. rewrite ex_G_val, comb2. destruct i as [|[|i]]; [| |lia]; unfold rat; cbn [nth]; lra. Qed.
Lemma run_broken n A prec left inner norm b eps tol maxiter x rs : run n A prec left inner norm b eps tol maxiter 1 x rs None ->
  exists m q a, (m < maxiter)%nat /\ arnoldi n A prec left inner (gres n A prec left b x) (S m) q /\ norm (comb n 1 (gop A prec left (gdir prec left (q m))) (-1) (lincomb n (S m) a q)) <= eps.
Proof.
  intros HR. inversion HR as [k0 x0 H|x0|k0 x0 m q l a l' o Ht Hm Ha Hl Hle Hs Hc x' Hx' HR'|k0 x0 m q l a Ht Hm Ha Hl Hle Hs He].
  - subst. inversion HR'.
  - exists m, q, a. auto.
Qed.
Lemma ex_run : exists rs y, run 2 ex_G None false (dot 2) (eucl 2) [1; 0] eps (1 / 2) 1 1 [0; 0] rs (Some y) /\ rs = [4 / 5].
Proof.
  set (w := Work (fun _ => []) (fun _ => []) (fun _ _ => 0) (fun _ => 0) (fun _ => 0) (fun _ => 0) (fun _ => 0)).
  destruct (solve_ok 2 ex_G None false false (dot 2) (eucl 2) [1; 0] (mulmv_linear 2 _) (dot_ip 2) ltac:(reflexivity) eq_refl w None false (1 / 2) 1 0 eq_refl ltac:(discriminate) ltac:(lia) ltac:(cbn; lra)) as (rs & o & HR & HE).
  destruct o as [y|].
  - destruct (HE y eq_refl) as (it & c & E & _). rewrite ex_one_iteration in E. injection E as _ _ _ E. exists rs, y. split; [exact HR|]. symmetry. exact E.
  - exfalso. apply run_broken in HR. destruct HR as (m & q & a & Hm & (Lq & O & (g & Eg) & _) & He). replace m with 0%nat in * by lia. specialize (Lq 0%nat ltac:(lia)). specialize (O 0%nat 0%nat ltac:(lia) ltac:(lia)). cbn [Nat.eqb] in O.
    assert (E0 : gres 2 ex_G None false [1; 0] (guess 2 None) = [1; 0]) by (unfold gres, true_residual; change (guess 2 None) with [0; 0]; rewrite ex_G_val, comb2; apply list2; lra).
    pose proof (eq_trans (eq_sym E0) Eg) as Eg'. clear Eg E0. rename Eg' into Eg. cbn [gop gdir] in He. unfold lincomb, tab in *. cbn [seq map rsum] in *.
    destruct (q 0%nat) as [|u [|v [|]]] eqn:Eq; try discriminate. rewrite dot2 in O. unfold rat in *. cbn [nth] in *. injection Eg as G1 G2.
    assert (Ev : v = 0).
    { destruct (Rmult_integral (g 0%nat) v) as [Z|Z]; [lra| |exact Z]. rewrite Z in G1. lra. }
    subst v. rewrite ex_G_val, comb2 in He. unfold eucl in He. rewrite dot2 in He.
    assert (K : sqrt 16 <= eps).
    { eapply Rle_trans; [apply sqrt_le_1_alt|exact He]. set (p := 1 * (3 * u + 0) + _). pose proof (Rle_0_sqr p) as Sp. unfold Rsqr in Sp. replace (1 * (4 * u + 2 * 0) + -1 * (0 + a 0%nat * 0)) with (4 * u) by ring. nra. }
    rewrite (sqrt_is 16 4) in K by lra. unfold eps in K. lra.
Qed.
