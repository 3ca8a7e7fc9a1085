(** Proofs for the L1 scheme. *)
From Verif Require Import MeshProofs.
From Verif Require Import LinR TimeModel TimeSpec TimeProofs.
Open Scope R_scope.
Set Default Proof Using "Type".

Lemma rsum_first n f : rsum (S n) f = f O + rsum n (fun j => f (S j)).
Proof. induction n as [|n IH]; [cbn; lra|]. cbn [rsum] in *. rewrite IH. lra. Qed.
Lemma rsum_rev n f : rsum n f = rsum n (fun j => f (n - 1 - j)%nat).
Proof.
  induction n as [|n IH]; auto. rewrite (rsum_first n (fun j => f (S n - 1 - j)%nat)). replace (S n - 1 - 0)%nat with n by lia. cbn [rsum]. rewrite Rplus_comm. f_equal. rewrite IH.
  apply rsum_ext. intros j Hj. f_equal. lia.
Qed.
(** Summation by parts. *)
Lemma abel (b a : nat -> R) k m : (S m <= k)%nat ->
  rsum (S m) (fun j => b j * (a (k - j)%nat - a (k - j - 1)%nat)) = b O * a k - rsum m (fun j => (b j - b (S j)) * a (k - S j)%nat) - b m * a (k - S m)%nat.
Proof.
  induction m as [|m IH]; intros H.
  - cbn [rsum]. rewrite Nat.sub_0_r. replace (k - 1)%nat with (k - S 0)%nat by lia. ring.
  - cbn [rsum] in *. rewrite IH by lia. replace (k - S m - 1)%nat with (k - S (S m))%nat by lia. ring.
Qed.

Lemma nth_firstn_lt {X} (l : list X) k j d : (j < k)%nat -> nth j (firstn k l) d = nth j l d.
Proof. revert l j. induction k as [|k IH]; intros l j H; [lia|]. destruct l as [|x l]; auto. destruct j as [|j]; cbn [firstn nth]; auto. apply IH. lia. Qed.
Lemma all_init_tab {X} n (f : nat -> X) (b : buf X) : length b = n -> (forall x, (x < n)%nat -> nth_error b x = Some (Some (f x))) -> all_init b = Ok (tab n f).
Proof.
  intros L H. assert (E : b = map Some (tab n f)).
  { apply nth_error_ext. intros x. rewrite nth_error_map. destruct (Nat.lt_ge_cases x n) as [Hx|Hx].
    - rewrite H by auto. rewrite (nth_error_nth' _ (f x)) by (rewrite tab_length; auto). rewrite nth_tab by auto. reflexivity.
    - rewrite (proj2 (nth_error_None b x)) by lia. rewrite (proj2 (nth_error_None (tab n f) x)) by (rewrite tab_length; lia). reflexivity. }
  rewrite E. apply all_init_some.
Qed.

Section L1.
  Variables (n : nat) (A B : operator) (g : R -> vec) (residualNew : residual_fun) (build : builder) (gamma : R -> R) (alpha dt : R) (N : nat).
  Hypothesis contract : residual_contract n A B g residualNew.
  Hypothesis dt_pos : 0 < dt.
  Hypothesis alpha_range : 0 < alpha < 1.
  Hypothesis gamma_pos : gamma (2 - alpha) <> 0.

  Definition bk (k : nat) : R := (npow (S k) (1 - alpha) - npow k (1 - alpha)) / gamma (2 - alpha).
  Lemma b0_val : bk 0 = / gamma (2 - alpha).
  Proof using All. unfold bk, npow. cbn [INR]. unfold Rpower. rewrite ln_1, Rmult_0_r, exp_0. unfold Rdiv. ring. Qed.
  Lemma b0_nz : bk 0 <> 0.
  Proof using All. rewrite b0_val. apply Rinv_neq_0_compat. auto. Qed.
  Lemma npow_power k a : npow k a = power (INR k) a.
  Proof using All.
    unfold power. destruct k as [|k]; [cbn; destruct (Req_EM_T 0 0); tauto|]. unfold npow. destruct (Req_EM_T (INR (S k)) 0) as [E|]; auto. apply (not_0_INR (S k)) in E; [tauto|lia].
  Qed.
  Lemma weight_bk j : l1_weight gamma alpha dt j = bk j / Rpower dt alpha.
  Proof using All.
    unfold l1_weight, bk. rewrite !npow_power, S_INR. assert (Rpower dt alpha <> 0) by (unfold Rpower; pose proof (exp_pos (alpha * ln dt)); lra). field. auto.
  Qed.

  Definition coeff_at (k x : nat) : R := if (x =? 0)%nat then bk (k - 1) / bk 0 else (bk (k - x - 1) - bk (k - x)) / bk 0.
  Lemma aget_b j : (j <= N)%nat -> aget (l1_b gamma alpha N) j = Ok (bk j).
  Proof using All.
    intros H. unfold l1_b, aget. rewrite (nth_error_nth' _ 0) by (rewrite tab_length; lia). rewrite nth_tab by lia. reflexivity.
  Qed.
  Lemma coeff_ok k : (1 <= k <= S N)%nat -> l1_coeff (l1_b gamma alpha N) k = Ok (tab k (coeff_at k)).
  Proof using All.
    intros Hk. unfold l1_coeff. rewrite !aget_b by lia. rewrite !bind_Ok. rewrite rdiv_ok by apply b0_nz. rewrite bind_Ok.
    rewrite wr_ok by (rewrite alloc_length; lia). rewrite bind_Ok.
    destruct (for_range_inv (fun m (c : buf R) => length c = k /\ forall x, (x < k)%nat -> (x = 0 \/ k - x < m)%nat -> nth_error c x = Some (Some (coeff_at k x)))
      (fun j c => x <- aget (l1_b gamma alpha N) (j - 1) ;; y <- aget (l1_b gamma alpha N) j ;; q <- rdiv (x - y) (bk 0) ;; wr c (k - j) q) 1 k (upd (alloc k) 0 (Some (bk (k - 1) / bk 0))))
      as (c & -> & Lc & Vc).
    - lia.
    - split; [rewrite upd_length; apply alloc_length|]. intros x Hx Hx'. assert (x = 0)%nat as -> by lia. rewrite nth_error_upd_eq by (rewrite alloc_length; lia). reflexivity.
    - intros m c Hm (Lc & Vc). rewrite !aget_b by lia. rewrite !bind_Ok. rewrite rdiv_ok by apply b0_nz. rewrite bind_Ok. rewrite wr_ok by lia. eexists. split; [reflexivity|].
      split; [rewrite upd_length; auto|]. intros x Hx Hx'. destruct (Nat.eq_dec x (k - m)) as [->|Ne].
      + rewrite nth_error_upd_eq by lia. do 2 f_equal. unfold coeff_at. destruct (Nat.eqb_spec (k - m) 0); [lia|]. replace (k - (k - m))%nat with m by lia. reflexivity.
      + rewrite nth_error_upd_neq by auto. apply Vc; auto. lia.
    - rewrite bind_Ok. apply all_init_tab; auto. intros x Hx. apply Vc; auto. lia.
  Qed.

  (** Times and states so far. *)
  Definition hist_A (h : list (R * vec)) (j : nat) : vec := let '(t, u) := nth j h (0, []) in A t u.
  Definition l1_inv (h : list (R * vec)) (s : l1) : Prop :=
    l1_bs s = l1_b gamma alpha N /\ l1_solver s = build 0 1 (Rpower dt alpha / bk 0) /\ length (l1_rhs s) = n /\ length (l1_rhs2 s) = n /\ l1_k s = length h /\
    length (l1_memory s) = S N /\ (forall j, (j <= N)%nat -> length (nth j (l1_memory s) []) = n) /\
    ((2 <= length h)%nat -> forall j i, (j < length h)%nat -> (i < n)%nat -> rat (nth j (l1_memory s) []) i = rat (hist_A h j) i).
  Hypothesis solvable : solves n A B 0 1 (Rpower dt alpha / bk 0) (build 0 1 (Rpower dt alpha / bk 0)).
  Hypothesis constA : constant_in_time A.
  Hypothesis constB : constant_in_time B.

  Lemma hist_A_app h x j : (j < length h)%nat -> hist_A (h ++ [x]) j = hist_A h j.
  Proof using All. intros H. unfold hist_A. rewrite app_nth1 by auto. reflexivity. Qed.

  Lemma l1_step_ok h t u s : l1_inv (h ++ [(t, u)]) s -> (length h < N)%nat ->
    exists s' u', l1_step n residualNew N alpha dt s t u = Ok (s', t + dt, u') /\ l1_inv ((h ++ [(t, u)]) ++ [(t + dt, u')]) s' /\
      l1_equation n A B g gamma alpha dt ((h ++ [(t, u)]) ++ [(t + dt, u')]) (S (length h)).
  Proof using All.
    intros (Eb & Es & Lr & Lr2 & Ek & Lm & Lrow & Vm) HN. set (h1 := h ++ [(t, u)]) in *. assert (Lh : length h1 = S (length h)) by (unfold h1; rewrite app_length; cbn; lia).
    assert (HP : 0 < Rpower dt alpha) by (unfold Rpower; apply exp_pos). pose proof b0_nz as B0.
    unfold l1_step. rewrite Ek, Lh. destruct (Nat.leb_spec (S (length h)) N); [|lia]. cbn [guard bind]. rewrite Eb, aget_b by lia. rewrite bind_Ok.
    rewrite rdiv_ok by auto. rewrite bind_Ok.
    destruct (contract (t + dt) None None (l1_rhs s) 0 0 (- Rpower dt alpha / bk 0) 0 None) as (r1 & -> & L1 & V1); auto. rewrite bind_Ok.
    destruct (contract t None (Some u) (l1_rhs2 s) 1 0 0 0 None) as (r2 & -> & L2 & V2); auto; [right; discriminate|]. rewrite bind_Ok.
    assert (HM : exists M, (if (S (length h) =? 1)%nat then aset (l1_memory s) 0 r2 else Ok (l1_memory s)) = Ok M /\ length M = S N /\ (forall j, (j <= N)%nat -> length (nth j M []) = n) /\
      forall j i, (j < length h1)%nat -> (i < n)%nat -> rat (nth j M []) i = rat (hist_A h1 j) i).
    { destruct (Nat.eqb_spec (S (length h)) 1) as [E1|E1].
      - rewrite aset_ok by lia. eexists. split; [reflexivity|]. split; [rewrite upd_length; auto|]. split.
        + intros j Hj. destruct (Nat.eq_dec j 0) as [->|Ne]; [rewrite nth_upd_eq by lia; auto|rewrite nth_upd_neq by auto; auto].
        + intros j i Hj Hi. assert (j = 0)%nat as -> by lia. rewrite nth_upd_eq by lia. rewrite V2 by auto. unfold hist_A, h1. destruct h; [|cbn in E1; lia]. cbn [app nth given]. ring.
      - eexists. split; [reflexivity|]. split; [auto|]. split; [auto|]. intros j i. apply Vm. lia. }
    destruct HM as (M & -> & LM & LMr & VM). rewrite bind_Ok. rewrite coeff_ok by lia. rewrite bind_Ok.
    set (rhs2 := np_dot n _ _). set (rhs := axpy n r1 1 rhs2). rewrite Es. set (q := Rpower dt alpha / bk 0) in *. set (u' := build 0 1 q rhs u).
    unfold aget at 1. rewrite (nth_error_nth' M []) by lia. rewrite bind_Ok.
    destruct (contract (t + dt) None (Some u') (nth (S (length h)) M []) 1 0 0 0 None) as (mk & -> & Lmk & Vmk); auto; [right; discriminate|]. rewrite bind_Ok.
    rewrite aset_ok by lia. rewrite bind_Ok. eexists _, u'. split; [reflexivity|]. split.
    - split; [reflexivity|]. split; [reflexivity|]. split; [apply tab_length|]. split; [apply tab_length|]. cbn [l1_k l1_memory]. split; [rewrite app_length, Lh; cbn; lia|].
      split; [rewrite upd_length; auto|]. split.
      + intros j Hj. destruct (Nat.eq_dec (S (length h)) j) as [<-|Ne]; [rewrite nth_upd_eq by lia; auto|rewrite nth_upd_neq by auto; auto].
      + intros _ j i Hj Hi. rewrite app_length in Hj. cbn in Hj. destruct (Nat.eq_dec (S (length h)) j) as [<-|Ne].
        * rewrite nth_upd_eq by lia. rewrite Vmk by auto. cbn [given]. unfold hist_A. rewrite app_nth2 by lia. rewrite Lh, Nat.sub_diag. cbn [nth]. ring.
        * rewrite nth_upd_neq by auto. rewrite hist_A_app by lia. apply VM; auto. lia.
    - intros i Hi. cbv zeta. set (h2 := h1 ++ [(t + dt, u')]).
      assert (Elast : nth (S (length h)) h2 (0, []) = (t + dt, u')) by (unfold h2; rewrite app_nth2 by lia; rewrite Lh, Nat.sub_diag; reflexivity). rewrite Elast. cbn [fst snd].
      rewrite (rsum_ext _ _ (fun j => / Rpower dt alpha * (bk j * (rat (hist_A h2 (S (length h) - j)) i - rat (hist_A h2 (S (length h) - j - 1)) i)))).
      2: { intros j Hj. rewrite weight_bk. unfold hist_A. field. lra. }
      rewrite rsum_scal. set (a := fun j => rat (hist_A h2 j) i).
      change (rsum (S (length h)) (fun j => bk j * (rat (hist_A h2 (S (length h) - j)) i - rat (hist_A h2 (S (length h) - j - 1)) i)))
        with (rsum (S (length h)) (fun j => bk j * (a (S (length h) - j)%nat - a (S (length h) - j - 1)%nat))).
      rewrite abel by lia. rewrite Nat.sub_diag.
      assert (Eq : rat rhs2 i = / bk 0 * (rsum (length h) (fun j => (bk j - bk (S j)) * a (S (length h) - S j)%nat) + bk (length h) * a 0%nat)).
      { unfold rhs2, np_dot. rewrite rat_tab, tab_length by auto. rewrite rsum_first. rewrite nth_tab by lia. unfold coeff_at at 1. cbn [Nat.eqb]. replace (S (length h) - 1)%nat with (length h) by lia.
        rewrite (rsum_rev (length h) (fun j => nth (S j) _ _ * _)).
        rewrite (rsum_ext _ _ (fun j => / bk 0 * ((bk j - bk (S j)) * a (S (length h) - S j)%nat))).
        2: { intros j Hj. rewrite nth_tab by lia. unfold coeff_at. cbn [Nat.eqb]. replace (S (length h) - S (length h - 1 - j) - 1)%nat with j by lia.
             replace (S (length h) - S (length h - 1 - j))%nat with (S j) by lia. rewrite nth_firstn_lt by lia. replace (S (length h - 1 - j)) with (S (length h) - S j)%nat by lia.
             rewrite VM by lia. unfold a, h2. rewrite hist_A_app by lia. unfold Rdiv. ring. }
        rewrite rsum_scal. rewrite nth_firstn_lt by lia. rewrite VM by lia. unfold a, h2. rewrite (hist_A_app _ _ 0) by lia. unfold Rdiv. ring. }
      destruct (solvable rhs u) as [Lu EU]. specialize (EU i Hi). fold q in EU. fold u' in EU. unfold rhs in EU. rewrite rat_axpy, Eq, V1 in EU by auto. cbn [given] in EU.
      assert (EA : rat (A 0 u') i = a (S (length h))) by (unfold a, hist_A; rewrite Elast; symmetry; f_equal; apply constA). rewrite EA in EU. rewrite <- (constB (t + dt) u') in EU.
      set (X := rsum (length h) _) in *. apply (Rmult_eq_reg_l q). 2: { unfold q. unfold Rdiv. apply Rmult_integral_contrapositive. split; [lra|]. apply Rinv_neq_0_compat. auto. }
      transitivity (a (S (length h)) - / bk 0 * (X + bk (length h) * a 0%nat) + q * rat (B (t + dt) u') i).
      { unfold q. field. split; auto. lra. }
      transitivity ((1 * a (S (length h)) + q * rat (B (t + dt) u') i) - / bk 0 * (X + bk (length h) * a 0%nat)); [ring|]. rewrite EU. unfold q. field. auto.
  Qed.

  Lemma l1_equation_app l r m : (m < length l)%nat -> l1_equation n A B g gamma alpha dt l m -> l1_equation n A B g gamma alpha dt (l ++ r) m.
  Proof using All.
    intros Hm H i Hi. specialize (H i Hi). cbv zeta in *. rewrite (app_nth1 l r (0, []) Hm). rewrite <- H. f_equal. apply rsum_ext. intros j Hj.
    rewrite !(app_nth1 l r (0, [])) by lia. reflexivity.
  Qed.
  Lemma l1_steps_ok : forall k h t u s, l1_inv (h ++ [(t, u)]) s -> (length h + k <= N)%nat ->
    exists l, l1_steps n residualNew N alpha dt k s t u = Ok l /\ evolution t (fun _ => dt) u k (fun _ _ _ _ => True) l /\
      forall m, (length h < m <= length h + k)%nat -> l1_equation n A B g gamma alpha dt (h ++ l) m.
  Proof using All.
    induction k as [|k IH]; intros h t u s HI HN; cbn [l1_steps].
    - eexists. split; [reflexivity|]. split; [apply evolution_nil|]. intros. lia.
    - destruct (l1_step_ok h t u s HI) as (s' & u' & -> & HI' & HE); [lia|]. rewrite bind_Ok.
      destruct (IH (h ++ [(t, u)]) (t + dt) u' s' HI') as (l & EL & HV & HL); [rewrite app_length; cbn; lia|]. rewrite EL, bind_Ok. eexists. split; [reflexivity|].
      split; [apply (evolution_cons t (fun _ => dt) u l k (fun _ _ _ _ => True) (t + dt) u'); auto|].
      rewrite app_length in HL. cbn [length] in HL. intros m Hm. assert (EQ : (h ++ [(t, u)]) ++ l = h ++ (t, u) :: l) by (rewrite <- app_assoc; reflexivity).
      rewrite <- EQ. destruct (Nat.eq_dec m (S (length h))) as [->|Ne]; [|apply HL; lia].
      destruct l as [|x l]; [destruct HV as (Q & _); cbn in Q; lia|]. destruct HV as (_ & Q & _). cbn [nth_error] in Q. inversion Q; subst x.
      replace ((h ++ [(t, u)]) ++ (t + dt, u') :: l) with (((h ++ [(t, u)]) ++ [(t + dt, u')]) ++ l) by (rewrite <- !app_assoc; reflexivity).
      apply l1_equation_app; auto. rewrite !app_length. cbn. lia.
  Qed.
  Lemma l1_ok k t u : (k <= N)%nat -> exists s l, L1Scheme n gamma build alpha N dt = Ok s /\ l1_steps n residualNew N alpha dt k s t u = Ok l /\
    evolution t (fun _ => dt) u k (fun _ _ _ _ => True) l /\ forall m, (1 <= m <= k)%nat -> l1_equation n A B g gamma alpha dt l m.
  Proof using All.
    intros Hk. unfold L1Scheme. destruct (Rlt_dec 0 alpha); [|tauto]. destruct (Rlt_dec alpha 1); [|tauto]. rewrite aget_b by lia. rewrite bind_Ok, rdiv_ok by apply b0_nz. rewrite bind_Ok.
    eexists. edestruct (l1_steps_ok k [] t u) as (l & EL & HV & HE); [|cbn; lia|exists l; split; [reflexivity|]; split; [exact EL|]; split; [exact HV|]; intros m Hm; apply HE; cbn; lia].
    split; [reflexivity|]. split; [reflexivity|]. split; [apply vzero_length|]. split; [apply vzero_length|]. split; [reflexivity|]. split; [apply repeat_length|]. split.
    - intros j Hj. cbn [l1_memory]. assert (Hj' : (j < S N)%nat) by lia. rewrite (nth_error_nth _ _ _ (nth_error_repeat (vzero n) Hj')). apply vzero_length.
    - cbn. lia.
  Qed.
End L1.
