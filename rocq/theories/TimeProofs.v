(** Proofs for the theta scheme and the L1 scheme. *)
From Verif Require Import LinR TimeModel TimeSpec.
Open Scope R_scope.
Set Default Proof Using "Type".

Lemma bind_Ok {X Y} (x : X) (f : X -> res Y) : bind (Ok x) f = f x.
Proof. reflexivity. Qed.
Lemma req_spec a b : req a b = true <-> a = b.
Proof. unfold req. destruct (Req_EM_T a b); split; auto; discriminate. Qed.
Lemma req_false a b : req a b = false <-> a <> b.
Proof. unfold req. destruct (Req_EM_T a b); split; auto; try discriminate; tauto. Qed.
Lemma rdiv_ok a b : b <> 0 -> rdiv a b = Ok (a / b).
Proof. intros. unfold rdiv. destruct (Req_EM_T b 0); tauto. Qed.
Lemma rat_axpy n x c y i : (i < n)%nat -> rat (axpy n x c y) i = rat x i + c * rat y i.
Proof. intros. unfold axpy. apply rat_tab. auto. Qed.
Lemma rat_scale n c x i : (i < n)%nat -> rat (scale n c x) i = c * rat x i.
Proof. intros. unfold scale. apply rat_tab. auto. Qed.

(** The callback of the transient problem. *)
Lemma residual_meets n mass A Atrans force : residual_contract n (fun _ => mass) (fun _ => A) force (residual n mass A Atrans force false).
Proof.
  intros t u ut r a b c d f Hr Ha Hb. unfold residual. cbv beta iota zeta.
  match goal with |- context [if req d 1 then ?x else ?y] => set (r0 := if req d 1 then x else y) end.
  assert (H0 : length r0 = n /\ forall i, (i < n)%nat -> rat r0 i = d * rat r i).
  { unfold r0. destruct (req d 1) eqn:E; [apply req_spec in E; subst d; split; auto; intros; ring|]. split; [apply tab_length|]. intros. apply rat_scale; auto. }
  clearbody r0. destruct H0 as [L0 V0].
  assert (H1 : exists r1 : vec, (if req a 0 then Ok r0 else ut <- needed ut ;; Ok (axpy n r0 1 (scale n a (mass ut)))) = Ok r1 /\ length r1 = n /\
    forall i, (i < n)%nat -> rat r1 i = rat r0 i + a * rat (mass (given ut [])) i).
  { destruct (req a 0) eqn:E; [apply req_spec in E; subst a; exists r0; repeat split; auto; intros; ring|]. apply req_false in E.
    destruct ut as [ut|]; [|tauto]. cbn [needed bind given]. eexists. split; [reflexivity|]. split; [apply tab_length|]. intros. rewrite rat_axpy, rat_scale by auto. ring. }
  destruct H1 as (r1 & -> & L1 & V1). rewrite bind_Ok.
  assert (H2 : exists r2 : vec, (if req b 0 then Ok r1 else u <- needed u ;; Ok (axpy n r1 1 (scale n b (A u)))) = Ok r2 /\ length r2 = n /\
    forall i, (i < n)%nat -> rat r2 i = rat r1 i + b * rat (A (given u [])) i).
  { destruct (req b 0) eqn:E; [apply req_spec in E; subst b; exists r1; repeat split; auto; intros; ring|]. apply req_false in E.
    destruct u as [u|]; [|tauto]. cbn [needed bind given]. eexists. split; [reflexivity|]. split; [apply tab_length|]. intros. rewrite rat_axpy, rat_scale by auto. ring. }
  destruct H2 as (r2 & -> & L2 & V2). rewrite bind_Ok.
  destruct (req c 0) eqn:E.
  - apply req_spec in E. subst c. exists r2. repeat split; auto. intros i Hi. rewrite V2, V1, V0 by auto. ring.
  - eexists. split; [reflexivity|]. split; [apply tab_length|]. intros i Hi. rewrite rat_axpy, rat_scale, V2, V1, V0 by auto. destruct f; cbn [given]; ring.
Qed.

Lemma step_size_ok s dt d : (dt = Some d \/ dt = None /\ st_dt s = Some d) -> (st_solverIsTimeDependent s = true \/ st_dt s = Some d) -> step_size s dt = Ok d.
Proof.
  intros H1 H2. unfold step_size. assert (E : (match dt with Some d0 => Some d0 | None => st_dt s end) = Some d) by (destruct H1 as [->|[-> ->]]; auto).
  rewrite E. destruct (st_solverIsTimeDependent s); auto. destruct H2 as [H2|H2]; [discriminate|]. rewrite H2.
  assert (req d d = true) as -> by (apply req_spec; auto). reflexivity.
Qed.

Section Theta.
  Variables (n : nat) (A B : operator) (g : R -> vec) (residualNew : residual_fun) (build : builder) (theta : R).
  Hypothesis contract : residual_contract n A B g residualNew.

  Lemma setRHS_ok t dt rhs : length rhs = n -> exists r, setRHS residualNew theta t dt rhs = Ok r /\ length r = n /\
    forall i, (i < n)%nat -> rat r i = (1 - theta) * rat (g t) i + theta * rat (g (t + dt)) i.
  Proof using contract.
    intros Hr. unfold setRHS.
    destruct (contract t None None rhs 0 0 (- (1 - theta)) 0 None) as (r1 & -> & L1 & V1); auto. rewrite bind_Ok.
    destruct (contract (t + dt) None None r1 0 0 (- theta) 1 None) as (r2 & -> & L2 & V2); auto. eexists. split; [reflexivity|]. split; auto.
    intros i Hi. rewrite V2, V1 by auto. cbn [given]. ring.
  Qed.

  (** What holds between steps. *)
  Definition state_ok (td : bool) (d : R) (s : stepper) : Prop :=
    length (st_rhs s) = n /\ st_solverIsTimeDependent s = td /\
    (td = false -> st_dt s = Some d /\ match st_solver s with Some f => solves n A B 0 (1 / d) theta f | None => True end).
  Definition solvable (td : bool) (d : R) : Prop :=
    (forall t, solves n A B t (1 / d) theta (build t (1 / d) theta)) /\ (td = false -> constant_in_time A /\ constant_in_time B).

  Lemma cn_step_ok td s t dt d u f : d <> 0 -> (dt = Some d \/ dt = None /\ st_dt s = Some d) -> state_ok td d s -> solvable td d ->
    exists s' u', cn_step residualNew build theta s t dt u f = Ok (s', t + d, u') /\ st_dt s' = st_dt s /\ length u' = n /\
      state_ok td d s' /\ theta_step n A B theta d (given f (g t)) (given f (g (t + d))) t u u'.
  Proof using contract.
    intros Hd Hdt (Lr & Ht & Hc) [HS HT]. unfold cn_step.
    rewrite (step_size_ok s dt d Hdt). 2: { rewrite Ht. destruct td; auto. right. apply Hc; auto. } rewrite bind_Ok.
    rewrite (rdiv_ok 1 d) by auto. rewrite bind_Ok.
    destruct (contract t (Some u) (Some u) (st_rhs s) (1 / d) (- (1 - theta)) (- (1 - theta)) 0 f) as (r1 & -> & L1 & V1); auto; try (right; discriminate). rewrite bind_Ok.
    destruct (contract (t + d) (Some u) (Some u) r1 0 0 (- theta) 1 f) as (r2 & -> & L2 & V2); auto. rewrite bind_Ok.
    set (s1 := Stepper _ _ _ _).
    assert (HG : exists f' s', getSolver build s1 (t + d) (1 / d) theta = (f', s') /\ st_dt s' = st_dt s /\ state_ok td d s' /\ solves n A B (t + d) (1 / d) theta f').
    { unfold getSolver, s1. cbn [st_solverIsTimeDependent st_solver st_dt st_rhs]. rewrite Ht. destruct td.
      - eexists _, _. split; [reflexivity|]. split; [reflexivity|]. split; [|apply HS]. split; [auto|]. split; [auto|discriminate].
      - destruct (Hc eq_refl) as [HD HF]. destruct (HT eq_refl) as [CA CB].
        assert (Q : forall f, solves n A B 0 (1 / d) theta f -> solves n A B (t + d) (1 / d) theta f).
        { intros f0 H0 rhs x. destruct (H0 rhs x) as [L V]. split; auto. intros i Hi. rewrite CA, CB. apply V; auto. }
        destruct (st_solver s) as [f0|] eqn:EF.
        + eexists _, _. split; [reflexivity|]. split; [reflexivity|]. split; [|apply Q; auto]. split; [auto|]. split; [auto|]. intros _. cbn [st_dt st_solver]. split; auto.
        + eexists _, _. split; [reflexivity|]. split; [reflexivity|]. split; [|apply Q, HS]. split; [auto|]. split; [auto|]. intros _. cbn [st_dt st_solver]. split; auto. }
    destruct HG as (f' & s' & -> & ED & S' & F'). exists s', (f' r2 u). split; [reflexivity|]. split; [auto|]. destruct (F' r2 u) as [Lu E]. split; [auto|]. split; [auto|].
    intros i Hi. specialize (E i Hi). rewrite V2, V1 in E by auto. destruct f as [f|]; cbn [given] in *; unfold Rdiv in *; rewrite ?Rmult_1_l in E; lra.
  Qed.

  Lemma evolution_cons t0 d u0 l k (step : nat -> R -> vec -> vec -> Prop) (t1 : R) u1 : evolution t1 (fun j => d (S j)) u1 k (fun j => step (S j)) l -> t1 = t0 + d O -> step O t0 u0 u1 ->
    evolution t0 d u0 (S k) step ((t0, u0) :: l).
  Proof.
    clear. intros (HL & H0 & HT & HS) -> Hs. split; [cbn; lia|]. split; [reflexivity|]. split.
    - intros [|j] t u Hj; cbn [nth_error] in Hj; [inversion Hj; subst; cbn [rsum]; ring|]. apply HT in Hj. rewrite Hj.
      assert (E : rsum (S j) d = d O + rsum j (fun j => d (S j))) by (clear; induction j as [|j IH]; [cbn; lra|cbn [rsum] in *; rewrite IH; lra]). rewrite E. ring.
    - intros [|j] t u t' u' Hj Hj'; [change (nth_error l 0 = Some (t', u')) in Hj'; cbn [nth_error] in Hj; inversion Hj; subst; rewrite H0 in Hj'; inversion Hj'; subst; auto|].
      change (nth_error l j = Some (t, u)) in Hj. change (nth_error l (S j) = Some (t', u')) in Hj'. eapply HS; eauto.
  Qed.
  Lemma evolution_nil t0 d u0 step : evolution t0 d u0 0 step [(t0, u0)].
  Proof.
    split; [reflexivity|]. split; [reflexivity|]. split.
    - intros [|[|j]] t u Hj; cbn in Hj; inversion Hj; subst. cbn [rsum]. ring.
    - intros j t u t' u' Hj Hj'. cbn [nth_error] in Hj'. destruct j; discriminate.
  Qed.

  Lemma cn_steps_ok td d dt : d <> 0 -> solvable td d -> forall forcing s t u, (dt = Some d \/ dt = None /\ st_dt s = Some d) -> state_ok td d s ->
    exists l, steps (fun s t u f => cn_step residualNew build theta s t dt u f) s t u forcing = Ok l /\
      evolution t (fun _ => d) u (length forcing) (fun j t u u' => theta_step n A B theta d (given (nth j forcing None) (g t)) (given (nth j forcing None) (g (t + d))) t u u') l.
  Proof using contract.
    intros Hd HS. induction forcing as [|f forcing IH]; intros s t u Hdt H; cbn [steps].
    - eexists. split; [reflexivity|]. apply evolution_nil.
    - destruct (cn_step_ok td s t dt d u f Hd Hdt H HS) as (s' & u' & -> & ED & Lu & H' & HE). rewrite bind_Ok.
      destruct (IH s' (t + d) u') as (l & -> & HL); auto; [rewrite ED; auto|]. rewrite bind_Ok. eexists. split; [reflexivity|]. cbn [length].
      apply (evolution_cons t (fun _ => d) u l _ _ (t + d) u'); auto.
  Qed.
  Lemma cn_ok (td : bool) d dt forcing t0 u0 : 0 <= theta <= 1 -> d <> 0 -> (td = false -> dt = Some d) -> solvable td d ->
    exists s l, CrankNicolson n theta dt td = Ok s /\ steps (fun s t u f => cn_step residualNew build theta s t (Some d) u f) s t0 u0 forcing = Ok l /\
      evolution t0 (fun _ => d) u0 (length forcing) (fun j t u u' => theta_step n A B theta d (given (nth j forcing None) (g t)) (given (nth j forcing None) (g (t + d))) t u u') l.
  Proof using contract.
    intros [T0 T1] Hd Hdt HS. unfold CrankNicolson. destruct (Rle_dec 0 theta); [|tauto]. destruct (Rle_dec theta 1); [|tauto].
    eexists. edestruct (cn_steps_ok td d (Some d) Hd HS forcing) as (l & E & HL); [left; reflexivity| |exists l; split; [reflexivity|]; split; [exact E|exact HL]].
    split; [apply vzero_length|]. split; [reflexivity|]. intros Q. cbn [st_dt st_solver]. auto.
  Qed.

  Lemma buildRHS_ok d N (times : list R) : length times = S N -> exists b, buildRHS n residualNew theta d times N = Ok b /\ length b = N /\
    forall k t, (k < N)%nat -> nth_error times k = Some t -> forall i, (i < n)%nat -> rat (nth k b []) i = (1 - theta) * rat (g t) i + theta * rat (g (t + d)) i.
  Proof using contract.
    intros HL. unfold buildRHS.
    destruct (for_range_inv (fun m b => length b = N /\ (forall k, (k < N)%nat -> length (nth k b []) = n) /\
        forall k t, (k < m)%nat -> nth_error times k = Some t -> forall i, (i < n)%nat -> rat (nth k b []) i = (1 - theta) * rat (g t) i + theta * rat (g (t + d)) i)
      (fun k b => t <- aget times k ;; bk <- aget b k ;; bk <- setRHS residualNew theta t d bk ;; aset b k bk) 0 N (repeat (vzero n) N)) as (b & E & Lb & _ & V).
    - lia.
    - split; [apply repeat_length|]. split; [|intros; lia]. intros k Hk. rewrite (nth_error_nth _ _ _ (nth_error_repeat (vzero n) Hk)). apply vzero_length.
    - intros m b1 Hm (Lb1 & HB1 & V1).
      destruct (nth_error times m) as [t|] eqn:Et; [|apply nth_error_None in Et; lia].
      unfold aget at 1. rewrite Et, bind_Ok. unfold aget at 1. rewrite (nth_error_nth' b1 []) by lia. rewrite bind_Ok.
      destruct (setRHS_ok t d (nth m b1 [])) as (r & -> & Lr & Vr); [apply HB1; lia|]. rewrite bind_Ok.
      rewrite aset_ok by lia. eexists. split; [reflexivity|]. split; [rewrite upd_length; auto|]. split.
      + intros k Hk. destruct (Nat.eq_dec k m) as [->|Ne]; [rewrite nth_upd_eq by lia; auto|rewrite nth_upd_neq by auto; auto].
      + intros k t' Hk Et' i Hi. destruct (Nat.eq_dec k m) as [->|Ne].
        * rewrite nth_upd_eq by lia. rewrite Et in Et'. inversion Et'; subst. auto.
        * rewrite nth_upd_neq by auto. apply V1; auto. lia.
    - exists b. split; [exact E|]. split; auto.
  Qed.

  (** The time loop: the forcing of step j is that of the scheme. *)
  Lemma transient_ok d finalTime N u0 : 0 <= theta <= 1 -> (0 < N)%nat -> finalTime <> 0 -> d = finalTime / INR N -> solvable false d ->
    exists l, transient_solve n residualNew build theta d finalTime N u0 = Ok l /\
      evolution 0 (fun _ => d) u0 N (fun j t u u' => theta_step n A B theta d (g t) (g (t + d)) t u u') l.
  Proof using contract.
    intros HT HN HF Hd HS. assert (HN' : INR N <> 0) by (apply not_0_INR; lia).
    assert (D0 : d <> 0) by (rewrite Hd; unfold Rdiv; apply Rmult_integral_contrapositive; split; auto using Rinv_neq_0_compat).
    unfold transient_solve. destruct (buildRHS_ok d N (timesVector finalTime N)) as (b & EB & Lb & Vb); [apply tab_length|].
    destruct (cn_ok false d (Some d) (map Some b) 0 u0) as (s & l & -> & ES & HL & H0 & HT' & HS'); auto. rewrite bind_Ok, EB, bind_Ok. exists l. split; [exact ES|].
    rewrite map_length, Lb in HL. split; [auto|]. split; [auto|]. split; [auto|].
    intros j t u t' u' Hj Hj' i Hi. assert (Lj : (S j < length l)%nat) by (apply nth_error_Some; congruence).
    assert (Hjb : (j < length b)%nat) by lia. specialize (HS' j t u t' u' Hj Hj' i Hi). pose proof (HT' j t u Hj) as Et.
    rewrite (nth_error_nth (map Some b) j None (x := Some (nth j b []))) in HS' by (rewrite nth_error_map, (nth_error_nth' b []) by auto; reflexivity). cbn [given] in HS'.
    rewrite (Vb j t) in HS'; auto; [lra|lia|]. unfold timesVector. rewrite (nth_error_nth' _ 0) by (rewrite tab_length; lia). rewrite nth_tab by lia. f_equal.
    rewrite Et, <- Hd. assert (Q : forall m, rsum m (fun _ => d) = INR m * d) by (clear; induction m as [|m IH]; [cbn; ring|cbn [rsum]; rewrite IH, S_INR; ring]). rewrite Q. ring.
  Qed.
End Theta.
