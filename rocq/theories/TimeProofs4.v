(** Sequences of implicit-explicit steps, the tableaux, and programs that show the limits. *)
From Verif Require Import MeshModel MeshProofs.
From Verif Require Import LinR TimeModel TimeSpec TimeProofs TimeProofs2 TimeProofs3.
Open Scope R_scope.
Set Default Proof Using "Type".

Section Steps.
  Variables (n : nat) (A : vec -> vec) (I E : operator) (g : R -> vec) (residualNew : imex_residual) (build : builder) (T : tableau) (d : R) (td : bool).
  Hypothesis contract : imex_contract n A I E g residualNew.
  Hypothesis tab_ok : tableau_ok T d.
  Hypothesis mass_solvable : forall t, solves n (fun _ => A) I t 1 0 (build t 1 0).

  Lemma imex_inv_dt dt dt' st : td = true \/ dt = dt' -> imex_inv n A I T d dt td st -> imex_inv n A I T d dt' td st.
  Proof.
    intros [H| ->] (H1 & H2 & H3 & H4 & H5 & H6 & H7 & H8); repeat (split; auto); rewrite H; discriminate.
  Qed.
  Lemma imex_steps_ok dts : forall st t u, length u = n ->
    (forall dt, In dt dts -> forall t, solves n (fun _ => A) I t 1 (d * dt) (build t 1 (d * dt))) ->
    (td = false -> constant_in_time I /\ forall dt dt', In dt dts -> In dt' dts -> dt = dt') ->
    (forall dt, In dt dts -> imex_inv n A I T d dt td st) ->
    exists l, imex_steps n T residualNew build st t u dts = Ok l /\
      evolution t (fun j => nth j dts 0) u (length dts) (fun j t u u' => imex_equation n A I E (fun k => g (t + nth k (tb_c T) 0 * nth j dts 0)) T (nth j dts 0) t u u') l.
  Proof using contract tab_ok mass_solvable.
    induction dts as [|dt dts IH]; intros st t u Lu HS HC HI; cbn [imex_steps].
    - eexists. split; [reflexivity|]. apply evolution_nil.
    - destruct (imex_step_ok n A I E g residualNew build T d contract tab_ok t dt None Logic.I td) with (st := st) (u := u) (dt' := Some dt) as (st' & u' & -> & HI' & _ & Lu' & EQ); auto.
      + apply HS. left; auto.
      + intros H. apply (HC H).
      + apply HI. left; auto.
      + rewrite bind_Ok. cbv beta iota. destruct (IH st' (t + dt) u') as (l & -> & HL); auto.
        * intros dt' H. apply HS. right; auto.
        * intros H. destruct (HC H) as [H1 H2]. split; auto. intros. apply H2; right; auto.
        * intros dt' H. apply (imex_inv_dt dt); auto. destruct td; [auto|]. right. destruct (HC eq_refl) as [_ H2]. apply H2; [left|right]; auto.
        * rewrite bind_Ok. eexists. split; [reflexivity|]. cbn [length]. apply (evolution_cons t (fun j => nth j (dt :: dts) 0) u l (length dts) _ (t + dt) u'); auto.
  Qed.
  Lemma imex_ok dt0 dts t u : length u = n ->
    (forall dt, In dt dts -> forall t, solves n (fun _ => A) I t 1 (d * dt) (build t 1 (d * dt))) ->
    (td = true \/ constant_in_time I /\ forall dt dt', In dt dts -> In dt' dts -> dt = dt') ->
    exists l, imex_steps n T residualNew build (IMEX n T dt0 td) t u dts = Ok l /\
      evolution t (fun j => nth j dts 0) u (length dts) (fun j t u u' => imex_equation n A I E (fun k => g (t + nth k (tb_c T) 0 * nth j dts 0)) T (nth j dts 0) t u u') l.
  Proof using contract tab_ok mass_solvable.
    intros Lu HS HC. apply imex_steps_ok; auto.
    - intros H. destruct HC as [HC|HC]; [congruence|auto].
    - intros dt Hdt. assert (ES : tb_s T = length (tb_c T)) by (destruct tab_ok as (_ & _ & H & _); exact H).
      assert (RZ : rows n T (repeat (vzero n) (tb_s T))).
      { split; [rewrite repeat_length; auto|]. intros j Hj. rewrite <- ES in Hj. rewrite (nth_error_nth _ _ _ (nth_error_repeat (vzero n) Hj)). apply vzero_length. }
      split; [reflexivity|]. do 4 (split; [exact RZ|]). split; [apply vzero_length|]. split; intros _; exact Logic.I.
  Qed.
End Steps.

(** ** Tableaux *)
Ltac three k := destruct k as [|[|[|k]]]; [| | |lia].
Lemma euler_tableau : tableau_ok EulerIMEX 1 /\ row_sums EulerIMEX.
Proof.
  split; [unfold tableau_ok; cbn [tb_c tb_bExpl tb_bImpl tb_AExpl tb_AImpl EulerIMEX length]; do 4 (split; [reflexivity|]); split; [repeat constructor|]; split; [repeat constructor|]; repeat split| ].
  - intros [|[|k]] Hk H j Hj; [| |lia]; [destruct j; [reflexivity|lia]|]. specialize (H 0%nat ltac:(lia)). cbn in H. lra.
  - intros [|[|k]] Hk H; [| |lia]; [|reflexivity]. exfalso. apply H. intros [|[|j]] Hj; [reflexivity|reflexivity|lia].
  - intros [|[|k]] Hk H1 H2 i Hi; [| |lia]; cbn in H1, H2; [lra|lia].
  - intros [|[|k]] Hk H1 H2 i Hi; [| |lia]; cbn in H1, H2; [|lra]. destruct i as [|[|i]]; [reflexivity|reflexivity|lia].
  - intros k Hk. destruct k as [|[|k]]; [| |cbn in Hk; lia]; cbn; split; ring.
Qed.
Lemma gamma_eq : ars3_gamma * ars3_gamma = ars3_gamma - 1 / 6.
Proof. unfold ars3_gamma. pose proof (sqrt_sqrt 3 ltac:(lra)) as H. nra. Qed.
Lemma gamma_range : 1 / 2 < ars3_gamma < 1.
Proof.
  unfold ars3_gamma. pose proof (sqrt_sqrt 3 ltac:(lra)) as H. pose proof (sqrt_lt_R0 3 ltac:(lra)) as H0. split; [lra|]. nra.
Qed.
Lemma ars3_tableau : tableau_ok ARS3 ars3_gamma /\ order_three ARS3.
Proof.
  pose proof gamma_eq as G. pose proof gamma_range as GR. set (gm := ars3_gamma) in *.
  split.
  - unfold tableau_ok; cbn [tb_c tb_bExpl tb_bImpl tb_AExpl tb_AImpl ARS3 length]. fold gm. do 4 (split; [reflexivity|]). split; [repeat constructor|]. split; [repeat constructor|]. repeat split.
    + intros k Hk H j Hj. three k; [destruct j; [reflexivity|lia]| |]; specialize (H 0%nat ltac:(lia)); cbn in H; lra.
    + intros k Hk H. three k; [|reflexivity|reflexivity]. exfalso. apply H. intros j Hj. three j; reflexivity.
    + intros k Hk H1 H2 i Hi. three k; cbn in H1, H2; [lra|lra|lia].
    + intros k Hk H1 H2 i Hi. three k; cbn in H1, H2; [|lra|lra]. three i; reflexivity.
  - split; [split|].
    + intros k Hk. cbn [ARS3 tb_c length] in Hk. fold gm. three k; cbn; fold gm; split; lra.
    + intros b [-> | ->]; cbn; fold gm; split; lra.
    + intros b M [-> | ->] [-> | ->]; cbn; fold gm; split; lra.
Qed.
Lemma koto_tableau : tableau_ok koto 1 /\ order_two koto.
Proof.
  split.
  - unfold tableau_ok; cbn [tb_c tb_bExpl tb_bImpl tb_AExpl tb_AImpl koto length]. do 4 (split; [reflexivity|]). split; [repeat constructor|]. split; [repeat constructor|]. repeat split.
    + intros k Hk H j Hj. destruct k as [|k]; [destruct j; [reflexivity|lia]|]. three k; [pose proof (H 0%nat ltac:(lia)) as Q|pose proof (H 0%nat ltac:(lia)) as Q|pose proof (H 2%nat ltac:(lia)) as Q]; cbn in Q; lra.
    + intros k Hk H. destruct k as [|k]; [|three k; reflexivity]. exfalso. apply H. intros j Hj. destruct j as [|j]; [reflexivity|]. three j; reflexivity.
    + intros k Hk H1 H2 i Hi. destruct k as [|k]; [cbn in H1; lra|]. three k; cbn in H1, H2; [|lra|lia]. destruct i as [|i]; [reflexivity|]. three i; reflexivity.
    + intros k Hk H1 H2 i Hi. destruct k as [|k]; [|three k; cbn in H1, H2; lra]. destruct i as [|i]; [reflexivity|]. three i; reflexivity.
  - split.
    + intros k Hk. cbn [koto tb_c length] in Hk. destruct k as [|k]; [cbn; split; lra|]. three k; cbn; split; lra.
    + intros b [-> | ->]; cbn; split; lra.
Qed.

(** ** Limits *)

(** Over one unknown: A the identity, I u = u, no explicit part and no forcing. *)
Definition toy_I : operator := fun _ u => u.
Definition toy_E : operator := fun _ _ => [0].
Definition toy_residual : imex_residual := fun _ u ut _ a b e c force =>
  Ok [a * rat (given ut []) 0 + b * rat (given u []) 0 - c * rat (given force [0]) 0].
Definition toy_build : builder := fun _ a b rhs _ => [rat rhs 0 / (a + b)].
Lemma toy_contract : imex_contract 1 (fun u => u) toy_I toy_E (fun _ => [0]) toy_residual.
Proof.
  intros t u ut r a b e c force Hr Ha Hb. eexists. split; [reflexivity|]. split; [reflexivity|]. intros i Hi. destruct i; [|lia].
  unfold toy_I, toy_E. set (x := rat (given ut []) 0). set (y := rat (given u []) 0). set (z := rat (given force [0]) 0). cbn. ring.
Qed.
Lemma toy_solves t a b : a + b <> 0 -> solves 1 (fun _ u => u) toy_I t a b (toy_build t a b).
Proof.
  intros H rhs x. split; [reflexivity|]. intros i Hi. destruct i; [|lia]. unfold toy_I, toy_build. unfold rat at 1 3. cbn [nth]. field. auto.
Qed.

Ltac rq := repeat (unfold imex_rhs, imex_final, imex_stage; cbn -[req IZR]; match goal with |- context [req ?a ?b] => first [rewrite (proj2 (req_spec a b)) by lra | rewrite (proj2 (req_false a b)) by lra] end); cbn -[req IZR].
Lemma imex_cache : exists l t u t' u', imex_steps 1 EulerIMEX toy_residual toy_build (IMEX 1 EulerIMEX None false) 0 [1] [1; 2] = Ok l /\
  nth_error l 1 = Some (t, u) /\ nth_error l 2 = Some (t', u') /\ t' = t + 2 /\ ~ imex_equation 1 (fun u => u) toy_I toy_E (fun _ => [0]) EulerIMEX 2 t u u'.
Proof.
  unfold imex_steps, imex_step, stepOfPicard, IMEX, EulerIMEX, toy_residual, toy_build. do 5 eexists. split; [rq; reflexivity|]. split; [reflexivity|]. split; [reflexivity|]. split; [reflexivity|].
  intros (U & HU & HF). specialize (HU 1%nat ltac:(cbn; lia) 0%nat ltac:(lia)). specialize (HF 0%nat ltac:(lia)). unfold toy_I, toy_E, entry in *. cbn -[IZR] in HU, HF.
  unfold rat in *. lra.
Qed.

Lemma adjoint_fails n residualNew build theta dt finalTime b : 0 <= theta <= 1 -> dt <> 0 -> b <> [] -> adjoint_solve n residualNew build theta dt finalTime b = Err EAssert.
Proof.
  intros [H0 H1] Hd Hb. unfold adjoint_solve, CrankNicolson. destruct (Rle_dec 0 theta); [|tauto]. destruct (Rle_dec theta 1); [|tauto]. rewrite bind_Ok. destruct b as [|f b]; [tauto|].
  cbn [map steps]. unfold cn_step, step_size. cbn [st_dt st_solverIsTimeDependent]. assert (Q : req (- dt) dt = false) by (apply req_false; lra). rewrite Q. reflexivity.
Qed.
Definition implicit_only : tableau := Tableau [1] [1] [1] [[0]] [[1]].
Lemma imex_implicit_only : exists l t' u', imex_steps 1 implicit_only toy_residual toy_build (IMEX 1 implicit_only None false) 0 [1] [1] = Ok l /\
  nth_error l 1 = Some (t', u') /\ ~ imex_equation 1 (fun u => u) toy_I toy_E (fun _ => [0]) implicit_only 1 0 [1] u'.
Proof.
  unfold imex_steps, imex_step, stepOfPicard, IMEX, implicit_only, toy_residual, toy_build. do 3 eexists. split; [rq; reflexivity|]. split; [reflexivity|].
  intros (U & HU & HF). specialize (HU 0%nat ltac:(cbn; lia) 0%nat ltac:(lia)). specialize (HF 0%nat ltac:(lia)). unfold toy_I, toy_E, entry in *. cbn -[IZR] in HU, HF.
  unfold rat in *. lra.
Qed.

Lemma l1_thm n A B g residualNew build gamma alpha dt N : residual_contract n A B g residualNew -> 0 < dt -> 0 < alpha < 1 -> gamma (2 - alpha) <> 0 ->
  (let c := gamma (2 - alpha) * Rpower dt alpha in solves n A B 0 1 c (build 0 1 c)) -> constant_in_time A -> constant_in_time B ->
  forall k t u, (k <= N)%nat -> exists s l, L1Scheme n gamma build alpha N dt = Ok s /\ l1_steps n residualNew N alpha dt k s t u = Ok l /\
    evolution t (fun _ => dt) u k (fun _ _ _ _ => True) l /\ forall m, (1 <= m <= k)%nat -> l1_equation n A B g gamma alpha dt l m.
Proof.
  intros H1 H2 H3 H4 H5 H6 H7. apply l1_ok; auto. assert (B0 : bk gamma alpha 0 = / gamma (2 - alpha)) by (unfold bk, npow; cbn [INR]; unfold Rpower; rewrite ln_1, Rmult_0_r, exp_0; unfold Rdiv; ring). rewrite B0. cbv zeta in H5.
  assert (E : Rpower dt alpha / / gamma (2 - alpha) = gamma (2 - alpha) * Rpower dt alpha) by (unfold Rdiv; rewrite Rinv_inv; ring). rewrite E. auto.
Qed.

(** A scalar problem: 2 u_t + 3 u = t. *)
Definition ex_mass (u : vec) : vec := [2 * rat u 0].
Definition ex_stiff (u : vec) : vec := [3 * rat u 0].
Definition ex_force (t : R) : vec := [t].
Definition ex_residual : residual_fun := residual 1 ex_mass ex_stiff ex_stiff ex_force false.
Definition ex_build : builder := fun _ a b rhs _ => [rat rhs 0 / (2 * a + 3 * b)].
Lemma ex_solves t a b : 2 * a + 3 * b <> 0 -> solves 1 (fun _ => ex_mass) (fun _ => ex_stiff) t a b (ex_build t a b).
Proof. intros H rhs x. split; [reflexivity|]. intros i Hi. destruct i; [|lia]. unfold ex_mass, ex_stiff, ex_build. set (y := rat rhs 0). cbn. field. auto. Qed.
Lemma ex_transient : exists l, transient_solve 1 ex_residual ex_build (1 / 2) 1 2 2 [1] = Ok l /\ exists u, nth_error l 1 = Some (1, u) /\ rat u 0 = 2 / 7.
Proof.
  destruct (transient_ok 1 (fun _ => ex_mass) (fun _ => ex_stiff) ex_force ex_residual ex_build (1 / 2) (residual_meets _ _ _ _ _) 1 2 2 [1]) as (l & EL & HL & H0 & HT & HS).
  - lra.
  - lia.
  - lra.
  - cbn. lra.
  - split; [intros; apply ex_solves; lra|]. intros _. split; intros t x; reflexivity.
  - exists l. split; [exact EL|]. destruct (nth_error l 1) as [[t u]|] eqn:E; [|apply nth_error_None in E; lia]. pose proof (HT 1%nat t u E) as Ht. cbn in Ht. exists u. split; [do 2 f_equal; lra|].
    specialize (HS 0%nat 0 [1] t u H0 E 0%nat ltac:(lia)). unfold ex_mass, ex_stiff, ex_force in HS. unfold rat in *. cbn [nth] in HS. lra.
Qed.
Lemma ex_l1 : exists s l, L1Scheme 1 (fun _ => 1) ex_build (1 / 2) 3 1 = Ok s /\ l1_steps 1 ex_residual 3 (1 / 2) 1 2 s 0 [1] = Ok l /\ exists u, nth_error l 1 = Some (1, u) /\ rat u 0 = 3 / 5.
Proof.
  assert (P1 : Rpower 1 (1 / 2) = 1) by (unfold Rpower; rewrite ln_1, Rmult_0_r, exp_0; reflexivity).
  destruct (l1_thm 1 (fun _ => ex_mass) (fun _ => ex_stiff) ex_force ex_residual ex_build (fun _ => 1) (1 / 2) 1 3 (residual_meets _ _ _ _ _)) with (k := 2%nat) (t := 0) (u := [1]) as (s & l & ES & EL & (HL & H0 & HT & _) & HE).
  - lra.
  - lra.
  - lra.
  - cbv zeta. rewrite P1. apply ex_solves. lra.
  - intros t x; reflexivity.
  - intros t x; reflexivity.
  - lia.
  - exists s, l. split; [exact ES|]. split; [exact EL|]. destruct (nth_error l 1) as [[t u]|] eqn:E; [|apply nth_error_None in E; lia]. pose proof (HT 1%nat t u E) as Ht. cbn in Ht. exists u. split; [do 2 f_equal; lra|].
    specialize (HE 1%nat ltac:(lia) 0%nat ltac:(lia)). cbn [rsum] in HE. cbn [Nat.sub] in HE.
    rewrite ?(nth_error_nth l 1 (0, []) E), ?(nth_error_nth l 0 (0, []) H0) in HE. cbn [fst snd] in HE.
    unfold l1_weight, power in HE. cbn [INR] in HE. rewrite P1 in HE. destruct (Req_EM_T (0 + 1) 0); [lra|]. destruct (Req_EM_T 0 0); [|tauto]. rewrite !Rplus_0_l in HE.
    assert (P2 : Rpower 1 (1 - 1 / 2) = 1) by (unfold Rpower; rewrite ln_1, Rmult_0_r, exp_0; reflexivity). rewrite P2 in HE.
    unfold ex_mass, ex_stiff, ex_force, rat in HE. cbn [nth] in HE. unfold rat. lra.
Qed.
Lemma ex_imex : exists l, imex_steps 1 ARS3 toy_residual toy_build (IMEX 1 ARS3 None true) 0 [1] [1; 1 / 2] = Ok l /\
  length l = 3%nat /\ exists t u, nth_error l 2 = Some (t, u) /\ t = 3 / 2.
Proof.
  destruct (imex_ok 1 (fun u => u) toy_I toy_E (fun _ => [0]) toy_residual toy_build ARS3 ars3_gamma true toy_contract (proj1 ars3_tableau)) with (dt0 := @None R) (dts := [1; 1 / 2]) (t := 0) (u := [1]) as (l & EL & HL & H0 & HT & _).
  - intros. apply toy_solves. lra.
  - reflexivity.
  - intros dt Hdt t. apply toy_solves. pose proof gamma_range. destruct Hdt as [<-|[<-|[]]]; lra.
  - auto.
  - exists l. split; [exact EL|]. split; [exact HL|]. destruct (nth_error l 2) as [[t u]|] eqn:E; [|apply nth_error_None in E; cbn in HL; lia]. exists t, u. split; auto. rewrite (HT 2%nat t u E). cbn. lra.
Qed.
