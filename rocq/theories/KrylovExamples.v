(** Concrete systems for the examples of the Krylov theorems. *)
From Verif Require Import LinR KrylovModel KrylovSpec KrylovProofs KrylovProofs2 KrylovProofs3 KrylovProofs4.
Open Scope R_scope.

(** [[2, 1], [1, 2]], diag(1, 3), [[1, 0], [1, 1]] *)
Definition ex_A : vec -> vec := mulmv 2 (fun i j => if (i =? j)%nat then 2 else 1).
Definition ex_B : vec -> vec := mulmv 2 (fun i j => if (i =? j)%nat then (if (i =? 0)%nat then 1 else 3) else 0).
Definition ex_C : vec -> vec := mulmv 2 (fun i j => if (i <? j)%nat then 0 else 1).

Lemma two_nz (x : vec) : (exists i, (i < 2)%nat /\ rat x i <> 0) -> rat x 0 <> 0 \/ rat x 1 <> 0.
Proof. intros (i & Hi & E). destruct i as [|[|i]]; auto. lia. Qed.
Lemma sq_pos a : a <> 0 -> 0 < a * a.
Proof. intros. apply Rsqr_pos_lt. auto. Qed.

Lemma ex_spd : spd 2 ex_A.
Proof.
  split; [apply mulmv_linear|]. split.
  - apply mulmv_sym. intros i j _ _. rewrite Nat.eqb_sym. reflexivity.
  - intros x Hx. apply two_nz in Hx. unfold dot, ex_A, mulmv. cbn [rsum]. rewrite !rat_tab by lia. cbn [rsum Nat.eqb].
    generalize dependent (rat x 0). generalize (rat x 1). intros b a H.
    pose proof (Rle_0_sqr (a + b)) as S1. unfold Rsqr in S1. pose proof (Rle_0_sqr a) as S2. pose proof (Rle_0_sqr b) as S3.
    unfold Rsqr in *.
    destruct H as [H|H]; apply sq_pos in H; nra.
Qed.
Lemma ex_spd_prec : spd 2 ex_A /\ (forall B, Some ex_B = Some B -> sym_op 2 B /\ posdef 2 B) /\ length [1; 0] = 2%nat.
Proof.
  split; [apply ex_spd|]. split; [|reflexivity]. intros B E. injection E as <-. split.
  - apply mulmv_sym. intros i j _ _. rewrite (Nat.eqb_sym j i). destruct (Nat.eqb_spec i j); subst; reflexivity.
  - intros x Hx. apply two_nz in Hx. unfold dot, ex_B, mulmv. cbn [rsum]. rewrite !rat_tab by lia. cbn [rsum Nat.eqb].
    generalize dependent (rat x 0). generalize (rat x 1). intros b a H.
    pose proof (Rle_0_sqr a) as S2. pose proof (Rle_0_sqr b) as S3. unfold Rsqr in *.
    destruct H as [H|H]; apply sq_pos in H; nra.
Qed.
Lemma ex_cg : linear 2 ex_A /\ length [1; 0] = 2%nat /\ (forall v, eucl 2 v = sqrt (dot 2 v v)) /\
  exists it y rs, cg_solve 2 ex_A None (dot 2) (eucl 2) false [1; 0] None false 0 5 = Ok (it, y, rs) /\ ex_A y = [1; 0].
Proof.
  split; [apply mulmv_linear|]. split; [reflexivity|]. split; [reflexivity|].
  destruct (cg_terminates 2 ex_A None false [1; 0] None false 0 5 ex_spd) as (it & y & rs & E & _ & _ & H); try discriminate; auto; try lra.
  exists it, y, rs. auto.
Qed.

Lemma ex_bi : linear 2 ex_C /\
  bicgstab_solve 2 ex_C None (dot 2) (eucl 2) [1; 0] None false 1 5 = Ok (0%nat, [1; -1], [1; 0]).
Proof.
  split; [apply mulmv_linear|].
  assert (HC : forall a b, ex_C [a; b] = [a; a + b]).
  { intros. unfold ex_C, mulmv, tab, rat. cbn. f_equal; [lra|]. f_equal. lra. }
  assert (HD : forall a b c d, dot 2 [a; b] [c; d] = a * c + b * d).
  { intros. unfold dot, rat. cbn. lra. }
  assert (HK : forall u a b v c d, comb 2 u [a; b] v [c; d] = [u * a + v * c; u * b + v * d]) by reflexivity.
  change 5%nat with (S 4). generalize 4%nat as k. intros k.
  unfold bicgstab_solve, start, tolerance_of, bi_prec. cbn [bi_loop]. unfold bi_prec. rewrite !HC, !HD.
  rewrite rdiv_ok by lra. cbn [bind].
  replace (1 * 1 + 0 * 0) with 1 by lra. replace ((1 * 1 + (1 + 0) * 0)) with 1 by lra. replace (1 / 1) with 1 by lra.
  rewrite HK, HC. replace (1 * 1 + - (1) * 1) with 0 by lra. replace (1 * 0 + - (1) * (1 + 0)) with (-1) by lra.
  replace (0 + -1) with (-1) by lra. unfold eucl. rewrite !HD.
  replace (0 * 0 + -1 * -1) with 1 by lra. rewrite sqrt_1. rewrite rdiv_ok by lra. cbn [bind].
  replace (1 / (1 * 1)) with 1 by lra. rewrite !HK, !HD.
  replace (1 * 0 + - (1) * 0) with 0 by lra. replace (1 * -1 + - (1) * -1) with 0 by lra. replace (0 * 0 + 0 * 0) with 0 by lra.
  rewrite sqrt_0. destruct (Rlt_dec 0 1) as [_|C]; [|lra].
  unfold vzero, tab. cbn [seq map app]. rewrite HK. do 3 f_equal. f_equal; [lra|]. f_equal. lra.
Qed.

Lemma ex_exact : linear 2 ex_C /\ length [0; 0] = 2%nat /\
  (forall i, (i < 2)%nat -> rat (true_residual 2 ex_C [0; 0] (guess 2 None)) i = 0).
Proof.
  split; [apply mulmv_linear|]. split; [reflexivity|]. intros i Hi. unfold true_residual. rewrite rat_comb by auto.
  cbn [guess]. unfold ex_C. rewrite (lin_zero 2 _ (mulmv_linear 2 _)), rat_vzero.
  unfold rat. destruct i as [|[|i]]; [cbn [nth]; lra|cbn [nth]; lra|lia].
Qed.
