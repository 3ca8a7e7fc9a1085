(** Jets (a value with two derivatives) and the exactness of Neville's recursion. *)
From Verif Require Import Util Lin InterpSpec.
Local Open Scope Qc_scope.
Set Default Proof Using "Type".

Record jet := J { j0 : Qc; j1 : Qc; j2 : Qc }.
Definition jadd (a b : jet) : jet := J (j0 a + j0 b) (j1 a + j1 b) (j2 a + j2 b).
Definition jmul (a b : jet) : jet := J (j0 a * j0 b) (j0 a * j1 b + j1 a * j0 b) (j0 a * j2 b + (1 + 1) * (j1 a * j1 b) + j2 a * j0 b).
Definition jopp (a : jet) : jet := J (- j0 a) (- j1 a) (- j2 a).
Definition jsub (a b : jet) : jet := jadd a (jopp b).
Definition jq (c : Qc) : jet := J c 0 0.
Lemma jet_ext a b : j0 a = j0 b -> j1 a = j1 b -> j2 a = j2 b -> a = b.
Proof. destruct a, b. cbn. intros -> -> ->. reflexivity. Qed.
Lemma jet_ring : ring_theory (jq 0) (jq 1) jadd jmul jsub jopp eq.
Proof. split; intros; try reflexivity; apply jet_ext; cbn; ring. Qed.
Add Ring jet_r : jet_ring.
Lemma jq_add a b : jq (a + b) = jadd (jq a) (jq b). Proof. apply jet_ext; cbn; ring. Qed.
Lemma jq_mul a b : jq (a * b) = jmul (jq a) (jq b). Proof. apply jet_ext; cbn; ring. Qed.
Lemma jq_sub a b : jq (a - b) = jsub (jq a) (jq b). Proof. apply jet_ext; cbn; ring. Qed.
Lemma jq_opp a : jq (- a) = jopp (jq a). Proof. apply jet_ext; cbn; ring. Qed.
Lemma jq_cancel c a b : c <> 0 -> jmul (jq c) a = jmul (jq c) b -> a = b.
Proof.
  intros Hc E. assert (G : jmul (jq (/ c)) (jmul (jq c) a) = jmul (jq (/ c)) (jmul (jq c) b)) by (rewrite E; reflexivity).
  replace (jmul (jq (/ c)) (jmul (jq c) a)) with (jmul (jq (/ c * c)) a) in G by (rewrite jq_mul; ring).
  replace (jmul (jq (/ c)) (jmul (jq c) b)) with (jmul (jq (/ c * c)) b) in G by (rewrite jq_mul; ring).
  rewrite Qcmult_comm, Qcmult_inv_r in G by auto. transitivity (jmul (jq 1) a); [ring|]. rewrite G. ring.
Qed.

Fixpoint jsum (n : nat) (f : nat -> jet) : jet := match n with O => jq 0 | S n => jadd (jsum n f) (f n) end.
Lemma jsum_ext n f g : (forall i, (i < n)%nat -> f i = g i) -> jsum n f = jsum n g.
Proof. induction n as [|n IH]; intros H; [reflexivity|]. cbn. rewrite IH by (intros; apply H; lia). rewrite H by lia. reflexivity. Qed.
Lemma jsum_add n f g : jsum n (fun i => jadd (f i) (g i)) = jadd (jsum n f) (jsum n g).
Proof. induction n as [|n IH]; cbn; [ring|]. rewrite IH. ring. Qed.
Lemma jsum_scale n c f : jsum n (fun i => jmul c (f i)) = jmul c (jsum n f).
Proof. induction n as [|n IH]; cbn; [ring|]. rewrite IH. ring. Qed.
Lemma jsum_zero n f : (forall i, (i < n)%nat -> f i = jq 0) -> jsum n f = jq 0.
Proof. induction n as [|n IH]; intros H; [reflexivity|]. cbn. rewrite IH by (intros; apply H; lia). rewrite H by lia. ring. Qed.
Lemma jsum_single n f k : (k < n)%nat -> (forall i, (i < n)%nat -> i <> k -> f i = jq 0) -> jsum n f = f k.
Proof.
  induction n as [|n IH]; intros Hk H; [lia|]. cbn. destruct (Nat.eq_dec k n) as [-> |Hne].
  - rewrite jsum_zero by (intros; apply H; lia). ring.
  - rewrite IH by (intros; try apply H; lia). rewrite (H n) by lia. ring.
Qed.
Lemma jsum_parts n f : jsum n f = J (sumf n (fun i => j0 (f i))) (sumf n (fun i => j1 (f i))) (sumf n (fun i => j2 (f i))).
Proof.
  induction n as [|n IH]; [reflexivity|]. cbn [jsum sumf]. rewrite IH. apply jet_ext; reflexivity.
Qed.

(** ** Polynomials of degree < k: their values and their jet at val *)
Section neville.
  Context (val : Qc) (x : nat -> Qc).
  Let v := J val 1 0.

  Inductive pol : nat -> (Qc -> Qc) -> jet -> Prop :=
  | pol_0 f : (forall t, f t = 0) -> pol 0 f (jq 0)
  | pol_S k f fJ g gJ c : pol k g gJ -> (forall t, f t = c + t * g t) -> fJ = jadd (jq c) (jmul v gJ) -> pol (S k) f fJ.

  Lemma pol_ext k f fJ : pol k f fJ -> forall g, (forall t, g t = f t) -> pol k g fJ.
  Proof. intros P g E. destruct P as [f Hf|k f fJ g' gJ c P Hf HJ]; [constructor; intros; rewrite E; auto|]. econstructor; eauto. intros. rewrite E. auto. Qed.
  Lemma pol_zero k : forall f, (forall t, f t = 0) -> pol k f (jq 0).
  Proof. induction k as [|k IH]; intros f Hf; [constructor; auto|]. apply (pol_S k f (jq 0) (fun _ => 0) (jq 0) 0); [apply IH; reflexivity| |]. - intros. rewrite Hf. ring. - ring. Qed.
  Lemma pol_up k f fJ : pol k f fJ -> pol (S k) f fJ.
  Proof.
    induction 1 as [f Hf|k f fJ g gJ c P IH Hf HJ]; [apply pol_zero, Hf|]. apply (pol_S (S k) f fJ g gJ c); auto.
  Qed.
  Lemma pol_le k k' f fJ : (k <= k')%nat -> pol k f fJ -> pol k' f fJ.
  Proof. induction 1 as [|k' H IH]; intros P; [exact P|]. apply pol_up, IH, P. Qed.
  Lemma pol_add k f fJ : pol k f fJ -> forall g gJ, pol k g gJ -> pol k (fun t => f t + g t) (jadd fJ gJ).
  Proof.
    induction 1 as [f Hf|k f fJ f' fJ' c P IH Hf HJ]; intros g gJ Q.
    - inversion Q as [g' Hg|]; subst. replace (jadd (jq 0) (jq 0)) with (jq 0) by ring. constructor. intros. rewrite Hf, Hg. ring.
    - inversion Q as [|k' g0 gJ0 g' gJ' c' Q' Hg HgJ]; subst. apply (pol_S k _ _ (fun t => f' t + g' t) (jadd fJ' gJ') (c + c')).
      + apply IH, Q'.
      + intros t. rewrite Hf, Hg. ring.
      + rewrite jq_add. ring.
  Qed.
  Lemma pol_scale k f fJ a : pol k f fJ -> pol k (fun t => a * f t) (jmul (jq a) fJ).
  Proof.
    induction 1 as [f Hf|k f fJ f' fJ' c P IH Hf HJ].
    - replace (jmul (jq a) (jq 0)) with (jq 0) by ring. constructor. intros. rewrite Hf. ring.
    - subst. apply (pol_S k _ _ (fun t => a * f' t) (jmul (jq a) fJ') (a * c)); [exact IH| |].
      + intros t. rewrite Hf. ring.
      + rewrite jq_mul. ring.
  Qed.
  (** multiplication by t - a *)
  Lemma pol_factor k f fJ a : pol k f fJ -> pol (S k) (fun t => (t - a) * f t) (jmul (jsub v (jq a)) fJ).
  Proof.
    intros P. pose proof (pol_scale _ _ _ (- a) (pol_up _ _ _ P)) as P1.
    assert (P2 : pol (S k) (fun t => t * f t) (jmul v fJ)).
    { apply (pol_S k _ _ f fJ 0 P); [intros; ring|]. ring. }
    replace (jmul (jsub v (jq a)) fJ) with (jadd (jmul v fJ) (jmul (jq (- a)) fJ)) by (rewrite jq_opp; ring).
    apply (pol_ext _ _ _ (pol_add _ _ _ P2 _ _ P1)). intros; ring.
  Qed.

  (** (t - x_a) ... (t - x_{a+k-1}) *)
  Fixpoint N (a k : nat) (t : Qc) : Qc := match k with O => 1 | S k => (t - x (a + k)) * N a k t end.
  Fixpoint NJ (a k : nat) : jet := match k with O => jq 1 | S k => jmul (jsub v (jq (x (a + k)))) (NJ a k) end.
  Lemma pol_N a k : pol (S k) (N a k) (NJ a k).
  Proof.
    induction k as [|k IH]; cbn [N NJ].
    - apply (pol_S 0 _ _ (fun _ => 0) (jq 0) 1); [constructor; reflexivity| |]; [intros; ring|ring].
    - apply pol_factor, IH.
  Qed.
  Lemma pol_split a k : forall f fJ, pol (S k) f fJ ->
    exists c g gJ, pol k g gJ /\ (forall t, f t = g t + c * N a k t) /\ fJ = jadd gJ (jmul (jq c) (NJ a k)).
  Proof.
    induction k as [|k IH]; intros f fJ P; inversion P as [|k' f0 fJ0 g gJ c Q Hf HJ]; subst.
    - inversion Q as [g' Hg|]; subst. exists c, (fun _ => 0), (jq 0). split; [constructor; reflexivity|]. split.
      + intros t. rewrite Hf, Hg. cbn [N]. ring.
      + cbn [NJ]. ring.
    - destruct (IH g gJ Q) as (d & g' & gJ' & P' & Hg & HgJ).
      exists d, (fun t => (c + t * g' t) + d * x (a + k) * N a k t), (jadd (jadd (jq c) (jmul v gJ')) (jmul (jq (d * x (a + k))) (NJ a k))). split; [|split].
      + apply (pol_add (S k) (fun t => c + t * g' t)).
        * apply (pol_S k _ _ g' gJ' c P'); auto.
        * apply (pol_scale (S k) (N a k)), pol_N.
      + intros t. rewrite Hf, Hg. cbn [N]. ring.
      + cbn [NJ]. rewrite HgJ, jq_mul. ring.
  Qed.
  Lemma N_root a k : forall i, (a <= i < a + k)%nat -> N a k (x i) = 0.
  Proof.
    induction k as [|k IH]; intros i Hi; [lia|]. cbn [N]. destruct (Nat.eq_dec i (a + k)) as [-> |Hne]; [ring|]. rewrite IH by lia. ring.
  Qed.
  Lemma N_left a k t : N a (S k) t = (t - x a) * N (S a) k t.
  Proof. induction k as [|k IH]; [cbn [N]; rewrite Nat.add_0_r; ring|]. change (N a (S (S k)) t) with ((t - x (a + S k)) * N a (S k) t). rewrite IH. cbn [N]. replace (S a + k)%nat with (a + S k)%nat by lia. ring. Qed.
  Lemma NJ_left a k : NJ a (S k) = jmul (jsub v (jq (x a))) (NJ (S a) k).
  Proof. induction k as [|k IH]; [cbn [NJ]; rewrite Nat.add_0_r; ring|]. change (NJ a (S (S k))) with (jmul (jsub v (jq (x (a + S k)))) (NJ a (S k))). rewrite IH. cbn [NJ]. replace (S a + k)%nat with (a + S k)%nat by lia. ring. Qed.

  (** The recursion. *)
  Context (n : nat).
  Hypothesis distinct : forall i j, (i < j < n)%nat -> x i - x j <> 0.
  Fixpoint w (k j i : nat) : jet :=
    match k with
    | O => if (j =? i)%nat then jq 1 else jq 0
    | S k' => jmul (jq (/ (x j - x (S k' + j)))) (jsub (jmul (w k' j i) (jsub v (jq (x (S k' + j))))) (jmul (w k' (S j) i) (jsub v (jq (x j)))))
    end.
  Lemma w_S k j i : (S k + j < n)%nat ->
    jmul (jq (x j - x (S k + j))) (w (S k) j i) = jsub (jmul (w k j i) (jsub v (jq (x (S k + j))))) (jmul (w k (S j) i) (jsub v (jq (x j)))).
  Proof using distinct.
    intros H. cbn [w]. match goal with |- jmul ?a (jmul ?b ?c) = _ => replace (jmul a (jmul b c)) with (jmul (jmul a b) c) by ring end.
    rewrite <- jq_mul, Qcmult_inv_r by (apply distinct; lia). ring.
  Qed.
  Lemma w_support k : forall j i, (i < j \/ j + k < i)%nat -> w k j i = jq 0.
  Proof.
    induction k as [|k IH]; intros j i H; cbn [w].
    - destruct (Nat.eqb_spec j i); [lia|reflexivity].
    - rewrite !IH by lia. ring.
  Qed.
  (** the last weight, and the first *)
  Lemma w_last k : forall j, (j + k < n)%nat -> jmul (jq (N j k (x (j + k)))) (w k j (j + k)) = NJ j k.
  Proof using distinct.
    induction k as [|k IH]; intros j Hj.
    - rewrite Nat.add_0_r. cbn [N NJ w]. rewrite Nat.eqb_refl. ring.
    - rewrite N_left, NJ_left. replace (j + S k)%nat with (S j + k)%nat by lia.
      apply (jq_cancel (x j - x (S j + k))); [apply distinct; lia|]. rewrite jq_mul.
      pose proof (w_S k j (S j + k) ltac:(lia)) as E. replace (S k + j)%nat with (S j + k)%nat in E by lia. rewrite (w_support k j) in E by lia.
      transitivity (jmul (jmul (jq (x (S j + k) - x j)) (jq (N (S j) k (x (S j + k))))) (jmul (jq (x j - x (S j + k))) (w (S k) j (S j + k)))); [ring|]. rewrite E.
      rewrite <- (IH (S j)) by lia. rewrite !jq_sub. ring.
  Qed.
  Definition L (k j : nat) (f : Qc -> Qc) : jet := jsum n (fun i => jmul (jq (f (x i))) (w k j i)).
  Lemma L_add k j f g h : (forall t, f t = g t + h t) -> L k j f = jadd (L k j g) (L k j h).
  Proof. intros H. unfold L. rewrite <- jsum_add. apply jsum_ext. intros i _. rewrite H, jq_add. ring. Qed.
  Lemma L_scale k j f g c : (forall t, f t = c * g t) -> L k j f = jmul (jq c) (L k j g).
  Proof. intros H. unfold L. rewrite <- jsum_scale. apply jsum_ext. intros i _. rewrite H, jq_mul. ring. Qed.
  Lemma L_S k j f : (S k + j < n)%nat ->
    jmul (jq (x j - x (S k + j))) (L (S k) j f) = jsub (jmul (L k j f) (jsub v (jq (x (S k + j))))) (jmul (L k (S j) f) (jsub v (jq (x j)))).
  Proof using distinct.
    intros H. unfold L. rewrite <- jsum_scale.
    rewrite (jsum_ext n _ (fun i => jadd (jmul (jsub v (jq (x (S k + j)))) (jmul (jq (f (x i))) (w k j i))) (jmul (jopp (jsub v (jq (x j)))) (jmul (jq (f (x i))) (w k (S j) i))))).
    - rewrite jsum_add, !jsum_scale. ring.
    - intros i _. transitivity (jmul (jq (f (x i))) (jmul (jq (x j - x (S k + j))) (w (S k) j i))); [ring|]. rewrite w_S by auto. ring.
  Qed.
  Lemma L_exact k : forall j f fJ, (k + j < n)%nat -> pol (S k) f fJ -> L k j f = fJ.
  Proof using distinct.
    induction k as [|k IH]; intros j f fJ Hj P.
    - inversion P as [|k' f0 fJ0 g gJ c Q Hf HJ]; subst. inversion Q as [g' Hg|]; subst.
      unfold L. rewrite (jsum_single n _ j); [|lia|intros i Hi Hne; cbn [w]; destruct (Nat.eqb_spec j i); [congruence|ring]].
      cbn [w]. rewrite Nat.eqb_refl, Hf, Hg. replace (c + x j * 0) with c by ring. ring.
    - destruct (pol_split j (S k) f fJ P) as (c & g & gJ & Pg & Hf & HJ).
      rewrite (L_add (S k) j f g (fun t => c * N j (S k) t) Hf). rewrite (L_scale (S k) j (fun t => c * N j (S k) t) (N j (S k)) c) by reflexivity. rewrite HJ.
      f_equal; [|f_equal]; apply (jq_cancel (x j - x (S k + j))); try (apply distinct; lia); rewrite L_S by auto.
      + rewrite !(IH _ g gJ) by (auto; lia). rewrite jq_sub. ring.
      + assert (Z : L k j (N j (S k)) = jq 0).
        { unfold L. apply jsum_zero. intros i Hi. destruct (le_lt_dec j i) as [H1|H1]; [destruct (le_lt_dec i (j + k)) as [H2|H2]|].
          - rewrite N_root by lia. ring.
          - rewrite w_support by lia. ring.
          - rewrite w_support by lia. ring. }
        rewrite Z. assert (Y : L k (S j) (N j (S k)) = jmul (jq (x (S k + j) - x j)) (NJ (S j) k)).
        { unfold L. rewrite (jsum_single n _ (S j + k)); [|lia|intros i Hi Hne; destruct (le_lt_dec (S j) i); [destruct (le_lt_dec i (j + k)); [rewrite N_root by lia; ring|rewrite w_support by lia; ring]|rewrite w_support by lia; ring]].
          rewrite N_left, jq_mul, <- (w_last k (S j)) by lia. replace (S k + j)%nat with (S j + k)%nat by lia. ring. }
        rewrite Y, NJ_left, !jq_sub. ring.
  Qed.
End neville.

(** ** Derivatives of polynomials *)
Fixpoint evalj (p : list Qc) (v : jet) : jet := match p with [] => jq 0 | c :: r => jadd (jq c) (jmul v (evalj r v)) end.
Lemma pol_list val (p : list Qc) : pol val (length p) (evalp p) (evalj p (J val 1 0)).
Proof. induction p as [|c p IH]; cbn [length evalp evalj]; [constructor; reflexivity|]. econstructor; [exact IH| |]; reflexivity. Qed.
Lemma qz_S k : qz (Z.of_nat (S k)) = qz (Z.of_nat k) + 1.
Proof. rewrite Nat2Z.inj_succ. unfold qz. apply Qc_is_canon. unfold Qcplus, Q2Qc, this. rewrite !Qred_correct. unfold Z.succ. rewrite inject_Z_plus. reflexivity. Qed.
Lemma times_from_S p : forall k x, evalp (times_from (S k) p) x = evalp (times_from k p) x + evalp p x.
Proof. induction p as [|c p IH]; intros k x; cbn [times_from evalp]; [ring|]. rewrite IH, qz_S. ring. Qed.
Lemma times_from_0 p x : evalp (times_from 0 p) x = x * evalp (deriv p) x.
Proof. destruct p as [|c p]; cbn [times_from evalp deriv tl]; [ring|]. replace (qz (Z.of_nat 0)) with 0 by reflexivity. ring. Qed.
Lemma deriv_cons c p x : evalp (deriv (c :: p)) x = evalp p x + x * evalp (deriv p) x.
Proof. unfold deriv at 1. cbn [tl]. rewrite times_from_S, times_from_0. ring. Qed.
Fixpoint addp (p q : list Qc) : list Qc := match p, q with [], q => q | p, [] => p | a :: p, b :: q => (a + b) :: addp p q end.
Lemma evalp_addp p : forall q x, evalp (addp p q) x = evalp p x + evalp q x.
Proof. induction p as [|a p IH]; intros [|b q] x; cbn [addp evalp]; try ring. rewrite IH. ring. Qed.
Lemma times_from_addp p : forall q k, times_from k (addp p q) = addp (times_from k p) (times_from k q).
Proof. induction p as [|a p IH]; intros [|b q] k; cbn [addp times_from]; try reflexivity. rewrite IH. f_equal. ring. Qed.
Lemma tl_addp p q : tl (addp p q) = addp (tl p) (tl q).
Proof. destruct p as [|a p], q as [|b q]; cbn [addp tl]; try reflexivity. destruct p; reflexivity. Qed.
Lemma deriv_addp p q : deriv (addp p q) = addp (deriv p) (deriv q).
Proof. unfold deriv. rewrite tl_addp. apply times_from_addp. Qed.
Lemma deriv_cons_list c p : deriv (c :: p) = addp p (0 :: deriv p) \/ p = [].
Proof.
  destruct p as [|a p]; [auto|left]. unfold deriv. cbn [tl]. cbn [addp times_from].
  f_equal; [rewrite qz_S; change (qz (Z.of_nat 0)) with 0; ring|].
  assert (G : forall p k, times_from (S k) p = addp p (times_from k p)); [|apply G].
  clear. induction p as [|c p IH]; intros k; [reflexivity|]. cbn [times_from addp]. rewrite IH, qz_S. f_equal. ring.
Qed.
Lemma deriv2_cons c p x : evalp (deriv (deriv (c :: p))) x = (1 + 1) * evalp (deriv p) x + x * evalp (deriv (deriv p)) x.
Proof.
  destruct (deriv_cons_list c p) as [E| ->]; [|cbn; ring]. rewrite E, deriv_addp, evalp_addp, deriv_cons. ring.
Qed.
Lemma evalj_derivs p x : evalj p (J x 1 0) = J (evalp p x) (evalp (deriv p) x) (evalp (deriv (deriv p)) x).
Proof.
  induction p as [|c p IH]; [reflexivity|]. cbn [evalj]. rewrite IH. apply jet_ext; cbn [jadd jmul jq j0 j1 j2].
  - cbn [evalp]. ring.
  - rewrite deriv_cons. ring.
  - rewrite deriv2_cons. ring.
Qed.
