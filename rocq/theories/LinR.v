(** Real vectors for the Krylov methods, whose stopping criteria need square
    roots.  A vector is a list of real numbers; operations take the dimension. *)
From Coq Require Export Reals Lra.
From Verif Require Export Util Lin.
Close Scope R_scope.
Set Default Proof Using "Type".

Definition vec := list R.
Definition rat (x : vec) (i : nat) : R := nth i x 0%R.
Fixpoint rsum (n : nat) (f : nat -> R) : R :=
  match n with O => 0%R | S k => (rsum k f + f k)%R end.
(** a x + b y *)
Definition comb (n : nat) (a : R) (x : vec) (b : R) (y : vec) : vec :=
  tab n (fun i => (a * rat x i + b * rat y i)%R).
Definition vzero (n : nat) : vec := tab n (fun _ => 0%R).
Definition dot (n : nat) (x y : vec) : R := rsum n (fun i => rat x i * rat y i)%R.
(** Product with a matrix. *)
Definition rmat := nat -> nat -> R.
Definition mulmv (n : nat) (M : rmat) (x : vec) : vec := tab n (fun i => rsum n (fun j => M i j * rat x j)%R).
Definition linear (n : nat) (A : vec -> vec) : Prop :=
  (forall x, length (A x) = n) /\
  forall a x b y, A (comb n a x b y) = comb n a (A x) b (A y).
Definition sym_op (n : nat) (A : vec -> vec) : Prop := forall x y, dot n x (A y) = dot n (A x) y.
(** Positive definite: <x, A x> > 0 unless x vanishes. *)
Definition posdef (n : nat) (A : vec -> vec) : Prop :=
  forall x, (exists i, i < n /\ rat x i <> 0%R) -> (0 < dot n x (A x))%R.

Lemma rat_tab n f i : i < n -> rat (tab n f) i = f i.
Proof. intros. apply nth_tab; auto. Qed.
Lemma rvec_ext n (x y : vec) : length x = n -> length y = n -> (forall i, i < n -> rat x i = rat y i) -> x = y.
Proof.
  intros Hx Hy H. rewrite (list_eq_tab x 0%R), (list_eq_tab y 0%R), Hx, Hy. apply tab_ext. intros i Hi. apply (H i Hi).
Qed.
Lemma rsum_ext n f g : (forall i, i < n -> f i = g i) -> rsum n f = rsum n g.
Proof. induction n as [|n IH]; intros H; cbn [rsum]; auto. rewrite IH, H; auto. Qed.
Lemma rsum_zero n f : (forall i, i < n -> f i = 0%R) -> rsum n f = 0%R.
Proof. induction n as [|n IH]; intros H; cbn [rsum]; auto. rewrite IH, H; auto. lra. Qed.
Lemma rsum_plus n f g : (rsum n (fun i => f i + g i) = rsum n f + rsum n g)%R.
Proof. induction n as [|n IH]; cbn [rsum]; [lra|]. rewrite IH. lra. Qed.
Lemma rsum_scal n c f : (rsum n (fun i => c * f i) = c * rsum n f)%R.
Proof. induction n as [|n IH]; cbn [rsum]; [lra|]. rewrite IH. lra. Qed.
Lemma rsum_swap n m (f : nat -> nat -> R) :
  rsum n (fun i => rsum m (fun j => f i j)) = rsum m (fun j => rsum n (fun i => f i j)).
Proof.
  induction n as [|n IH]; cbn [rsum].
  - symmetry. apply rsum_zero. auto.
  - rewrite IH, <- rsum_plus. reflexivity.
Qed.
Lemma rsum_nonneg n f : (forall i, i < n -> (0 <= f i)%R) -> (0 <= rsum n f)%R.
Proof. induction n as [|n IH]; intros H; cbn [rsum]; [lra|]. pose proof (IH ltac:(auto)). pose proof (H n ltac:(auto)). lra. Qed.
Lemma rsum_nonneg_zero n f : (forall i, i < n -> (0 <= f i)%R) -> rsum n f = 0%R -> forall i, i < n -> f i = 0%R.
Proof.
  induction n as [|n IH]; intros H E i Hi; cbn [rsum] in *; [lia|].
  pose proof (rsum_nonneg n f ltac:(auto)). pose proof (H n ltac:(auto)).
  destruct (Nat.eq_dec i n); [subst; lra|]. apply IH; auto; try lia. lra.
Qed.
Lemma rsum_delta n k f : k < n -> (forall i, i < n -> i <> k -> f i = 0%R) -> rsum n f = f k.
Proof.
  induction n as [|n IH]; intros Hk H; [lia|]. cbn [rsum]. destruct (Nat.eq_dec k n).
  - subst. rewrite rsum_zero; [lra|]. intros i Hi. apply H; lia.
  - rewrite IH, (H n); auto; try lia. lra.
Qed.

Lemma comb_length n a x b y : length (comb n a x b y) = n.
Proof. apply tab_length. Qed.
Lemma rat_comb n a x b y i : i < n -> rat (comb n a x b y) i = (a * rat x i + b * rat y i)%R.
Proof. intros. unfold comb. rewrite rat_tab; auto. Qed.
Lemma vzero_length n : length (vzero n) = n.
Proof. apply tab_length. Qed.
Lemma rat_vzero n i : rat (vzero n) i = 0%R.
Proof.
  destruct (Nat.lt_ge_cases i n); [unfold vzero; rewrite rat_tab; auto|].
  unfold rat. apply nth_overflow. rewrite vzero_length. auto.
Qed.

Lemma dot_comm n x y : dot n x y = dot n y x.
Proof. apply rsum_ext. intros. lra. Qed.
Lemma dot_comb_l n a x b y z : dot n (comb n a x b y) z = (a * dot n x z + b * dot n y z)%R.
Proof.
  unfold dot. rewrite <- !rsum_scal, <- rsum_plus. apply rsum_ext. intros i Hi. rewrite rat_comb by auto. lra.
Qed.
Lemma dot_comb_r n a x b y z : dot n z (comb n a x b y) = (a * dot n z x + b * dot n z y)%R.
Proof. rewrite dot_comm, dot_comb_l, (dot_comm n x), (dot_comm n y). reflexivity. Qed.
Lemma dot_self_nonneg n x : (0 <= dot n x x)%R.
Proof. apply rsum_nonneg. intros. apply Rle_0_sqr. Qed.
Lemma dot_self_zero n x : dot n x x = 0%R -> forall i, i < n -> rat x i = 0%R.
Proof.
  intros H i Hi. pose proof (rsum_nonneg_zero n _ ltac:(intros; apply Rle_0_sqr) H i Hi) as E. cbn beta in E.
  apply Rsqr_0_uniq. exact E.
Qed.
Lemma dot_zero_l n x y : (forall i, i < n -> rat x i = 0%R) -> dot n x y = 0%R.
Proof. intros H. apply rsum_zero. intros i Hi. rewrite H by auto. lra. Qed.
Lemma dot_zero_r n x y : (forall i, i < n -> rat y i = 0%R) -> dot n x y = 0%R.
Proof. intros. rewrite dot_comm. apply dot_zero_l. auto. Qed.

Lemma zero_dec n (x : vec) : {forall i, i < n -> rat x i = 0%R} + {exists i, i < n /\ rat x i <> 0%R}.
Proof.
  induction n as [|n [IH|IH]].
  - left. intros. lia.
  - destruct (Req_EM_T (rat x n) 0) as [E|E].
    + left. intros i Hi. destruct (Nat.eq_dec i n); subst; auto. apply IH. lia.
    + right. exists n. auto.
  - right. destruct IH as (i & Hi & E). exists i. auto.
Qed.

Lemma mulmv_linear n M : linear n (mulmv n M).
Proof.
  split; [intros; apply tab_length|]. intros a x b y. unfold mulmv at 1, comb at 2. apply tab_ext. intros i Hi.
  unfold mulmv. rewrite !rat_tab by auto. rewrite <- !rsum_scal, <- rsum_plus. apply rsum_ext.
  intros j Hj. rewrite rat_comb by auto. lra.
Qed.
Lemma mulmv_sym n M : (forall i j, i < n -> j < n -> M i j = M j i) -> sym_op n (mulmv n M).
Proof.
  intros H x y. unfold dot.
  rewrite (rsum_ext n _ (fun i => rsum n (fun j => rat x i * (M i j * rat y j))%R)).
  2: { intros i Hi. unfold mulmv. rewrite rat_tab, <- rsum_scal by auto. reflexivity. }
  rewrite rsum_swap. apply rsum_ext. intros j Hj. unfold mulmv. rewrite rat_tab by auto.
  rewrite Rmult_comm, <- rsum_scal. apply rsum_ext. intros i Hi. rewrite (H i j) by auto. lra.
Qed.

Section Lin.
  Variables (n : nat) (A : vec -> vec).
  Hypothesis lin : linear n A.
  Lemma lin_zero : A (vzero n) = vzero n.
  Proof using lin.
    destruct lin as [Hl H]. assert (vzero n = comb n 0 (vzero n) 0 (vzero n)) as E.
    { unfold vzero, comb. apply tab_ext. intros. lra. }
    rewrite E at 1. rewrite H. unfold comb, vzero. apply tab_ext. intros. lra.
  Qed.
  Lemma lin_zero' x : length x = n -> (forall i, i < n -> rat x i = 0%R) -> forall i, rat (A x) i = 0%R.
  Proof using lin.
    intros Hx H i. assert (x = vzero n) as ->.
    { apply (rvec_ext n); auto using vzero_length. intros. rewrite rat_vzero. auto. }
    rewrite lin_zero. apply rat_vzero.
  Qed.
End Lin.

(** * More than n vectors of dimension n are linearly dependent. *)
Lemma dependent n : forall m (v : nat -> nat -> R), n < m ->
  exists c : nat -> R, (exists k, k < m /\ c k <> 0%R) /\
    forall i, i < n -> rsum m (fun k => c k * v k i)%R = 0%R.
Proof.
  induction n as [|n IH]; intros m v Hm.
  - exists (fun _ => 1%R). split; [exists 0; split; [lia|lra]|]. intros; lia.
  - (* is there a vector with non-zero last component? *)
    assert (forall q, {k | k < q /\ v k n <> 0%R} + {forall k, k < q -> v k n = 0%R}) as D.
    { induction q as [|q [(k & Hk & E)|Z]].
      - right. intros; lia.
      - left. exists k. auto.
      - destruct (Req_EM_T (v q n) 0).
        + right. intros k Hk. destruct (Nat.eq_dec k q); subst; auto. apply Z. lia.
        + left. exists q. auto. }
    destruct (D m) as [(p & Hp & E)|Z].
    + (* eliminate with pivot p; the other m-1 vectors, renumbered *)
      set (g := fun k => if k <? p then k else S k).
      destruct (IH (m - 1) (fun k i => v (g k) i - v (g k) n / v p n * v p i)%R ltac:(lia)) as (c & (k0 & Hk0 & Hc) & H0).
      set (d := fun k => if k =? p then (- rsum (m - 1) (fun k => c k * (v (g k) n / v p n)))%R
                 else if k <? p then c k else c (k - 1)).
      assert (Hsum : forall f, rsum m (fun k => d k * f k)%R
          = (rsum (m - 1) (fun k => c k * f (g k)) + d p * f p)%R).
      { intros f. 
        assert (forall q, q <= p -> rsum q (fun k => d k * f k)%R = rsum q (fun k => c k * f (g k))%R) as L1.
        { intros q Hq. apply rsum_ext. intros k Hk. unfold d, g.
          destruct (Nat.eqb_spec k p), (Nat.ltb_spec k p); try lia. reflexivity. }
        assert (forall q, rsum (S p + q) (fun k => d k * f k)%R
            = (rsum (p + q) (fun k => c k * f (g k)) + d p * f p)%R) as L2.
        { induction q as [|q IHq].
          - rewrite !Nat.add_0_r. cbn [rsum]. rewrite L1 by auto. reflexivity.
          - rewrite !Nat.add_succ_r. cbn [rsum]. rewrite IHq.
            change (S p + q) with (S (p + q)).
            replace (d (S (p + q))) with (c (p + q)).
            2: { unfold d. destruct (Nat.eqb_spec (S (p + q)) p), (Nat.ltb_spec (S (p + q)) p); try lia. f_equal. lia. }
            replace (g (p + q)) with (S (p + q)).
            2: { unfold g. destruct (Nat.ltb_spec (p + q) p); lia. }
            lra. }
        specialize (L2 (m - 1 - p)). replace (S p + (m - 1 - p)) with m in L2 by lia.
        replace (p + (m - 1 - p)) with (m - 1) in L2 by lia. exact L2. }
      exists d. split.
      * exists (g k0). split; [unfold g; destruct (Nat.ltb_spec k0 p); lia|].
        unfold d, g. destruct (Nat.ltb_spec k0 p).
        -- destruct (Nat.eqb_spec k0 p), (Nat.ltb_spec k0 p); try lia; auto.
        -- destruct (Nat.eqb_spec (S k0) p), (Nat.ltb_spec (S k0) p); try lia.
           replace (S k0 - 1) with k0 by lia. auto.
      * intros i Hi. rewrite Hsum. unfold d at 1. rewrite Nat.eqb_refl.
        destruct (Nat.eq_dec i n) as [->|Hne].
        -- rewrite Ropp_mult_distr_l_reverse, Rmult_comm, <- rsum_scal.
           rewrite (rsum_ext _ (fun k => (v p n * (c k * (v (g k) n / v p n)))%R) (fun k => c k * v (g k) n)%R).
           { lra. }
           intros k Hk. field. auto.
        -- specialize (H0 i ltac:(lia)).
           rewrite (rsum_ext _ _ (fun k => c k * v (g k) i + (- v p i) * (c k * (v (g k) n / v p n)))%R) in H0.
           2: { intros k Hk. ring. }
           rewrite rsum_plus, rsum_scal in H0. lra.
    + destruct (IH m v ltac:(lia)) as (c & Hc & H0). exists c. split; auto.
      intros i Hi. destruct (Nat.eq_dec i n) as [->|Hne]; [|apply H0; lia].
      apply rsum_zero. intros k Hk. rewrite Z by auto. lra.
Qed.
