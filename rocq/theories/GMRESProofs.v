(** Vectors, orthogonalisation, rotations and back substitution of GMRES. *)
From Verif Require Import LinR KrylovModel KrylovSpec KrylovProofs KrylovProofs2 GMRESModel GMRESSpec.
Set Default Proof Using "Type".
Open Scope R_scope.

Lemma put_same {X} (f : nat -> X) k v : put f k v k = v. Proof. unfold put. rewrite Nat.eqb_refl. reflexivity. Qed.
Lemma put_other {X} (f : nat -> X) k v j : j <> k -> put f k v j = f j. Proof. intros H. unfold put. destruct (Nat.eqb_spec j k); [contradiction|reflexivity]. Qed.
Lemma put2_same f i k v : put2 f i k v i k = v. Proof. unfold put2. rewrite !Nat.eqb_refl. reflexivity. Qed.
Lemma put2_row f i k v a b : a <> i -> put2 f i k v a b = f a b. Proof. intros H. unfold put2. destruct (Nat.eqb_spec a i); [contradiction|reflexivity]. Qed.
Lemma put2_col f i k v a b : b <> k -> put2 f i k v a b = f a b. Proof. intros H. unfold put2. destruct (Nat.eqb_spec b k); [contradiction|]. rewrite andb_false_r. reflexivity. Qed.

Lemma lincomb_length n m a V : length (lincomb n m a V) = n. Proof. apply tab_length. Qed.
Lemma rat_lincomb n m a V l : (l < n)%nat -> rat (lincomb n m a V) l = rsum m (fun k => a k * rat (V k) l).
Proof. intros. unfold lincomb. rewrite rat_tab by auto. reflexivity. Qed.
Lemma lincomb_O n a V : lincomb n 0 a V = vzero n. Proof. reflexivity. Qed.
Lemma lincomb_S n m a V : lincomb n (S m) a V = comb n 1 (lincomb n m a V) (a m) (V m).
Proof. apply tab_ext. intros i Hi. rewrite rat_lincomb by auto. cbn [rsum]. lra. Qed.
Lemma lincomb_ext n m a a' V V' : (forall k, (k < m)%nat -> a k = a' k) -> (forall k, (k < m)%nat -> V k = V' k) -> lincomb n m a V = lincomb n m a' V'.
Proof. intros H1 H2. apply tab_ext. intros i Hi. apply rsum_ext. intros k Hk. rewrite H1, H2 by auto. reflexivity. Qed.
Lemma lincomb_comb n m u a v a' V : lincomb n m (fun k => u * a k + v * a' k) V = comb n u (lincomb n m a V) v (lincomb n m a' V).
Proof.
  apply tab_ext. intros i Hi. rewrite !rat_lincomb, <- !rsum_scal, <- rsum_plus by auto. apply rsum_ext. intros. lra.
Qed.
Lemma lin_lincomb n L m a V : linear n L -> L (lincomb n m a V) = lincomb n m a (fun k => L (V k)).
Proof.
  intros HL. induction m as [|m IH].
  - rewrite !lincomb_O. apply lin_zero, HL.
  - rewrite !lincomb_S, (proj2 HL), IH. reflexivity.
Qed.
Lemma rsum_app a b f : rsum (a + b) f = rsum a f + rsum b (fun m => f (a + m)%nat).
Proof. induction b as [|b IH]; [rewrite Nat.add_0_r; cbn; lra|]. rewrite Nat.add_succ_r. cbn [rsum]. rewrite IH. lra. Qed.

Section Vectors.
  Variables (n : nat) (inner : vec -> vec -> R).
  Hypothesis HI : inner_product n inner.
  Lemma in_comm x y : inner x y = inner y x. Proof using HI. apply HI. Qed.
  Lemma in_l a x b y z : inner (comb n a x b y) z = a * inner x z + b * inner y z. Proof using HI. apply HI. Qed.
  Lemma in_r a x b y z : inner z (comb n a x b y) = a * inner z x + b * inner z y. Proof using HI. rewrite in_comm, in_l, (in_comm x), (in_comm y). reflexivity. Qed.
  Lemma in_zero z : inner (vzero n) z = 0.
  Proof using HI. replace (vzero n) with (comb n 0 (vzero n) 0 (vzero n)) by (apply tab_ext; intros; lra). rewrite in_l. lra. Qed.
  Lemma in_pos x : length x = n -> 0 <= inner x x.
  Proof using HI.
    intros Hx. destruct (zero_dec n x) as [Z|N]; [|left; apply HI; auto]. replace x with (vzero n); [rewrite in_zero; lra|].
    apply (rvec_ext n); auto using vzero_length. intros i Hi. rewrite rat_vzero, Z; auto.
  Qed.
  Lemma in_lincomb m a V z : inner (lincomb n m a V) z = rsum m (fun k => a k * inner (V k) z).
  Proof using HI. induction m as [|m IH]; [apply in_zero|]. rewrite lincomb_S, in_l, IH. cbn [rsum]. lra. Qed.

  Definition orthonormal (m : nat) (Q : nat -> vec) : Prop := forall j k, (j < m)%nat -> (k < m)%nat -> inner (Q j) (Q k) = if (j =? k)%nat then 1 else 0.

  (** ** Modified Gram-Schmidt *)
  Lemma orthogonalize_ok Q i m H r : orthonormal m Q -> forall k, (k <= m)%nat ->
    let out := gm_orthogonalize n inner Q i k H r in
    (length r = n -> snd out = comb n 1 r (-1) (lincomb n k (fun j => fst out j i) Q)) /\
    (forall j, (j < k)%nat -> inner (Q j) (snd out) = 0) /\
    (forall x y, y <> i \/ (k <= x)%nat -> fst out x y = H x y).
  Proof using HI.
    intros O. induction k as [|k IH]; intros Hk; cbn [gm_orthogonalize].
    - split; [|split; [intros; lia|reflexivity]]. cbn [snd]. intros Hr. rewrite lincomb_O. apply (rvec_ext n); auto using comb_length. intros l Hl. rewrite rat_comb, rat_vzero by auto. lra.
    - specialize (IH ltac:(lia)). destruct (gm_orthogonalize n inner Q i k H r) as [H' r']. cbn [fst snd] in *. destruct IH as (E & P & F). rewrite !put2_same. split; [|split].
      + intros Hr. rewrite (E Hr) at 1. rewrite lincomb_S, put2_same.
        rewrite (lincomb_ext n k (fun j => put2 H' k i (inner (Q k) r') j i) (fun j => H' j i) Q Q); auto.
        2: { intros j Hj. apply put2_row. lia. }
        apply (rvec_ext n); auto using comb_length. intros l Hl. rewrite !rat_comb by auto. lra.
      + intros j Hj. rewrite in_r. rewrite (O j k) by lia. destruct (Nat.eqb_spec j k) as [-> |Hne]; [lra|]. rewrite P by lia. lra.
      + intros x y Hxy. destruct (Nat.eq_dec y i) as [-> |Hy]; [rewrite put2_row by lia|rewrite put2_col by auto]; apply F; [right; lia|left; auto].
  Qed.

  (** ** The rotated basis *)
  Fixpoint wv (Q : nat -> vec) (c s : nat -> R) (j : nat) : vec :=
    match j with O => Q O | S j => comb n (- s j) (wv Q c s j) (c j) (Q (S j)) end.
  Definition vv (Q : nat -> vec) (c s : nat -> R) (j : nat) : vec := comb n (c j) (wv Q c s j) (s j) (Q (S j)).
  Lemma wv_ext Q c s Q' c' s' j : (forall k, (k <= j)%nat -> Q k = Q' k) -> (forall k, (k < j)%nat -> c k = c' k /\ s k = s' k) -> wv Q c s j = wv Q' c' s' j.
  Proof. induction j as [|j IH]; intros H1 H2; cbn [wv]; [apply H1; auto|]. rewrite IH; auto. destruct (H2 j) as (-> & ->); auto. rewrite H1; auto. Qed.
  Lemma vv_ext Q c s Q' c' s' j : (forall k, (k <= S j)%nat -> Q k = Q' k) -> (forall k, (k <= j)%nat -> c k = c' k /\ s k = s' k) -> vv Q c s j = vv Q' c' s' j.
  Proof. intros H1 H2. unfold vv. destruct (H2 j) as (-> & ->); auto. rewrite H1; auto. rewrite (wv_ext Q c s Q' c' s'); auto. intros. apply H2. lia. Qed.
  Lemma wv_length Q c s j : length (Q O) = n -> length (wv Q c s j) = n.
  Proof. destruct j; [auto|]. intros. apply comb_length. Qed.
  Lemma wv_facts Q c s m : orthonormal m Q -> (forall k, (S k < m)%nat -> c k * c k + s k * s k = 1) -> forall j, (j < m)%nat ->
    (forall k, (j < k < m)%nat -> inner (wv Q c s j) (Q k) = 0) /\ inner (wv Q c s j) (wv Q c s j) = 1.
  Proof using HI.
    intros O C. induction j as [|j IH]; intros Hj; cbn [wv].
    - split; [intros k Hk; rewrite O by lia; destruct (Nat.eqb_spec 0 k); [lia|reflexivity]|]. rewrite O by lia. reflexivity.
    - destruct (IH ltac:(lia)) as (F & N). split.
      + intros k Hk. rewrite in_l, F, O by lia. destruct (Nat.eqb_spec (S j) k); [lia|lra].
      + rewrite !in_l, !in_r, N, F by lia. rewrite (in_comm (Q (S j))), F, O by lia. rewrite Nat.eqb_refl. transitivity (c j * c j + s j * s j); [ring|apply C; lia].
  Qed.
  Lemma vv_orth Q c s m : orthonormal m Q -> (forall k, (S k < m)%nat -> c k * c k + s k * s k = 1) -> forall j k, (j < k < m)%nat -> inner (vv Q c s j) (wv Q c s k) = 0.
  Proof using HI.
    intros O C j k. revert j. induction k as [|k IH]; intros j Hk; [lia|]. cbn [wv]. rewrite in_r. destruct (Nat.eq_dec j k) as [-> |Hne].
    - unfold vv. rewrite !in_l. destruct (wv_facts Q c s m O C k ltac:(lia)) as (F & N). rewrite N, F, O by lia. rewrite (in_comm (Q (S k))), F by lia. rewrite Nat.eqb_refl. ring.
    - rewrite IH by lia. unfold vv. rewrite in_l. destruct (wv_facts Q c s m O C j ltac:(lia)) as (F & N). rewrite F, O by lia. destruct (Nat.eqb_spec (S j) (S k)); [lia|]. lra.
  Qed.

  (** ** The previous rotations *)
  Lemma rotate_ok Q c s i H k : (forall j, (j < k)%nat -> c j * c j + s j * s j = 1) ->
    let H' := gm_rotate c s i k H in
    (forall l, (l < n)%nat -> rsum k (fun j => H' j i * rat (vv Q c s j) l) + H' k i * rat (wv Q c s k) l = rsum (S k) (fun j => H j i * rat (Q j) l)) /\
    (forall x y, y <> i \/ (k < x)%nat -> H' x y = H x y).
  Proof.
    induction k as [|k IH]; intros C; cbn [gm_rotate].
    - split; [|reflexivity]. intros l Hl. cbn [rsum wv]. lra.
    - destruct IH as (E & F); [auto|]. cbn zeta. set (H' := gm_rotate c s i k H) in *.
      set (u := c k * H' k i + s k * H' (S k) i). set (v := - s k * H' k i + c k * H' (S k) i). split.
      + intros l Hl. specialize (E l Hl). cbn [rsum] in *. rewrite put2_same, put2_row, put2_same by lia.
        rewrite (rsum_ext k _ (fun j => H' j i * rat (vv Q c s j) l)).
        2: { intros j Hj. rewrite !put2_row by lia. reflexivity. }
        cbn [wv]. unfold vv at 2. rewrite !rat_comb by auto. rewrite <- (F (S k) i) by (right; lia).
        assert (K : u * (c k * rat (wv Q c s k) l + s k * rat (Q (S k)) l) + v * (- s k * rat (wv Q c s k) l + c k * rat (Q (S k)) l) = (c k * c k + s k * s k) * (H' k i * rat (wv Q c s k) l + H' (S k) i * rat (Q (S k)) l)) by (unfold u, v; ring).
        rewrite (C k) in K by lia. lra.
      + intros x y Hxy. destruct (Nat.eq_dec y i) as [-> |Hy]; [rewrite !put2_row by lia|rewrite !put2_col by auto]; apply F; [right; lia|left; auto].
  Qed.
End Vectors.

(** ** Back substitution *)
Lemma temp_ok H y j m t : gm_temp H y j m t = t - rsum m (fun k => H j (j + 1 + k)%nat * y (j + 1 + k)%nat).
Proof. induction m as [|m IH]; cbn [gm_temp rsum]; [lra|]. rewrite IH. lra. Qed.
Lemma back_ok H gamma i : (forall j, (j <= i)%nat -> H j j <> 0) -> forall k y, (k <= S i)%nat ->
  (forall j, (k <= j <= i)%nat -> H j j * y j = gm_temp H y j (i - j) (gamma j)) ->
  exists y', gm_back H gamma i k y = Ok y' /\ forall j, (j <= i)%nat -> H j j * y' j = gm_temp H y' j (i - j) (gamma j).
Proof.
  intros N. induction k as [|k IH]; intros y Hk E; cbn [gm_back].
  - exists y. split; [reflexivity|]. intros. apply E. lia.
  - rewrite rdiv_ok by (apply N; lia). cbn [bind]. apply IH; [lia|]. intros j Hj.
    assert (T : forall j', (k <= j')%nat -> gm_temp H (put y k (gm_temp H y k (i - k) (gamma k) / H k k)) j' (i - j') (gamma j') = gm_temp H y j' (i - j') (gamma j')).
    { intros j' Hj'. rewrite !temp_ok. f_equal. apply rsum_ext. intros m Hm. rewrite put_other by lia. reflexivity. }
    rewrite T by lia. destruct (Nat.eq_dec j k) as [-> |Hne]; [rewrite put_same; field; apply N; lia|]. rewrite put_other by auto. apply E. lia.
Qed.
Lemma back_sum H y j i g : (j <= i)%nat -> H j j * y j = gm_temp H y j (i - j) g -> rsum (S i) (fun l => if (j <=? l)%nat then H j l * y l else 0) = g.
Proof.
  intros Hj E. rewrite temp_ok in E. replace (S i) with (j + S (i - j))%nat by lia. rewrite rsum_app, rsum_zero.
  2: { intros l Hl. destruct (Nat.leb_spec j l); [lia|reflexivity]. }
  replace (S (i - j)) with (1 + (i - j))%nat by lia. rewrite rsum_app. cbn [rsum]. rewrite Nat.add_0_r, Nat.leb_refl.
  rewrite (rsum_ext (i - j) _ (fun k => H j (j + 1 + k)%nat * y (j + 1 + k)%nat)); [lra|].
  intros k Hk. replace (j + (1 + k))%nat with (j + 1 + k)%nat by lia. destruct (Nat.leb_spec j (j + 1 + k)); [reflexivity|lia].
Qed.
Lemma triangle_swap m (f : nat -> nat -> R) : rsum m (fun k => rsum (S k) (fun j => f j k)) = rsum m (fun j => rsum m (fun k => if (j <=? k)%nat then f j k else 0)).
Proof.
  rewrite rsum_swap. apply rsum_ext. intros k Hk. replace m with (S k + (m - S k))%nat by lia. rewrite rsum_app. rewrite (rsum_zero (m - S k)).
  - rewrite (rsum_ext (S k) (fun i => if (i <=? k)%nat then f i k else 0) (fun j => f j k)); [lra|]. intros j Hj. destruct (Nat.leb_spec j k); [reflexivity|lia].
  - intros j Hj. destruct (Nat.leb_spec (S k + j) k); [lia|reflexivity].
Qed.
