(** Lagrange polynomials and digits. *)
From Verif Require Import Util Lin DenseModel DenseSpec H2Model TransferModel TransferSpec.
From Verif Require InterpSpec.
Local Open Scope nat_scope.
Set Default Proof Using "Type".

(** ** Products *)
Lemma prodf_ext n f g : (forall i, i < n -> f i = g i) -> prodf n f = prodf n g.
Proof. induction n as [|n IH]; intros H; cbn [prodf]; [auto|]. rewrite IH by (intros; apply H; lia). rewrite H by lia. auto. Qed.
Lemma prodf_mul n f g : prodf n (fun i => f i * g i)%Qc = (prodf n f * prodf n g)%Qc.
Proof. induction n as [|n IH]; cbn [prodf]; [ring|]. rewrite IH. ring. Qed.
Lemma prodf_one n f : (forall i, i < n -> f i = 1%Qc) -> prodf n f = 1%Qc.
Proof. induction n as [|n IH]; intros H; cbn [prodf]; [auto|]. rewrite IH by (intros; apply H; lia). rewrite H by lia. ring. Qed.
Lemma prodf_zero n f k : k < n -> f k = 0%Qc -> prodf n f = 0%Qc.
Proof.
  induction n as [|n IH]; intros Hk H; [lia|]. cbn [prodf]. destruct (Nat.eq_dec k n) as [->|Hn].
  - rewrite H. ring.
  - rewrite IH by (auto; lia). ring.
Qed.
Lemma prodf_nz n f : (forall i, i < n -> f i <> 0%Qc) -> prodf n f <> 0%Qc.
Proof.
  induction n as [|n IH]; intros H; cbn [prodf]; [discriminate|]. intros E. apply Qcmult_integral in E.
  destruct E as [E|E]; [apply IH in E; auto|]. apply (H n); auto.
Qed.
Lemma prodf_div n f g : prodf n (fun i => f i / g i)%Qc = (prodf n f / prodf n g)%Qc.
Proof.
  induction n as [|n IH]; cbn [prodf]; [reflexivity|]. rewrite IH. unfold Qcdiv.
  destruct (Qc_eq_dec (prodf n g) 0) as [E|E]; [rewrite E|].
  { replace (0 * g n)%Qc with 0%Qc by ring. change (/ 0)%Qc with 0%Qc. ring. }
  destruct (Qc_eq_dec (g n) 0) as [E'|E']; [rewrite E'|field; auto].
  replace (prodf n g * 0)%Qc with 0%Qc by ring. change (/ 0)%Qc with 0%Qc. ring.
Qed.
(** One factor taken out. *)
Lemma prodf_without n f i : i < n -> prodf n f = (f i * prodf n (fun k => if k =? i then 1%Qc else f k))%Qc.
Proof.
  induction n as [|n IH]; intros Hi; [lia|]. cbn [prodf]. destruct (Nat.eqb_spec n i) as [->|Hn].
  - rewrite (prodf_ext i (fun k => if k =? i then 1%Qc else f k) f); [ring|].
    intros k Hk. destruct (Nat.eqb_spec k i); [lia|auto].
  - rewrite IH by lia. ring.
Qed.

(** ** Polynomials *)
Notation evalp := InterpSpec.evalp.
Fixpoint divp (p : list Qc) (a : Qc) : list Qc := match p with [] => [] | c :: r => match r with [] => [] | _ => evalp r a :: divp r a end end.
Lemma divp_length p a : length (divp p a) = length p - 1.
Proof. induction p as [|c [|c' r] IH]; cbn [divp length]; auto. cbn [divp length] in IH. rewrite IH. lia. Qed.
Lemma divp_ok p a x : evalp p x = ((x - a) * evalp (divp p a) x + evalp p a)%Qc.
Proof.
  induction p as [|c [|c' r] IH]; [cbn; ring|cbn; ring|]. change (divp (c :: c' :: r) a) with (evalp (c' :: r) a :: divp (c' :: r) a).
  cbn [InterpSpec.evalp] in *. rewrite IH at 1. ring.
Qed.
(** A polynomial with more zeros than its degree. *)
Lemma many_roots m : forall p z, length p <= m -> (forall i, i < m -> evalp p (z i) = 0%Qc) ->
  (forall i j, i < m -> j < m -> z i = z j -> i = j) -> forall x, evalp p x = 0%Qc.
Proof.
  induction m as [|m IH]; intros p z Hl Hz Hd x; [destruct p; [auto|cbn in Hl; lia]|].
  rewrite (divp_ok p (z m)). rewrite (Hz m) by lia.
  rewrite (IH (divp p (z m)) z); [ring|rewrite divp_length; lia| |intros; apply Hd; auto].
  intros i Hi. pose proof (Hz i ltac:(lia)) as Hi0. rewrite (divp_ok p (z m)), (Hz m ltac:(lia)) in Hi0.
  assert (E : ((z i - z m) * evalp (divp p (z m)) (z i) = 0)%Qc) by (rewrite <- Hi0; ring).
  apply Qcmult_integral in E. destruct E as [E|E]; [|auto].
  assert (E' : z i = z m) by (replace (z i) with (z i - z m + z m)%Qc by ring; rewrite E; ring).
  apply Hd in E'; lia.
Qed.

Definition ispoly (m : nat) (f : Qc -> Qc) : Prop := exists c, length c <= m /\ forall t, f t = evalp c t.
Fixpoint addc (p q : list Qc) : list Qc := match p, q with [], _ => q | _, [] => p | a :: p, b :: q => (a + b)%Qc :: addc p q end.
Lemma addc_ok p : forall q x, evalp (addc p q) x = (evalp p x + evalp q x)%Qc.
Proof. induction p as [|a p IH]; intros [|b q] x; cbn [addc InterpSpec.evalp]; try ring. rewrite IH. ring. Qed.
Lemma addc_length p : forall q, length (addc p q) <= Nat.max (length p) (length q).
Proof. induction p as [|a p IH]; intros [|b q]; cbn [addc length]; try lia. specialize (IH q). lia. Qed.
Lemma scalc_ok a p x : evalp (map (fun c => a * c)%Qc p) x = (a * evalp p x)%Qc.
Proof. induction p as [|b p IH]; cbn [map InterpSpec.evalp]; [ring|]. rewrite IH. ring. Qed.
Lemma ispoly_ext m f g : (forall t, f t = g t) -> ispoly m f -> ispoly m g.
Proof. intros E (c & Hl & H). exists c. split; auto. intros. rewrite <- E. auto. Qed.
Lemma ispoly_le m m' f : m <= m' -> ispoly m f -> ispoly m' f.
Proof. intros Hm (c & Hl & H). exists c. split; [lia|auto]. Qed.
Lemma ispoly_const m a : 1 <= m -> ispoly m (fun _ => a).
Proof. intros Hm. exists [a]. split; [auto|]. intros t. cbn. ring. Qed.
Lemma ispoly_zero m : ispoly m (fun _ => 0%Qc).
Proof. exists []. split; [cbn; lia|]. auto. Qed.
Lemma ispoly_add m f g : ispoly m f -> ispoly m g -> ispoly m (fun t => f t + g t)%Qc.
Proof.
  intros (c & Hl & H) (c' & Hl' & H'). exists (addc c c'). split.
  - pose proof (addc_length c c'). lia.
  - intros t. rewrite addc_ok, H, H'. auto.
Qed.
Lemma ispoly_scal m a f : ispoly m f -> ispoly m (fun t => a * f t)%Qc.
Proof. intros (c & Hl & H). exists (map (fun b => a * b)%Qc c). split; [rewrite map_length; auto|]. intros t. rewrite scalc_ok, H. auto. Qed.
Lemma ispoly_sum m n (f : nat -> Qc -> Qc) : (forall i, i < n -> ispoly m (f i)) -> ispoly m (fun t => sumf n (fun i => f i t)).
Proof.
  induction n as [|n IH]; intros H; cbn [sumf]; [apply ispoly_zero|].
  apply ispoly_add; [apply IH; intros; apply H; lia|apply H; lia].
Qed.
Lemma ispoly_lin m f a : ispoly m f -> ispoly (S m) (fun t => f t * (t - a))%Qc.
Proof.
  intros Hf. destruct Hf as (c & Hl & H).
  assert (H1 : ispoly (S m) (fun t => t * f t)%Qc) by (exists (0%Qc :: c); split; [cbn; lia|]; intros t; cbn [InterpSpec.evalp]; rewrite H; ring).
  assert (H2 : ispoly (S m) (fun t => (- a) * f t)%Qc) by (apply ispoly_scal; exists c; split; [lia|auto]).
  apply (ispoly_ext _ (fun t => t * f t + (- a) * f t)%Qc); [intros; ring|]. apply ispoly_add; auto.
Qed.

Definition distinct (m : nat) (z : nat -> Qc) : Prop := forall i j, i < m -> j < m -> z i = z j -> i = j.

Lemma lag_poly m z i : i < m -> ispoly m (lag m z i).
Proof.
  intros Hi. unfold lag.
  assert (H : forall n, ispoly (if i <? n then n else S n) (fun x => prodf n (fun k => if k =? i then 1%Qc else ((x - z k) / (z i - z k))%Qc))).
  { induction n as [|n IH]; cbn [prodf]; [apply ispoly_const; auto|].
    destruct (Nat.eqb_spec n i) as [->|Hn].
    - destruct (Nat.ltb_spec i (S i)); [|lia]. destruct (Nat.ltb_spec i i); [lia|].
      eapply ispoly_ext; [|exact IH]. intros t. cbn. ring.
    - eapply ispoly_ext with (f := fun t => ((/ (z i - z n)) * (prodf n (fun k => if k =? i then 1%Qc else ((t - z k) / (z i - z k))%Qc) * (t - z n)))%Qc).
      { intros t. cbn beta. unfold Qcdiv. ring. }
      apply ispoly_scal.
      eapply ispoly_le; [|apply ispoly_lin; exact IH].
      destruct (Nat.ltb_spec i n), (Nat.ltb_spec i (S n)); lia. }
  specialize (H m). destruct (Nat.ltb_spec i m); [exact H|lia].
Qed.
Lemma lag_at m z i j : distinct m z -> i < m -> j < m -> lag m z i (z j) = if i =? j then 1%Qc else 0%Qc.
Proof.
  intros Hd Hi Hj. unfold lag. destruct (Nat.eqb_spec i j) as [->|Hn].
  - apply prodf_one. intros k Hk. destruct (Nat.eqb_spec k j) as [->|Hk']; auto. apply Qcmult_inv_r.
    intros E. apply Hk'. symmetry. apply Hd; auto. replace (z j) with (z j - z k + z k)%Qc by ring. rewrite E. ring.
  - apply (prodf_zero _ _ j); auto. destruct (Nat.eqb_spec j i); [lia|]. unfold Qcdiv. ring.
Qed.
(** Interpolation in one variable is exact. *)
Lemma lag_exact m z f : distinct m z -> ispoly m f -> forall x, sumf m (fun i => f (z i) * lag m z i x)%Qc = f x.
Proof.
  intros Hd Hf x.
  assert (HD : ispoly m (fun t => sumf m (fun i => f (z i) * lag m z i t) + (- (1)) * f t)%Qc).
  { apply ispoly_add; [|apply ispoly_scal; auto]. apply ispoly_sum. intros i Hi. apply ispoly_scal. apply lag_poly; auto. }
  destruct HD as (c & Hl & H).
  assert (Hz : evalp c x = 0%Qc).
  { apply (many_roots m c z); auto. intros j Hj. rewrite <- H.
    rewrite (sumf_single m _ j); auto.
    - rewrite lag_at, Nat.eqb_refl by auto. ring.
    - intros i Hi Hn. rewrite lag_at by auto. destruct (Nat.eqb_spec i j); [lia|]. ring. }
  specialize (H x). rewrite Hz in H. cbn beta in H.
  replace (sumf m (fun i => f (z i) * lag m z i x)%Qc) with ((sumf m (fun i => f (z i) * lag m z i x) + (- (1)) * f x) + f x)%Qc by ring.
  rewrite H. ring.
Qed.

(** ** Digits *)
Lemma digit_last m k q r : r < m -> digit m (S k) (q * m + r) k = r.
Proof.
  intros Hr. unfold digit. replace (S k - 1 - k) with 0 by lia. cbn [Nat.pow]. rewrite Nat.div_1_r.
  rewrite Nat.add_comm, Nat.mod_add by lia. apply Nat.mod_small; auto.
Qed.
Lemma digit_front m k q r l : r < m -> l < k -> digit m (S k) (q * m + r) l = digit m k q l.
Proof.
  intros Hr Hl. unfold digit. replace (S k - 1 - l) with (S (k - 1 - l)) by lia. cbn [Nat.pow].
  rewrite <- Nat.div_div; [|lia|apply Nat.pow_nonzero; lia].
  rewrite Nat.div_add_l by lia. rewrite (Nat.div_small r) by auto. rewrite Nat.add_0_r. auto.
Qed.
Lemma digit_lt m d I l : 1 <= m -> digit m d I l < m.
Proof. intros H. unfold digit. apply Nat.mod_upper_bound. lia. Qed.
Lemma digits_length m d I : length (digits m d I) = d. Proof. apply tab_length. Qed.
Lemma digits_snoc m k q r : r < m -> digits m (S k) (q * m + r) = digits m k q ++ [r].
Proof.
  intros Hr. unfold digits. rewrite tab_S, digit_last by auto. f_equal. apply tab_ext. intros l Hl. apply digit_front; auto.
Qed.

Lemma sumf_blocks m n f : sumf (n * m) f = sumf n (fun q => sumf m (fun r => f (q * m + r))).
Proof.
  induction n as [|n IH]; [auto|]. cbn [sumf]. replace (S n * m) with (n * m + m) by lia. rewrite sumf_app, IH. auto.
Qed.

(** Interpolation in the first [k] variables. *)
Section Tensor.
  Variables (m d : nat) (z : nat -> nat -> Qc) (f : list Qc -> Qc).
  Hypothesis (Hd : forall l, l < d -> distinct m (z l)) (Hf : poly m d f).
  Definition tpoint (k I : nat) : list Qc := tab k (fun l => z l (digit m k I l)).
  Definition tlag (k I : nat) (x : list Qc) : Qc := prodf k (fun l => lag m (z l) (digit m k I l) (vat x l)).
  Lemma tensor_exact k : k <= d -> forall x, length x = d ->
    sumf (m ^ k) (fun I => f (tpoint k I ++ skipn k x) * tlag k I x)%Qc = f x.
  Proof using Hd Hf.
    induction k as [|k IH]; intros Hk x Hx.
    - cbn. change (tpoint 0 0) with (@nil Qc). cbn [app]. change (tlag 0 0 x) with 1%Qc. ring.
    - rewrite <- (IH ltac:(lia) x Hx). replace (m ^ S k) with (m ^ k * m) by (cbn [Nat.pow]; lia).
      rewrite sumf_blocks. apply sumf_ext. intros q Hq.
      destruct (cut_at x k (vat x k)) as (Hc & Hs & _); [apply nth_error_vat; lia|].
      set (y := tpoint k q ++ skipn k x). assert (Hy : length y = d) by (unfold y; rewrite app_length, skipn_length; unfold tpoint; rewrite tab_length; lia).
      destruct (Hf k y ltac:(lia) Hy) as (c & Hl & Hc').
      rewrite (sumf_ext _ _ (fun r => tlag k q x * (f (upd y k (z k r)) * lag m (z k) r (vat x k)))%Qc).
      + rewrite sumf_scal. rewrite (lag_exact m (z k) (fun t => f (upd y k t)) (Hd k ltac:(lia)) (ex_intro _ c (conj Hl Hc'))).
        rewrite Qcmult_comm. f_equal. f_equal. apply upd_same. unfold y. rewrite nth_error_app2; unfold tpoint; rewrite tab_length; [|lia].
        rewrite Nat.sub_diag, Hs. auto.
      + intros r Hr.
        assert (E1 : tpoint (S k) (q * m + r) ++ skipn (S k) x = upd y k (z k r)).
        { unfold y. rewrite Hs, upd_at by (unfold tpoint; rewrite tab_length; auto). unfold tpoint. rewrite tab_S, <- app_assoc.
          rewrite digit_last by auto. cbn [app]. f_equal. apply tab_ext. intros l Hl'. rewrite digit_front; auto. }
        assert (E2 : tlag (S k) (q * m + r) x = (tlag k q x * lag m (z k) r (vat x k))%Qc).
        { unfold tlag. cbn [prodf]. rewrite digit_last by auto. f_equal. apply prodf_ext. intros l Hl'. rewrite digit_front; auto. }
        rewrite E1, E2. ring.
  Qed.
End Tensor.

(** The nodes of a cluster differ. *)
Lemma node_distinct G n l : wf_cluster G n -> l < dim G -> distinct (order n) (node G n l).
Proof.
  intros H Hl i j Hi Hj E. unfold node in E. set (b := nth l (gbox n) (0, 0)%Qc) in *.
  assert (Hw : fst b <> snd b) by (apply (wc_wide _ _ H); apply nth_In; rewrite (wc_box _ _ H); auto).
  assert (Hw' : (snd b - fst b <> 0)%Qc). { intros E'. apply Hw. replace (snd b) with (snd b - fst b + fst b)%Qc by ring. rewrite E'. ring. }
  assert (Hh : half <> 0%Qc) by discriminate.
  assert (E2 : vat (cheb G (order n)) i = vat (cheb G (order n)) j).
  { assert (E3 : ((vat (cheb G (order n)) i - vat (cheb G (order n)) j) * (half * (snd b - fst b)) = 0)%Qc).
    { transitivity ((fst b + (vat (cheb G (order n)) i + 1) * half * (snd b - fst b)) - (fst b + (vat (cheb G (order n)) j + 1) * half * (snd b - fst b)))%Qc; [ring|]. rewrite E. ring. }
    apply Qcmult_integral in E3. destruct E3 as [E3|E3].
    - replace (vat (cheb G (order n)) i) with (vat (cheb G (order n)) i - vat (cheb G (order n)) j + vat (cheb G (order n)) j)%Qc by ring. rewrite E3. ring.
    - apply Qcmult_integral in E3. destruct E3; contradiction. }
  unfold vat in E2. pose proof (wc_distinct _ _ H) as Hn. pose proof (wc_nodes _ _ H).
  apply (proj1 (NoDup_nth (cheb G (order n)) 0%Qc) Hn); auto; lia.
Qed.
(** Interpolation in a cluster reproduces polynomials. *)
Lemma interpolate_exact G n f x : wf_cluster G n -> poly (order n) (dim G) f -> length x = dim G -> interpolate G n f x = f x.
Proof.
  intros H Hf Hx. rewrite <- (tensor_exact (order n) (dim G) (node G n) f (fun l Hl => node_distinct G n l H Hl) Hf (dim G) (le_n _) x Hx).
  apply sumf_ext. intros I HI. rewrite skipn_all2 by lia. rewrite app_nil_r. auto.
Qed.
(** Lagrange polynomials have the degree they should have. *)
Lemma LT_poly G n I m : wf_cluster G n -> order n <= m -> poly m (dim G) (LT G n I).
Proof.
  intros H Hm l x Hl Hx.
  destruct (lag_poly (order n) (node G n l) (digit (order n) (dim G) I l)) as (c & Hc & Hp); [apply digit_lt; apply (wc_order _ _ H)|].
  exists (map (fun a => prodf (dim G) (fun k => if k =? l then 1%Qc else lag (order n) (node G n k) (digit (order n) (dim G) I k) (vat x k)) * a)%Qc c).
  split; [rewrite map_length; lia|]. intros t. rewrite scalc_ok, <- Hp. unfold LT. rewrite (prodf_without _ _ l) by auto.
  rewrite Qcmult_comm. f_equal.
  - apply prodf_ext. intros k Hk. destruct (Nat.eqb_spec k l); auto. rewrite vat_upd by lia. destruct (Nat.eqb_spec k l); [lia|auto].
  - rewrite vat_upd by lia. rewrite Nat.eqb_refl. auto.
Qed.
