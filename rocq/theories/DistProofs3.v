(** Proofs about inner products and norms of distributed vectors *)
From Verif Require Import Util Lin LocalProofs OverlapModel OverlapSpec OverlapProofs2 OverlapProofs5 DistModel DistSpec DistProofs DistProofs2.
Local Open Scope nat_scope.
Set Default Proof Using "Type".

Lemma always_ok P K size mgr prog x (post : nat -> mem -> Prop) :
  valid P size mgr -> (forall p, p < P -> shaped K (size p) (x p)) -> proper P K size mgr prog -> unique_first prog ->
  (forall p, p < P -> post p (program_spec P mgr prog x p)) -> always P mgr prog x post.
Proof.
  intros Hv Hs Hp Hu Hpost. eexists. intros b n w R. destruct (exchange_ok P K size mgr prog x Hv Hs Hp Hu b n w R) as (E1 & E2 & E3 & E4).
  split; [exact E1|]. split; auto. split; auto. intros p Hlt Hd. rewrite E4 by auto. auto.
Qed.

Lemma shaped_get K n m k : shaped K n m -> k < K -> aget m k = Ok (reg m k) /\ length (reg m k) = n.
Proof. intros (L & H) Hk. split; auto. unfold reg. apply aget_nth. lia. Qed.
Lemma shaped_set K n m d v : shaped K n m -> length v = n -> shaped K n (set_reg m d v).
Proof.
  intros (L & H) Hv. unfold set_reg. split; [rewrite upd_length; auto|]. intros k Hk. unfold reg. destruct (Nat.eq_dec d k) as [->|]; [rewrite nth_upd_eq by lia; auto|].
  rewrite nth_upd_neq by auto. apply H. auto.
Qed.
Lemma shaped_other K n m d v : shaped K n m -> K <= d -> shaped K n (upd m d v).
Proof. intros (L & H) Hd. split; [rewrite upd_length; auto|]. intros k Hk. unfold reg. rewrite nth_upd_neq by lia. apply H. auto. Qed.
Lemma shaped_aset K n m d v : shaped K n m -> d < K -> aset m d v = Ok (set_reg m d v).
Proof. intros (L & H) Hd. apply aset_ok. lia. Qed.
Lemma reg_neq m d k v : d <> k -> reg (set_reg m d v) k = reg m k.
Proof. intros H. unfold reg, set_reg. apply nth_upd_neq. auto. Qed.
Lemma reg_eq m d v : d < length m -> reg (set_reg m d v) d = v.
Proof. intros H. unfold reg, set_reg. apply nth_upd_eq. auto. Qed.

Lemma mydot_ok n u v : length u = n -> length v = n -> mydot u v = Ok (dotf n (vat u) (vat v)).
Proof.
  intros Hu Hv. unfold mydot. rewrite Hu.
  destruct (for_range_inv (fun i s => s = sumf i (fun j => (vat u j * vat v j)%Qc)) (fun i s => a <- aget u i ;; b <- aget v i ;; Ok (s + a * b)%Qc) 0 n 0%Qc) as (s & E & ->).
  - lia.
  - reflexivity.
  - intros i s Hi ->. rewrite (aget_nth u i 0%Qc), (aget_nth v i 0%Qc) by lia. cbn [bind]. eexists. split; [reflexivity|]. reflexivity.
  - exact E.
Qed.

Section Consistent.
  Context {P N : nat} {size : nat -> nat} {mgr : nat -> manager} {glob : nat -> list nat}.
  Hypothesis Hc : consistent P N size mgr glob.
  Let Hv := con_valid _ _ _ _ _ Hc.
  Let D (p : nat) := prepareDistribute (mgr p).

  Lemma dist_to_ok K p m s d : p < P -> shaped K (size p) m -> s < K -> d < K ->
    dist_to size D s d p m = Ok (set_reg m d (@weighted P size glob (fun _ => reg m s) p)).
  Proof using Hc.
    intros Hp Hm Hs Hd. unfold dist_to. destruct (shaped_get _ _ _ _ Hm Hs) as (E1 & L1). destruct (shaped_get _ _ _ _ Hm Hd) as (E2 & L2).
    rewrite E1, E2. cbn [bind]. pose proof (distribute_spec Hc p (fun _ => reg m s) (reg m d) Hp L1 L2) as E. cbn beta in E. unfold D. rewrite E. cbn [bind].
    eapply shaped_aset; eauto.
  Qed.
  Lemma dot_to_ok K p m a b k : shaped K (size p) m -> a < K -> b < K ->
    dot_to a b k p m = Ok (upd m k [dotf (size p) (vat (reg m a)) (vat (reg m b))]).
  Proof.
    intros Hm Ha Hb. unfold dot_to. destruct (shaped_get _ _ _ _ Hm Ha) as (E1 & L1). destruct (shaped_get _ _ _ _ Hm Hb) as (E2 & L2).
    rewrite E1, E2. cbn [bind]. rewrite (mydot_ok (size p)) by auto. reflexivity.
  Qed.
  Lemma weighted_length v p : length (@weighted P size glob v p) = size p.
  Proof. apply tab_length. Qed.
  Lemma weighted_ext v v' p : v p = v' p -> @weighted P size glob v p = @weighted P size glob v' p.
  Proof. intros E. unfold weighted. rewrite E. auto. Qed.
  Lemma reduce_ok f k (m : nat -> mem) (s : nat -> Qc) p : (forall q, q < P -> nth k (m q) [] = [s q]) ->
    call_spec P mgr (reduce f k) m p = upd (m p) k [f (sumf P s)].
  Proof.
    intros H. unfold reduce, call_spec. do 3 f_equal. unfold tab. rewrite map_map. rewrite <- suml_tab. unfold tab. f_equal. apply map_ext_in. intros q Hq. apply in_seq in Hq. rewrite H by lia. reflexivity.
  Qed.
  Lemma keeps_nothing K : keeps P K size nothing.
  Proof. intros p m Hp Hm. exact Hm. Qed.
  Lemma proper_reduce K f k : K <= k -> proper_call P K size mgr (reduce f k).
  Proof. intros Hk p l m Hp Hm. cbn. apply shaped_other; auto. Qed.

  Lemma local_dot x p v : p < P -> dotf (size p) (vat (restricted glob x p)) (vat v) = sumf (length (glob p)) (fun i => (x (at_ glob p i) * vat v i)%Qc).
  Proof using Hc.
    intros Hp. unfold dotf. rewrite <- (con_size _ _ _ _ _ Hc p Hp). apply sumf_ext. intros i Hi. f_equal. unfold restricted, vat, at_.
    rewrite (nth_indep _ 0%Qc (x 0)) by (rewrite map_length; auto). apply map_nth.
  Qed.
  Lemma sum_dot x v : sumf P (fun p => dotf (size p) (vat (restricted glob x p)) (vat (v p))) = dotf N x (assembled P glob v).
  Proof using Hc. rewrite <- (dot_ok Hc). apply sumf_ext. intros p Hp. apply local_dot. auto. Qed.
  Lemma dotf_ext n x x' y y' : (forall i, i < n -> x i = x' i) -> (forall i, i < n -> y i = y' i) -> dotf n x y = dotf n x' y'.
  Proof. intros H1 H2. apply sumf_ext. intros i Hi. rewrite H1, H2; auto. Qed.

  Lemma ip_ok acc1 acc2 (m : nat -> mem) x y :
    (forall p, p < P -> shaped 3 (size p) (m p) /\ 4 <= length (m p)) ->
    represents P N glob acc1 (fun p => reg (m p) 0) x -> represents P N glob acc2 (fun p => reg (m p) 1) y ->
    always P mgr (ip_distributed size D acc1 acc2) m (fun p r => reg r 0 = reg (m p) 0 /\ reg r 1 = reg (m p) 1 /\ reg r 3 = [dotf N x y]).
  Proof using Hc.
    intros Hm Hx Hy.
    assert (forall p, p < P -> shaped 3 (size p) (m p)) as Hm1 by (intros p Hp; apply Hm; auto).
    assert (forall a b, a < 3 -> b < 3 -> keeps P 3 size (attempt (dot_to a b 3))) as Kdot.
    { intros a b Ha Hb p r Hp Hr. unfold attempt. rewrite (dot_to_ok 3) by auto. apply shaped_other; auto. }
    assert (forall r k v, k <> 3 -> reg (upd r 3 v) k = reg r k) as U3 by (intros r k v Hk; apply nth_upd_neq; auto).
    assert (forall (r : mem) v, 4 <= length r -> nth 3 (upd r 3 v) [] = v) as G3 by (intros r v Hr; apply nth_upd_eq; auto).
    apply (always_ok P 3 size); auto.
    - destruct acc1, acc2; cbn [ip_distributed].
      + constructor; [|constructor]. cbn [pre what]. split; [|apply proper_reduce; auto].
        intros p r Hp Hr. unfold attempt. rewrite (dist_to_ok 3) by auto. cbn [bind]. rewrite (dot_to_ok 3) by (auto; apply shaped_set; auto; apply weighted_length). apply shaped_other; auto. apply shaped_set; auto. apply weighted_length.
      + constructor; [|constructor]. cbn [pre what]. split; [apply Kdot; lia|apply proper_reduce; auto].
      + constructor; [|constructor]. cbn [pre what]. split; [apply Kdot; lia|apply proper_reduce; auto].
      + constructor; [|constructor; [|constructor]]; cbn [pre what].
        * split; [apply keeps_nothing|]. cbn. lia.
        * split; [apply Kdot; lia|apply proper_reduce; auto].
    - destruct acc1, acc2; cbn; auto; repeat constructor.
    - intros p Hp. destruct (Hm p Hp) as (Hs & HL). destruct acc1, acc2; cbn [represents ip_distributed program_spec fold_left] in *; unfold round_spec; cbn [pre what].
      + assert (forall q, q < P -> attempt (fun p m => m <- dist_to size D 0 2 p m ;; dot_to 1 2 3 p m) q (m q) =
          upd (set_reg (m q) 2 (@weighted P size glob (restricted glob x) q)) 3 [dotf (size q) (vat (restricted glob y q)) (vat (@weighted P size glob (restricted glob x) q))]) as E.
        { intros q Hq. destruct (Hm q Hq) as (Hq1 & Hq2). unfold attempt. rewrite (dist_to_ok 3) by auto. cbn [bind]. rewrite (dot_to_ok 3) by (auto; apply shaped_set; auto; apply weighted_length).
          rewrite reg_eq by lia. rewrite reg_neq by lia. rewrite Hy by auto. rewrite (weighted_ext _ (restricted glob x)) by (rewrite Hx by auto; auto). reflexivity. }
        rewrite (reduce_ok _ _ _ (fun q => dotf (size q) (vat (restricted glob y q)) (vat (@weighted P size glob (restricted glob x) q)))).
        2:{ intros q Hq. rewrite E by auto. destruct (Hm q Hq). apply G3. unfold set_reg. rewrite upd_length. lia. }
        rewrite E by auto. rewrite !U3 by lia. rewrite !reg_neq by lia. split; auto. split; auto. unfold reg. rewrite G3 by (rewrite upd_length; unfold set_reg; rewrite upd_length; lia).
        f_equal. rewrite sum_dot. rewrite dotf_comm. apply dotf_ext; auto. intros i Hi. apply (weighted_ok Hc). auto.
      + assert (forall q, q < P -> attempt (dot_to 0 1 3) q (m q) = upd (m q) 3 [dotf (size q) (vat (restricted glob x q)) (vat (reg (m q) 1))]) as E.
        { intros q Hq. destruct (Hm q Hq) as (Hq1 & Hq2). unfold attempt. rewrite (dot_to_ok 3) by auto. rewrite Hx by auto. reflexivity. }
        rewrite (reduce_ok _ _ _ (fun q => dotf (size q) (vat (restricted glob x q)) (vat (reg (m q) 1)))).
        2:{ intros q Hq. rewrite E by auto. destruct (Hm q Hq). apply G3. lia. }
        rewrite E by auto. rewrite !U3 by lia. split; auto. split; auto. unfold reg at 1. rewrite G3 by (rewrite upd_length; lia).
        f_equal. rewrite (sum_dot x (fun q => reg (m q) 1)). apply dotf_ext; auto.
      + assert (forall q, q < P -> attempt (dot_to 1 0 3) q (m q) = upd (m q) 3 [dotf (size q) (vat (restricted glob y q)) (vat (reg (m q) 0))]) as E.
        { intros q Hq. destruct (Hm q Hq) as (Hq1 & Hq2). unfold attempt. rewrite (dot_to_ok 3) by auto. rewrite Hy by auto. reflexivity. }
        rewrite (reduce_ok _ _ _ (fun q => dotf (size q) (vat (restricted glob y q)) (vat (reg (m q) 0)))).
        2:{ intros q Hq. rewrite E by auto. destruct (Hm q Hq). apply G3. lia. }
        rewrite E by auto. rewrite !U3 by lia. split; auto. split; auto. unfold reg at 1. rewrite G3 by (rewrite upd_length; lia).
        f_equal. rewrite (sum_dot y (fun q => reg (m q) 0)). rewrite dotf_comm. apply dotf_ext; auto.
      + set (X := assembled P glob (fun q => reg (m q) 0)).
        assert (forall q, q < P -> call_spec P mgr (Acc 0 (Some 2)) (fun q => nothing q (m q)) q = set_reg (m q) 2 (restricted glob X q)) as E1.
        { intros q Hq. cbn [call_spec]. unfold nothing. f_equal. apply (accumulated_ok Hc q (fun q => reg (m q) 0)); auto. apply (Hm1 q Hq). lia. }
        assert (forall q, q < P -> shaped 3 (size q) (set_reg (m q) 2 (restricted glob X q))) as Hs2.
        { intros q Hq. apply shaped_set; auto. unfold restricted. rewrite map_length. apply (con_size _ _ _ _ _ Hc). auto. }
        assert (forall q, q < P -> attempt (dot_to 1 2 3) q (call_spec P mgr (Acc 0 (Some 2)) (fun q => nothing q (m q)) q) =
          upd (set_reg (m q) 2 (restricted glob X q)) 3 [dotf (size q) (vat (restricted glob X q)) (vat (reg (m q) 1))]) as E.
        { intros q Hq. destruct (Hm q Hq) as (Hq1 & Hq2). unfold attempt. rewrite E1 by auto. rewrite (dot_to_ok 3) by auto. rewrite reg_eq, reg_neq by lia. rewrite dotf_comm. reflexivity. }
        rewrite (reduce_ok _ _ _ (fun q => dotf (size q) (vat (restricted glob X q)) (vat (reg (m q) 1)))).
        2:{ intros q Hq. rewrite E by auto. destruct (Hm q Hq). apply G3. unfold set_reg. rewrite upd_length. lia. }
        rewrite E by auto. rewrite !U3 by lia. rewrite !reg_neq by lia. split; auto. split; auto. unfold reg at 1. rewrite G3 by (rewrite upd_length; unfold set_reg; rewrite upd_length; lia).
        f_equal. rewrite (sum_dot X (fun q => reg (m q) 1)). apply dotf_ext; auto.
  Qed.

  Lemma norm_ok sqrt acc (m : nat -> mem) x :
    (forall p, p < P -> shaped 3 (size p) (m p) /\ 4 <= length (m p)) ->
    represents P N glob acc (fun p => reg (m p) 0) x ->
    always P mgr (norm_distributed size D sqrt acc) m (fun p r => reg r 0 = reg (m p) 0 /\ reg r 3 = [sqrt (dotf N x x)]).
  Proof using Hc.
    intros Hm Hx.
    assert (forall p, p < P -> shaped 3 (size p) (m p)) as Hm1 by (intros p Hp; apply Hm; auto).
    assert (forall r k v, k <> 3 -> reg (upd r 3 v) k = reg r k) as U3 by (intros r k v Hk; apply nth_upd_neq; auto).
    assert (forall (r : mem) v, 4 <= length r -> nth 3 (upd r 3 v) [] = v) as G3 by (intros r v Hr; apply nth_upd_eq; auto).
    apply (always_ok P 3 size); auto.
    - destruct acc; cbn [norm_distributed].
      + constructor; [|constructor]. cbn [pre what]. split; [|apply proper_reduce; auto].
        intros p r Hp Hr. unfold attempt. rewrite (dist_to_ok 3) by auto. cbn [bind]. rewrite (dot_to_ok 3) by (auto; apply shaped_set; auto; apply weighted_length). apply shaped_other; auto. apply shaped_set; auto. apply weighted_length.
      + constructor; [|constructor; [|constructor]]; cbn [pre what].
        * split; [apply keeps_nothing|]. cbn. lia.
        * split; [|apply proper_reduce; auto]. intros p r Hp Hr. unfold attempt. rewrite (dot_to_ok 3) by auto. apply shaped_other; auto.
    - destruct acc; cbn; auto; repeat constructor.
    - intros p Hp. destruct (Hm p Hp) as (Hs & HL). destruct acc; cbn [represents norm_distributed program_spec fold_left] in *; unfold round_spec; cbn [pre what].
      + assert (forall q, q < P -> attempt (fun p m => m <- dist_to size D 0 2 p m ;; dot_to 0 2 3 p m) q (m q) =
          upd (set_reg (m q) 2 (@weighted P size glob (restricted glob x) q)) 3 [dotf (size q) (vat (restricted glob x q)) (vat (@weighted P size glob (restricted glob x) q))]) as E.
        { intros q Hq. destruct (Hm q Hq) as (Hq1 & Hq2). unfold attempt. rewrite (dist_to_ok 3) by auto. cbn [bind]. rewrite (dot_to_ok 3) by (auto; apply shaped_set; auto; apply weighted_length).
          rewrite reg_eq by lia. rewrite reg_neq by lia. rewrite (weighted_ext _ (restricted glob x)) by (rewrite Hx by auto; auto). rewrite Hx by auto. reflexivity. }
        rewrite (reduce_ok _ _ _ (fun q => dotf (size q) (vat (restricted glob x q)) (vat (@weighted P size glob (restricted glob x) q)))).
        2:{ intros q Hq. rewrite E by auto. destruct (Hm q Hq). apply G3. unfold set_reg. rewrite upd_length. lia. }
        rewrite E by auto. rewrite !U3 by lia. rewrite !reg_neq by lia. split; auto. unfold reg. rewrite G3 by (rewrite upd_length; unfold set_reg; rewrite upd_length; lia).
        do 2 f_equal. rewrite sum_dot. apply dotf_ext; auto. intros i Hi. apply (weighted_ok Hc). auto.
      + set (X := assembled P glob (fun q => reg (m q) 0)) in *.
        assert (forall q, q < P -> call_spec P mgr (Acc 0 (Some 2)) (fun q => nothing q (m q)) q = set_reg (m q) 2 (restricted glob X q)) as E1.
        { intros q Hq. cbn [call_spec]. unfold nothing. f_equal. apply (accumulated_ok Hc q (fun q => reg (m q) 0)); auto. apply (Hm1 q Hq). lia. }
        assert (forall q, q < P -> shaped 3 (size q) (set_reg (m q) 2 (restricted glob X q))) as Hs2.
        { intros q Hq. apply shaped_set; auto. unfold restricted. rewrite map_length. apply (con_size _ _ _ _ _ Hc). auto. }
        assert (forall q, q < P -> attempt (dot_to 0 2 3) q (call_spec P mgr (Acc 0 (Some 2)) (fun q => nothing q (m q)) q) =
          upd (set_reg (m q) 2 (restricted glob X q)) 3 [dotf (size q) (vat (restricted glob X q)) (vat (reg (m q) 0))]) as E.
        { intros q Hq. destruct (Hm q Hq) as (Hq1 & Hq2). unfold attempt. rewrite E1 by auto. rewrite (dot_to_ok 3) by auto. rewrite reg_eq, reg_neq by lia. rewrite dotf_comm. reflexivity. }
        rewrite (reduce_ok _ _ _ (fun q => dotf (size q) (vat (restricted glob X q)) (vat (reg (m q) 0)))).
        2:{ intros q Hq. rewrite E by auto. destruct (Hm q Hq). apply G3. unfold set_reg. rewrite upd_length. lia. }
        rewrite E by auto. rewrite !U3 by lia. rewrite !reg_neq by lia. split; auto. unfold reg at 1. rewrite G3 by (rewrite upd_length; unfold set_reg; rewrite upd_length; lia).
        do 2 f_equal. rewrite (sum_dot X (fun q => reg (m q) 0)). apply dotf_ext; auto.
  Qed.
End Consistent.
