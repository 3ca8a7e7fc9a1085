(** Proofs about distributing vectors *)
From Verif Require Import Util Lin LocalProofs OverlapModel OverlapSpec DistModel DistSpec DistProofs.
Local Open Scope nat_scope.
Set Default Proof Using "Type".

Lemma qn_S n : qn (S n) = (qn n + 1)%Qc.
Proof. unfold qn. rewrite Nat2Z.inj_succ. unfold qz. apply Qc_is_canon. unfold Qcplus, Q2Qc, this. rewrite !Qred_correct. unfold Z.succ. rewrite inject_Z_plus. reflexivity. Qed.
Lemma qn_add a b : qn (a + b) = (qn a + qn b)%Qc.
Proof. induction b as [|b IH]; [rewrite Nat.add_0_r; change (qn 0) with 0%Qc; ring|]. rewrite Nat.add_succ_r, !qn_S, IH. ring. Qed.
Lemma qn_inj a b : qn a = qn b -> a = b.
Proof.
  intros E. unfold qn, qz in E. assert (Qred (inject_Z (Z.of_nat a)) = Qred (inject_Z (Z.of_nat b))) as E1 by exact (f_equal this E). clear E.
  assert (inject_Z (Z.of_nat a) == inject_Z (Z.of_nat b))%Q as E2.
  { rewrite <- (Qred_correct (inject_Z (Z.of_nat a))), <- (Qred_correct (inject_Z (Z.of_nat b))). rewrite E1. reflexivity. }
  unfold Qeq, inject_Z in E2. cbn in E2. lia.
Qed.
Lemma qn_pos n : n <> 0 -> qn n <> 0%Qc.
Proof. intros H E. apply H. apply qn_inj. exact E. Qed.

(** * dofCount *)
Definition looked_up (d : list (nat * nat)) (i : nat) : nat := match find (fun x => fst x =? i) d with Some x => snd x | None => 1 end.
Lemma count_dof_ok dof d : NoDup (map fst d) ->
  NoDup (map fst (count_dof dof d)) /\ (forall i, In i (map fst (count_dof dof d)) <-> i = dof \/ In i (map fst d)) /\
  forall i, looked_up (count_dof dof d) i = looked_up d i + (if i =? dof then 1 else 0).
Proof.
  induction d as [|(k, c) d IH]; intros Hn.
  - cbn. split; [repeat constructor; auto|]. split; [intros i; intuition|]. intros i. unfold looked_up. cbn. rewrite (Nat.eqb_sym dof i). destruct (i =? dof); auto.
  - inversion Hn as [|? ? Hk Hn']; subst. destruct (IH Hn') as (I1 & I2 & I3). cbn [count_dof]. destruct (Nat.eqb_spec k dof) as [->|Hne].
    + cbn [map fst]. split; [auto|]. split; [intros i; cbn; intuition|]. intros i. unfold looked_up. cbn [find fst]. rewrite (Nat.eqb_sym dof i).
      destruct (Nat.eqb_spec i dof); cbn [snd]; lia.
    + cbn [map fst]. split; [|split].
      * constructor; auto. intros Hin. apply I2 in Hin as [|]; auto.
      * intros i. cbn [In]. rewrite I2. intuition.
      * intros i. specialize (I3 i). unfold looked_up in *. cbn [find fst]. destruct (Nat.eqb_spec k i) as [->|]; auto. cbn [snd]. destruct (Nat.eqb_spec i dof); lia.
Qed.
Definition dof_count (m : manager) : list (nat * nat) := fold_left (fun d o => fold_left (fun d dof => count_dof dof d) (o_shared o) d) m [].
Lemma dof_count_ok m :
  NoDup (map fst (dof_count m)) /\ (forall i, In i (map fst (dof_count m)) <-> In i (flat_map o_shared m)) /\
  forall i, looked_up (dof_count m) i = 1 + count_occ Nat.eq_dec (flat_map o_shared m) i.
Proof.
  unfold dof_count. replace (fold_left _ m []) with (fold_left (fun d dof => count_dof dof d) (flat_map o_shared m) []).
  2:{ generalize (@nil (nat * nat)). induction m as [|o m IH]; intros d; cbn; auto. rewrite fold_left_app. apply IH. }
  generalize (flat_map o_shared m). intros l.
  assert (forall d, NoDup (map fst d) -> let r := fold_left (fun d dof => count_dof dof d) l d in
    NoDup (map fst r) /\ (forall i, In i (map fst r) <-> In i l \/ In i (map fst d)) /\ forall i, looked_up r i = looked_up d i + count_occ Nat.eq_dec l i) as G.
  { induction l as [|a l IH]; intros d Hd; cbn [fold_left].
    - split; auto. split; [intros i; cbn; intuition|]. intros i. cbn. lia.
    - destruct (count_dof_ok a d Hd) as (C1 & C2 & C3). destruct (IH _ C1) as (I1 & I2 & I3). split; auto. split.
      + intros i. rewrite I2, C2. cbn [In]. intuition.
      + intros i. rewrite I3, C3. cbn [count_occ]. destruct (Nat.eq_dec a i) as [->|]; [rewrite Nat.eqb_refl; lia|]. destruct (Nat.eqb_spec i a); [congruence|lia]. }
  destruct (G [] (NoDup_nil _)) as (G1 & G2 & G3). split; auto. split; [intros i; rewrite G2; cbn; intuition|]. intros i. rewrite G3. reflexivity.
Qed.

(** * distribute *)
Lemma copy_n n (v u : list Qc) : length v = n -> length u = n -> for_range 0 n (fun dof u => x <- aget v dof ;; aset u dof x) u = Ok v.
Proof.
  intros Hv Hu.
  destruct (for_range_inv (fun i s => length s = n /\ forall k, k < i -> vat s k = vat v k) (fun dof u => x <- aget v dof ;; aset u dof x) 0 n u) as (s & E & L & Hs).
  - lia.
  - split; auto. intros k Hk. lia.
  - intros i s Hi (L & Hs). rewrite (aget_nth v i 0%Qc) by lia. cbn [bind]. rewrite aset_ok by lia. eexists. split; [reflexivity|]. split; [rewrite upd_length; auto|].
    intros k Hk. rewrite vat_upd by lia. destruct (Nat.eqb_spec k i) as [->|]; auto. apply Hs. lia.
  - rewrite E. f_equal. apply vec_ext; [lia|]. intros i Hi. apply Hs. lia.
Qed.
Lemma distribute_ok m n v u : (forall i, In i (flat_map o_shared m) -> i < n) -> length v = n -> length u = n ->
  distribute (prepareDistribute m) n v (Some u) = Ok (tab n (fun i => (vat v i * / qn (1 + count_occ Nat.eq_dec (flat_map o_shared m) i))%Qc)).
Proof.
  intros Hr Hv Hu. unfold distribute. rewrite copy_n by auto. cbn [bind]. unfold prepareDistribute. fold (dof_count m). cbn [fst snd].
  destruct (dof_count_ok m) as (D1 & D2 & D3). set (d := dof_count m) in *. clearbody d.
  rewrite map_length.
  destruct (for_range_inv (fun k s => length s = n /\ forall i, i < n -> vat s i = if existsb (Nat.eqb i) (firstn k (map fst d)) then (vat v i * / qn (looked_up d i))%Qc else vat v i)
    (fun i u => dof <- aget (map fst d) i ;; d0 <- aget (map (fun x => (/ qn (snd x))%Qc) d) i ;; y <- aget u dof ;; aset u dof (y * d0)%Qc) 0 (length d) v) as (s & E & L & Hs).
  - lia.
  - split; auto.
  - intros k s Hk (L & Hs). destruct (nth_error d k) as [(j, c)|] eqn:Ek; [|apply nth_error_None in Ek; lia].
    rewrite (aget_ok (map fst d) k j) by (apply (map_nth_error fst) in Ek; auto). cbn [bind].
    rewrite (aget_ok _ k (/ qn c)%Qc) by (apply (map_nth_error (fun x => (/ qn (snd x))%Qc)) in Ek; auto). cbn [bind].
    assert (j < n) as Hj by (apply Hr, D2; apply nth_error_In in Ek; apply (in_map fst) in Ek; auto).
    rewrite (aget_nth s j 0%Qc) by lia. cbn [bind]. rewrite aset_ok by lia. eexists. split; [reflexivity|]. split; [rewrite upd_length; auto|].
    intros i Hi. rewrite vat_upd by lia.
    assert (firstn (S k) (map fst d) = firstn k (map fst d) ++ [j]) as EF.
    { apply (map_nth_error fst) in Ek. cbn in Ek. clear - Ek. revert k Ek. induction (map fst d) as [|a l IH]; intros [|k] Ek; cbn in *; try discriminate; [congruence|]. f_equal. apply IH. auto. }
    replace (k + 1) with (S k) by lia. rewrite EF, existsb_app. cbn [existsb]. rewrite orb_false_r.
    assert (looked_up d j = c) as Ec.
    { clear - D1 Ek. revert k Ek D1. induction d as [|(a, b) d IH]; intros [|k] Ek D1; cbn in *; try discriminate.
      - injection Ek as <- <-. unfold looked_up. cbn. rewrite Nat.eqb_refl. auto.
      - inversion D1 as [|? ? Ha D1']; subst. unfold looked_up. cbn. destruct (Nat.eqb_spec a j) as [->|].
        + exfalso. apply Ha. apply nth_error_In in Ek. apply (in_map fst) in Ek. auto.
        + apply (IH k); auto. }
    destruct (Nat.eqb_spec i j) as [->|].
    + rewrite orb_true_r, Ec. f_equal. specialize (Hs j Hj). unfold vat at 1 in Hs. rewrite Hs. replace (existsb (Nat.eqb j) (firstn k (map fst d))) with false; auto.
      symmetry. apply not_true_is_false. intros E. apply existsb_exists in E as (b & Hb & E). apply Nat.eqb_eq in E. subst b.
      clear - EF D1 Hb. rewrite <- (firstn_skipn (S k) (map fst d)) in D1. rewrite EF in D1. rewrite <- app_assoc in D1. apply NoDup_remove_2 in D1. apply D1. apply in_or_app. auto.
    + rewrite orb_false_r. apply Hs. auto.
  - rewrite E. f_equal. apply (eq_tab s n _ 0%Qc); auto. intros i Hi. fold (vat s i). rewrite Hs by auto.
    rewrite firstn_all2 by (rewrite map_length; auto). destruct (existsb (Nat.eqb i) (map fst d)) eqn:Ei; rewrite <- D3; auto.
    assert (~ In i (map fst d)) as Hn. { intros Hin. apply not_true_iff_false in Ei. apply Ei. apply existsb_exists. exists i. split; auto. apply Nat.eqb_refl. }
    unfold looked_up. destruct (find _ d) as [x|] eqn:Ef.
    + apply find_some in Ef as (F1 & F2). apply Nat.eqb_eq in F2. exfalso. apply Hn. subst i. apply in_map. auto.
    + change (/ qn 1)%Qc with 1%Qc. ring.
Qed.

Section Consistent.
  Context {P N : nat} {size : nat -> nat} {mgr : nat -> manager} {glob : nat -> list nat}.
  Hypothesis Hc : consistent P N size mgr glob.
  Let Hv := con_valid _ _ _ _ _ Hc.

  Lemma shared_of o p : p < P -> In o (mgr p) -> shared mgr p (o_other o) = o_shared o.
  Proof using Hc.
    intros Hp Ho. unfold shared. pose proof (valid_keys _ _ _ Hv p Hp) as Hn. unfold neighbours in Hn. revert Ho Hn.
    induction (mgr p) as [|a m IH]; intros Ho Hn; [destruct Ho|]. cbn [find]. inversion Hn as [|? ? Ha Hn']; subst. destruct Ho as [->|Ho].
    - rewrite Nat.eqb_refl. auto.
    - destruct (Nat.eqb_spec (o_other a) (o_other o)) as [E|]; auto. exfalso. apply Ha. rewrite E. apply in_map. auto.
  Qed.
  Definition ones (p : nat) : list Qc := repeat 1%Qc (size p).
  Lemma vat_ones q j : j < size q -> vat (ones q) j = 1%Qc.
  Proof. intros H. unfold ones, vat. revert j H. generalize (size q). induction n as [|n IH]; intros j Hj; [lia|]. destruct j; cbn; auto. apply IH. lia. Qed.
  Lemma incoming_ones p q i : p < P -> q < P -> incoming mgr p q (ones q) i = qn (count_occ Nat.eq_dec (shared mgr p q) i).
  Proof using Hc.
    intros Hp Hq. unfold incoming, values_of.
    assert (length (shared mgr p q) = length (shared mgr q p)) as HL by (apply (valid_length _ _ _ Hv); auto).
    assert (forall k, In k (shared mgr q p) -> k < size q) as R2 by (intros k Hk; eapply valid_range; eauto).
    revert HL R2. generalize (shared mgr p q) (shared mgr q p). induction l as [|a l IH]; intros [|b l'] HL R2; cbn in HL; try discriminate; [reflexivity|].
    cbn [map combine suml fst snd count_occ]. rewrite IH; auto; [|intros k Hk; apply R2; right; auto]. rewrite vat_ones by (apply R2; left; auto).
    destruct (Nat.eq_dec a i) as [->|]; [rewrite Nat.eqb_refl, qn_S; ring|]. destruct (Nat.eqb_spec a i); [congruence|ring].
  Qed.
  Lemma multiplicity_sum I : qn (multiplicity P glob I) = sumf P (fun q => if existsb (Nat.eqb I) (glob q) then 1%Qc else 0%Qc).
  Proof.
    unfold multiplicity. clear. induction P as [|k IH]; [reflexivity|]. rewrite seq_S, filter_app, app_length, qn_add, IH. cbn [sumf filter Nat.add].
    destruct (existsb _ _); reflexivity.
  Qed.
  (** The weights are one over the multiplicity *)
  Lemma count_multiplicity p i : p < P -> i < size p ->
    1 + count_occ Nat.eq_dec (flat_map o_shared (mgr p)) i = multiplicity P glob (at_ glob p i).
  Proof using Hc.
    intros Hp Hi. apply qn_inj. rewrite multiplicity_sum, qn_add.
    assert (forall q, q < P -> length (ones q) = size q) as LO by (intros q _; apply repeat_length).
    pose proof (accumulated_ok Hc p ones Hp (LO p Hp)) as Ha. apply (f_equal (fun l => vat l i)) in Ha.
    unfold accumulated in Ha. rewrite vat_tab in Ha by (rewrite LO; auto). rewrite vat_ones in Ha by auto.
    assert (suml (map (fun q => incoming mgr p q (ones q) i) (neighbours (mgr p))) = qn (count_occ Nat.eq_dec (flat_map o_shared (mgr p)) i)) as <-.
    { assert (forall m, incl m (mgr p) -> suml (map (fun q => incoming mgr p q (ones q) i) (neighbours m)) = qn (count_occ Nat.eq_dec (flat_map o_shared m) i)) as G; [|apply G; red; auto].
      induction m as [|o m IH]; intros Hm; [reflexivity|]. cbn [neighbours map suml flat_map]. rewrite count_occ_app, qn_add. fold (neighbours m).
      rewrite IH by (intros x Hx; apply Hm; right; auto). rewrite incoming_ones; auto.
      - rewrite shared_of by (auto; apply Hm; left; auto). auto.
      - apply (valid_rank _ _ _ Hv p); auto. apply in_map. apply Hm. left. auto. }
    change (qn 1) with 1%Qc. rewrite Ha. unfold restricted, vat. assert (i < length (glob p)) as Hi' by (rewrite (con_size _ _ _ _ _ Hc); auto).
    rewrite (nth_indep _ 0%Qc (assembled P glob ones 0)) by (rewrite map_length; auto). rewrite map_nth. fold (at_ glob p i). generalize (at_ glob p i). intros I.
    unfold assembled. apply sumf_ext. intros q Hq.
    rewrite (sumf_ext _ _ (fun j => if at_ glob q j =? I then 1%Qc else 0%Qc)) by (intros j Hj; rewrite vat_ones by (rewrite <- (con_size _ _ _ _ _ Hc); auto); auto).
    destruct (existsb (Nat.eqb I) (glob q)) eqn:E.
    - apply existsb_exists in E as (b & Hb & E). apply Nat.eqb_eq in E. subst b. apply (In_nth _ _ 0) in Hb as (j & Hj & <-). unfold at_.
      apply (sumf_pick (glob q) (fun _ => 1%Qc) j); auto. apply (con_once _ _ _ _ _ Hc); auto.
    - apply (sumf_absent (glob q) (fun _ => 1%Qc)). intros Hin. apply not_true_iff_false in E. apply E. apply existsb_exists. exists I. split; auto. apply Nat.eqb_refl.
  Qed.
  Lemma multiplicity_pos I : I < N -> multiplicity P glob I <> 0.
  Proof using Hc.
    intros HI. destruct (con_cover _ _ _ _ _ Hc I HI) as (p & Hp & Hin). unfold multiplicity. intros E. apply length_zero_iff_nil in E.
    assert (In p (filter (fun p => existsb (Nat.eqb I) (glob p)) (seq 0 P))) as H; [|rewrite E in H; destruct H].
    apply filter_In. split; [apply in_seq; lia|]. apply existsb_exists. exists I. split; auto. apply Nat.eqb_refl.
  Qed.
  Definition weighted (v : nat -> list Qc) (p : nat) : list Qc := tab (size p) (fun i => (vat (v p) i * / qn (multiplicity P glob (at_ glob p i)))%Qc).
  Lemma distribute_spec p v u : p < P -> length (v p) = size p -> length u = size p ->
    distribute (prepareDistribute (mgr p)) (size p) (v p) (Some u) = Ok (weighted v p).
  Proof using Hc.
    intros Hp HL Hu. rewrite distribute_ok; auto.
    - f_equal. unfold weighted. apply tab_ext. intros i Hi. rewrite count_multiplicity by auto. auto.
    - intros i Hin. apply in_flat_map in Hin as (o & Ho & Hin). rewrite <- (shared_of o p Hp Ho) in Hin. eapply valid_range; eauto.
  Qed.
  (** Distributing keeps the whole *)
  Lemma weighted_ok x I : I < N -> assembled P glob (weighted (restricted glob x)) I = x I.
  Proof using Hc.
    intros HI. unfold assembled.
    rewrite (sumf_ext P _ (fun q => ((if existsb (Nat.eqb I) (glob q) then 1 else 0) * (x I * / qn (multiplicity P glob I)))%Qc)).
    - rewrite sumf_scal_r, <- multiplicity_sum. field. apply qn_pos. apply multiplicity_pos. auto.
    - intros q Hq.
      assert (forall j, j < length (glob q) -> vat (weighted (restricted glob x) q) j = (x (at_ glob q j) * / qn (multiplicity P glob (at_ glob q j)))%Qc) as W.
      { intros j Hj. unfold weighted. rewrite vat_tab by (rewrite <- (con_size _ _ _ _ _ Hc); auto). f_equal. unfold restricted, vat.
        rewrite (nth_indep _ 0%Qc (x 0)) by (rewrite map_length; auto). apply map_nth. }
      destruct (existsb (Nat.eqb I) (glob q)) eqn:E.
      + apply existsb_exists in E as (b & Hb & E). apply Nat.eqb_eq in E. subst b. apply (In_nth _ _ 0) in Hb as (j & Hj & <-). unfold at_ at 1.
        rewrite (sumf_pick (glob q) (vat (weighted (restricted glob x) q)) j); auto; [|apply (con_once _ _ _ _ _ Hc); auto]. rewrite W by auto. unfold at_. ring.
      + rewrite (sumf_absent (glob q) (vat (weighted (restricted glob x) q))); [ring|]. intros Hin. apply not_true_iff_false in E. apply E. apply existsb_exists. exists I. split; auto. apply Nat.eqb_refl.
  Qed.
End Consistent.
