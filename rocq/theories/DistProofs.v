(** Proofs about consistent overlaps: accumulating assembles *)
From Verif Require Import Util Lin LocalProofs OverlapModel OverlapSpec DistModel DistSpec.
Local Open Scope nat_scope.
Set Default Proof Using "Type".

(** * Sums *)
Lemma sumf_pick (l : list nat) (v : nat -> Qc) j : NoDup l -> j < length l ->
  sumf (length l) (fun i => if nth i l 0 =? nth j l 0 then v i else 0%Qc) = v j.
Proof.
  intros Hn Hj. rewrite (sumf_single _ _ j Hj); [rewrite Nat.eqb_refl; auto|].
  intros i Hi Hne. destruct (Nat.eqb_spec (nth i l 0) (nth j l 0)) as [E|]; auto. exfalso. apply Hne. apply (proj1 (NoDup_nth l 0) Hn i j); auto.
Qed.
Lemma sumf_absent (l : list nat) (v : nat -> Qc) I : ~ In I l -> sumf (length l) (fun i => if nth i l 0 =? I then v i else 0%Qc) = 0%Qc.
Proof.
  intros H. apply sumf_zero. intros i Hi. destruct (Nat.eqb_spec (nth i l 0) I) as [E|]; auto. exfalso. apply H. rewrite <- E. apply nth_In. auto.
Qed.
(** Sums over some of the ranks *)
Lemma suml_ranks P (l : list nat) (f : nat -> Qc) : NoDup l -> (forall q, In q l -> q < P) ->
  suml (map f l) = sumf P (fun q => if existsb (Nat.eqb q) l then f q else 0%Qc).
Proof.
  induction l as [|a l IH]; intros Hn Hl.
  - cbn [map suml existsb]. rewrite sumf_0. auto.
  - inversion Hn as [|? ? Ha Hn']; subst. cbn [map suml]. rewrite IH; auto; [|intros q Hq; apply Hl; right; auto].
    rewrite <- (sumf_delta P f a) by (apply Hl; left; auto). rewrite <- sumf_plus. apply sumf_ext. intros q Hq. cbn [existsb].
    destruct (Nat.eqb_spec q a) as [->|]; cbn [orb]; [|ring].
    replace (existsb (Nat.eqb a) l) with false; [ring|]. symmetry. apply not_true_is_false. intros E. apply existsb_exists in E as (b & Hb & E). apply Nat.eqb_eq in E. congruence.
Qed.

Section Consistent.
  Context {P N : nat} {size : nat -> nat} {mgr : nat -> manager} {glob : nat -> list nat}.
  Hypothesis Hc : consistent P N size mgr glob.
  Let Hv := con_valid _ _ _ _ _ Hc.

  Lemma shared_none p q : ~ In q (neighbours (mgr p)) -> shared mgr p q = [].
  Proof.
    intros H. unfold shared. destruct (find _ _) as [o|] eqn:E; auto. apply find_some in E as (E1 & E2). apply Nat.eqb_eq in E2.
    exfalso. apply H. subst q. apply in_map. auto.
  Qed.
  (** What p gets from q for its degree of freedom i *)
  Lemma incoming_ok p q v i : p < P -> q < P -> p <> q -> i < size p ->
    incoming mgr p q v i = sumf (length (glob q)) (fun j => if at_ glob q j =? at_ glob p i then vat v j else 0%Qc).
  Proof using Hc.
    intros Hp Hq Hne Hi. unfold incoming, values_of.
    pose proof (con_same _ _ _ _ _ Hc p q Hp Hq) as Hs. pose proof (con_shared _ _ _ _ _ Hc p q Hp Hq) as Hn.
    assert (length (shared mgr p q) = length (shared mgr q p)) as HL by (apply (valid_length _ _ _ Hv); auto).
    assert (forall k, In k (shared mgr p q) -> k < length (glob p)) as R1 by (intros k Hk; rewrite (con_size _ _ _ _ _ Hc); auto; eapply valid_range; eauto).
    assert (forall k, In k (shared mgr q p) -> k < length (glob q)) as R2 by (intros k Hk; rewrite (con_size _ _ _ _ _ Hc); auto; eapply valid_range; eauto).
    destruct (in_dec Nat.eq_dec i (shared mgr p q)) as [Hin|Hout].
    - assert (exists j, In j (shared mgr q p) /\ at_ glob q j = at_ glob p i /\
        suml (map (fun jx => if fst jx =? i then snd jx else 0%Qc) (combine (shared mgr p q) (map (vat v) (shared mgr q p)))) = vat v j) as (j & J1 & J2 & ->).
      { clear R1 R2. revert Hs Hn HL Hin. generalize (shared mgr p q) (shared mgr q p). induction l as [|a l IH]; intros l' Hs Hn HL Hin; [destruct Hin|]. destruct l' as [|b l']; cbn in HL; try discriminate. destruct Hin as [Hin|Hin].
        - subst a. inversion Hn as [|? ? Ha Hn']; subst. injection Hs as E1 E2. exists b. repeat split; auto; [left; auto|].
          cbn [combine map suml fst snd]. rewrite Nat.eqb_refl. rewrite suml_map_zero; [ring|].
          intros (a, x) Hx. apply in_combine_l in Hx. cbn. destruct (Nat.eqb_spec a i); auto. congruence.
        - inversion Hn as [|? ? Ha Hn']; subst. injection Hs as E1 E2. destruct (IH l') as (j & J1 & J2 & J3); auto. exists j. repeat split; auto; [right; auto|].
          cbn [combine map suml fst snd]. rewrite J3. destruct (Nat.eqb_spec a i); [congruence|ring]. }
      rewrite <- J2. symmetry. unfold at_. apply (sumf_pick (glob q) (vat v) j); auto. apply (con_once _ _ _ _ _ Hc); auto.
    - rewrite suml_map_zero.
      + symmetry. apply sumf_absent. intros Hin. apply Hout.
        assert (i < length (glob p)) as Hi' by (rewrite (con_size _ _ _ _ _ Hc); auto).
        assert (In (at_ glob p i) (glob p)) as Hin' by (apply nth_In; auto).
        pose proof (con_all _ _ _ _ _ Hc p q _ Hp Hq Hne Hin' Hin) as Ha. apply in_map_iff in Ha as (k & Ek & Hk).
        assert (k = i) as <-; auto. apply (proj1 (NoDup_nth (glob p) 0) (con_once _ _ _ _ _ Hc p Hp)); auto.
      + intros (a, x) Hx. apply in_combine_l in Hx. cbn. destruct (Nat.eqb_spec a i); auto. congruence.
  Qed.
  (** accumulate makes the whole out of its summands *)
  Lemma accumulated_ok p v : p < P -> length (v p) = size p ->
    accumulated mgr p (v p) v = restricted glob (assembled P glob v) p.
  Proof using Hc.
    intros Hp HL. unfold accumulated, restricted. rewrite (list_eq_tab (glob p) 0). rewrite (con_size _ _ _ _ _ Hc) by auto. rewrite HL.
    unfold tab at 2. rewrite map_map. fold (@tab Qc (size p) (fun i => assembled P glob v (nth i (glob p) 0))). apply tab_ext. intros i Hi.
    unfold assembled. fold (at_ glob p i).
    assert (i < length (glob p)) as Hi' by (rewrite (con_size _ _ _ _ _ Hc); auto).
    rewrite (suml_ranks P).
    - rewrite <- (sumf_delta P (fun q => vat (v q) i) p) at 1 by auto. rewrite <- sumf_plus. apply sumf_ext. intros q Hq.
      destruct (Nat.eqb_spec q p) as [->|Hne].
      + replace (existsb (Nat.eqb p) (neighbours (mgr p))) with false.
        * rewrite Qcplus_0_r. symmetry. unfold at_. apply (sumf_pick (glob p) (vat (v p)) i); auto. apply (con_once _ _ _ _ _ Hc); auto.
        * symmetry. apply not_true_is_false. intros E. apply existsb_exists in E as (b & Hb & E). apply Nat.eqb_eq in E. subst b. apply (valid_rank _ _ _ Hv) in Hb as (_ & Hb); auto.
      + rewrite Qcplus_0_l. rewrite <- (incoming_ok p q) by auto. destruct (existsb (Nat.eqb q) (neighbours (mgr p))) eqn:E; auto.
        unfold incoming. rewrite shared_none; auto. intros Hin. apply not_true_iff_false in E. apply E. apply existsb_exists. exists q. split; auto. apply Nat.eqb_refl.
    - apply (valid_keys _ _ _ Hv); auto.
    - intros q Hq. apply (valid_rank _ _ _ Hv) in Hq; tauto.
  Qed.
  Lemma assembled_ext v v' I : (forall q, q < P -> v q = v' q) -> assembled P glob v I = assembled P glob v' I.
  Proof. intros H. unfold assembled. apply sumf_ext. intros q Hq. rewrite H; auto. Qed.

  (** The product of an accumulated and a distributed vector *)
  Lemma dot_ok x v : sumf P (fun p => sumf (length (glob p)) (fun i => (x (at_ glob p i) * vat (v p) i)%Qc)) = dotf N x (assembled P glob v).
  Proof using Hc.
    unfold dotf, assembled.
    rewrite (sumf_ext N _ (fun I => sumf P (fun q => sumf (length (glob q)) (fun j => if at_ glob q j =? I then (x I * vat (v q) j)%Qc else 0%Qc)))).
    2:{ intros I HI. rewrite <- sumf_scal. apply sumf_ext. intros q Hq. rewrite <- sumf_scal. apply sumf_ext. intros j Hj. destruct (_ =? _); ring. }
    rewrite sumf_swap. apply sumf_ext. intros p Hp. rewrite sumf_swap. apply sumf_ext. intros i Hi.
    rewrite (sumf_ext N _ (fun I => if I =? at_ glob p i then (x I * vat (v p) i)%Qc else 0%Qc)) by (intros I HI; rewrite Nat.eqb_sym; auto).
    rewrite (sumf_delta N (fun I => (x I * vat (v p) i)%Qc)); auto. apply (con_range _ _ _ _ _ Hc p); auto. apply nth_In. auto.
  Qed.
  (** The product of the assembled matrix *)
  Lemma matrix_ok (A : nat -> mat) x I : I < N ->
    assembled P glob (fun q => tab (length (glob q)) (mv (length (glob q)) (A q) (vat (restricted glob x q)))) I = mv N (assembled_matrix P glob A) x I.
  Proof using Hc.
    intros HI. unfold mv, assembled, assembled_matrix.
    rewrite (sumf_ext N _ (fun J => sumf P (fun q => sumf (length (glob q)) (fun i => sumf (length (glob q)) (fun j => if (at_ glob q i =? I) && (at_ glob q j =? J) then (A q i j * x J)%Qc else 0%Qc))))).
    2:{ intros J HJ. rewrite <- sumf_scal_r. apply sumf_ext. intros q Hq. rewrite <- sumf_scal_r. apply sumf_ext. intros i Hi. rewrite <- sumf_scal_r. apply sumf_ext. intros j Hj.
        destruct (_ && _); ring. }
    rewrite sumf_swap. apply sumf_ext. intros q Hq. rewrite sumf_swap. apply sumf_ext. intros i Hi. rewrite sumf_swap.
    rewrite vat_tab by auto. destruct (at_ glob q i =? I); cbn [andb].
    - apply sumf_ext. intros j Hj.
      rewrite (sumf_ext N _ (fun J => if J =? at_ glob q j then (A q i j * x J)%Qc else 0%Qc)) by (intros J HJ; rewrite Nat.eqb_sym; auto).
      rewrite (sumf_delta N (fun J => (A q i j * x J)%Qc)) by (apply (con_range _ _ _ _ _ Hc q); auto; apply nth_In; auto).
      f_equal. unfold restricted, vat, at_. rewrite (nth_indep _ 0%Qc (x 0)) by (rewrite map_length; auto). apply map_nth.
    - symmetry. apply sumf_zero. intros j Hj. apply sumf_0.
  Qed.
End Consistent.
