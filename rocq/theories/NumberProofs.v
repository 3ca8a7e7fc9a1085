(** [unique], [countDoFs] and [getGlobalIndices]. *)
From Verif Require Import Util Lin OverlapModel OverlapSpec DistModel DistSpec DistProofs DistProofs2 DistProofs3 DistProofs4 NumberSpec.
From Coq Require Import Permutation.
Set Default Proof Using "Type".
Local Open Scope nat_scope.

(** * Lists *)

Lemma has_In I l : existsb (Nat.eqb I) l = true <-> In I l.
Proof. rewrite existsb_exists. split; [intros (x & H & E); apply Nat.eqb_eq in E; subst; auto|intros H; exists I; split; auto; apply Nat.eqb_refl]. Qed.
Lemma has_not I l : existsb (Nat.eqb I) l = false <-> ~ In I l.
Proof. rewrite <- has_In. destruct (existsb _ _); split; intros H; congruence. Qed.
Lemma index_of_lt x l : In x l -> index_of x l < length l /\ nth (index_of x l) l 0 = x.
Proof.
  induction l as [|a l IH]; intros H; [destruct H|]. cbn [index_of]. destruct (Nat.eqb_spec a x) as [->|Hn]; [cbn; split; [lia|auto]|].
  destruct H as [->|H]; [congruence|]. destruct (IH H) as (H1 & H2). cbn. split; [lia|auto].
Qed.
Lemma index_of_nth l i : NoDup l -> i < length l -> index_of (nth i l 0) l = i.
Proof.
  intros Hn Hi. assert (In (nth i l 0) l) as Hin by (apply nth_In; auto). destruct (index_of_lt _ _ Hin) as (H1 & H2).
  eapply NoDup_nth; eauto.
Qed.
Lemma index_of_app x l1 l2 : ~ In x l1 -> index_of x (l1 ++ l2) = length l1 + index_of x l2.
Proof. induction l1 as [|a l1 IH]; intros H; auto. cbn. destruct (Nat.eqb_spec a x) as [->|Hn]; [exfalso; apply H; left; auto|]. rewrite IH; auto. intros Hi. apply H. right. auto. Qed.
Lemma index_of_app_l x l1 l2 : In x l1 -> index_of x (l1 ++ l2) = index_of x l1.
Proof. induction l1 as [|a l1 IH]; intros H; [destruct H|]. cbn. destruct (Nat.eqb_spec a x) as [->|Hn]; auto. destruct H; [congruence|]. rewrite IH; auto. Qed.
Lemma index_of_filter (g : nat -> bool) l i : NoDup l -> i < length l -> g (nth i l 0) = true ->
  index_of (nth i l 0) (filter g l) = length (filter g (firstn i l)).
Proof.
  revert i. induction l as [|a l IH]; intros i Hn Hi Hg; [cbn in Hi; lia|]. inversion Hn as [|? ? Ha Hn']; subst. destruct i as [|i].
  - cbn in Hg |- *. rewrite Hg. cbn. rewrite Nat.eqb_refl. auto.
  - cbn [nth length] in *. cbn [firstn filter]. assert (In (nth i l 0) l) as Hin by (apply nth_In; lia). destruct (g a) eqn:E.
    + cbn [index_of length]. destruct (Nat.eqb_spec a (nth i l 0)) as [->|Hne]; [contradiction|]. rewrite IH by (auto; lia). auto.
    + apply IH; auto. lia.
Qed.
Lemma sorted_filter (f : nat -> bool) l : StronglySorted lt l -> StronglySorted lt (filter f l).
Proof.
  induction 1 as [|a l Hs IH Ha]; cbn; [constructor|]. destruct (f a); auto. constructor; auto. apply Forall_forall. intros x Hx. apply filter_In in Hx as (Hx & _). revert x Hx. apply Forall_forall. auto.
Qed.
Lemma sorted_after l1 q l2 : StronglySorted lt (l1 ++ q :: l2) -> forall x, In x l2 -> q < x.
Proof.
  induction l1 as [|a l1 IH]; intros H x Hx; [cbn in H|cbn in H; apply StronglySorted_inv in H as (H & _); apply IH; auto].
  apply StronglySorted_inv in H as (_ & H). revert x Hx. apply Forall_forall. auto.
Qed.

Lemma owner_max P glob I : (exists p, p < P /\ In I (glob p)) ->
  owner P glob I < P /\ In I (glob (owner P glob I)) /\ forall q, owner P glob I < q -> q < P -> ~ In I (glob q).
Proof.
  induction P as [|k IH]; intros (p & Hp & Hin); [lia|]. cbn [owner]. destruct (existsb (Nat.eqb I) (glob k)) eqn:E.
  - apply has_In in E. split; [lia|]. split; auto. intros q H1 H2. lia.
  - apply has_not in E. assert (p <> k) by (intros ->; auto). destruct IH as (H1 & H2 & H3); [exists p; split; [lia|auto]|].
    split; [lia|]. split; auto. intros q Hq Hq'. destruct (Nat.eq_dec q k) as [->|]; auto. apply H3; lia.
Qed.

Section Consistent.
  Context {P N : nat} {size : nat -> nat} {mgr : nat -> manager} {glob : nat -> list nat}.
  Hypothesis Hc : consistent P N size mgr glob.
  Let Hv := con_valid _ _ _ _ _ Hc.
  Let own := owner P glob.

  Lemma owner_ok I : I < N -> own I < P /\ In I (glob (own I)) /\ forall q, own I < q -> q < P -> ~ In I (glob q).
  Proof using Hc. intros HI. apply owner_max. apply (con_cover _ _ _ _ _ Hc). auto. Qed.
  Lemma at_in p i : p < P -> i < size p -> In (at_ glob p i) (glob p) /\ at_ glob p i < N.
  Proof using Hc. intros Hp Hi. assert (In (at_ glob p i) (glob p)) as H by (unfold at_; apply nth_In; rewrite (con_size _ _ _ _ _ Hc); auto). split; auto. eapply con_range; eauto. Qed.
  Lemma at_inj p i j : p < P -> i < size p -> j < size p -> at_ glob p i = at_ glob p j -> i = j.
  Proof using Hc. intros Hp Hi Hj E. pose proof (con_size _ _ _ _ _ Hc p Hp) as L. pose proof (con_once _ _ _ _ _ Hc p Hp) as Hn. apply (proj1 (NoDup_nth (glob p) 0) Hn); auto; lia. Qed.
  Lemma index_ok p I : p < P -> In I (glob p) -> index_of I (glob p) < size p /\ at_ glob p (index_of I (glob p)) = I.
  Proof using Hc. intros Hp Hin. rewrite <- (con_size _ _ _ _ _ Hc p Hp). apply index_of_lt. auto. Qed.
  Lemma own_le p i : p < P -> i < size p -> p <= own (at_ glob p i).
  Proof using Hc.
    intros Hp Hi. destruct (at_in p i Hp Hi) as (H1 & H2). destruct (owner_ok _ H2) as (_ & _ & H3). destruct (le_lt_dec p (own (at_ glob p i))) as [|Hl]; auto. exfalso. apply (H3 p); auto.
  Qed.

  (** ** unique *)
  Lemma taken_at p q v base i : p < P -> q < P -> p <> q -> length base = size p -> i < size p ->
    vat (taken mgr p v base q) i = if existsb (Nat.eqb (at_ glob p i)) (glob q) then vat (v q) (index_of (at_ glob p i) (glob q)) else vat base i.
  Proof using Hc.
    intros Hp Hq Hne HL Hi. unfold taken. rewrite vat_tab by lia. unfold values_of.
    pose proof (con_same _ _ _ _ _ Hc p q Hp Hq) as Hs.
    assert (forall i, In i (shared mgr p q) -> i < size p) as R1 by (intros; eapply valid_range; eauto).
    assert (forall i, In i (shared mgr q p) -> i < size q) as R2 by (intros; eapply valid_range; eauto).
    assert (In (at_ glob p i) (glob q) -> In i (shared mgr p q)) as Hall.
    { intros H. assert (In (at_ glob p i) (map (at_ glob p) (shared mgr p q))) as H1 by (apply (con_all _ _ _ _ _ Hc); auto; apply at_in; auto).
      apply in_map_iff in H1 as (i' & E & H1). replace i with i'; auto. eapply (at_inj p); eauto. }
    revert Hs R1 R2 Hall. generalize (shared mgr p q) as l. generalize (shared mgr q p) as l'. intros l' l. revert l'.
    induction l as [|a l IH]; intros l' Hs R1 R2 Hall.
    - cbn. destruct (existsb _ _) eqn:E; auto. exfalso. apply (Hall (proj1 (has_In _ _) E)).
    - destruct l' as [|b l']; [discriminate|]. cbn [map] in Hs. injection Hs as E1 Es. cbn [map combine find fst]. destruct (Nat.eqb_spec a i) as [->|Hai].
      + cbn [snd]. assert (b < size q) as Hb by (apply R2; left; auto). assert (existsb (Nat.eqb (at_ glob p i)) (glob q) = true) as ->.
        { apply has_In. rewrite E1. apply at_in; auto. }
        rewrite E1. unfold at_. rewrite index_of_nth; auto; [apply (con_once _ _ _ _ _ Hc); auto|rewrite (con_size _ _ _ _ _ Hc); auto].
      + apply IH; auto.
        * intros j Hj. apply R1. right. auto.
        * intros j Hj. apply R2. right. auto.
        * intros H. destruct (Hall H); [congruence|auto].
  Qed.
  Lemma taken_length p q v base : length (taken mgr p v base q) = length base. Proof. apply tab_length. Qed.
  Lemma fold_taken_length p v qs : forall base, length (fold_left (taken mgr p v) qs base) = length base.
  Proof. induction qs as [|q qs IH]; intros base; auto. cbn. rewrite IH, taken_length. auto. Qed.
  Lemma fold_taken_none p v i qs : p < P -> i < size p -> (forall q, In q qs -> q < P /\ p <> q /\ ~ In (at_ glob p i) (glob q)) -> forall base, length base = size p ->
    vat (fold_left (taken mgr p v) qs base) i = vat base i.
  Proof using Hc.
    intros Hp Hi. induction qs as [|q qs IH]; intros H base HL; auto. cbn [fold_left]. rewrite IH; [| |rewrite taken_length; auto].
    - destruct (H q (or_introl eq_refl)) as (H1 & H2 & H3). rewrite taken_at by auto. apply has_not in H3. rewrite H3. auto.
    - intros q' Hq'. apply H. right. auto.
  Qed.

  Hypothesis Ha : ascending P mgr.
  Lemma unique_value p v : p < P -> length (v p) = size p ->
    fold_left (taken mgr p v) (filter (fun q => p <? q) (neighbours (mgr p))) (v p) =
    map (fun I => vat (v (own I)) (index_of I (glob (own I)))) (glob p).
  Proof using Hc Ha.
    intros Hp HL. symmetry. pose proof (con_size _ _ _ _ _ Hc p Hp) as Lg. apply vec_ext; [rewrite map_length, fold_taken_length; lia|]. rewrite map_length, Lg.
    intros i Hi. unfold vat at 1. rewrite (nth_indep _ 0%Qc (vat (v (own 0)) (index_of 0 (glob (own 0))))) by (rewrite map_length; lia).
    rewrite (map_nth (fun I => vat (v (own I)) (index_of I (glob (own I))))). fold (at_ glob p i). set (I := at_ glob p i).
    destruct (at_in p i Hp Hi) as (H1 & H2). fold I in H1, H2. destruct (owner_ok I H2) as (O1 & O2 & O3).
    set (qs := filter (fun q => p <? q) (neighbours (mgr p))).
    assert (forall q, In q qs -> q < P /\ p < q) as Hqs.
    { intros q Hq. apply filter_In in Hq as (Hq & Hlt). apply Nat.ltb_lt in Hlt. split; auto. apply (valid_rank _ _ _ Hv p); auto. }
    pose proof (own_le p i Hp Hi) as Hle. fold I in Hle. destruct (Nat.eq_dec (own I) p) as [E|Hne].
    - rewrite E. rewrite fold_taken_none; auto.
      + f_equal. unfold I, at_. rewrite index_of_nth; auto; [apply (con_once _ _ _ _ _ Hc); auto|lia].
      + intros q Hq. destruct (Hqs q Hq). split; auto. split; [lia|]. apply O3; [lia|auto].
    - assert (In (own I) qs) as Hin.
      { apply filter_In. split; [|apply Nat.ltb_lt; lia]. assert (In I (map (at_ glob p) (shared mgr p (own I)))) as H3 by (apply (con_all _ _ _ _ _ Hc); auto).
        destruct (in_dec Nat.eq_dec (own I) (neighbours (mgr p))) as [|Hn]; auto. rewrite shared_none in H3 by auto. destruct H3. }
      assert (StronglySorted lt qs) as Hs by (apply sorted_filter; auto).
      apply in_split in Hin as (l1 & l2 & E). rewrite E in *. rewrite fold_left_app. cbn [fold_left]. rewrite fold_taken_none; auto.
      + rewrite taken_at; auto; [|rewrite fold_taken_length; auto]. fold I. apply has_In in O2. rewrite O2. auto.
      + intros q Hq. destruct (Hqs q) as (Q1 & Q2); [apply in_app_iff; right; right; auto|]. split; auto. split; [lia|]. apply O3; auto. eapply sorted_after; eauto.
      + rewrite taken_length, fold_taken_length. auto.
  Qed.
  Lemma proper_unique k K : k < K -> proper_call P K size mgr (Uni k).
  Proof using Hc.
    intros Hk. split; auto. intros p q Hp. destruct (le_lt_dec P q) as [Hq|Hq]; [|apply (con_shared _ _ _ _ _ Hc); auto].
    rewrite shared_none; [constructor|]. intros H. apply (valid_rank _ _ _ Hv) in H; auto. lia.
  Qed.
  Lemma unique_ok K m k : (forall p, p < P -> shaped K (size p) (m p)) -> k < K ->
    always P mgr [Round nothing (Uni k)] m (fun p r => reg r k = map (fun I => vat (reg (m (own I)) k) (index_of I (glob (own I)))) (glob p)).
  Proof using Hc Ha.
    intros Hm Hk. apply (always_ok P K size); auto.
    - constructor; [|constructor]. split; [apply keeps_nothing|apply proper_unique; auto].
    - repeat constructor.
    - intros p Hp. cbn [program_spec fold_left]. unfold round_spec. cbn [pre what call_spec]. unfold nothing. destruct (Hm p Hp) as (L & HL). rewrite reg_eq by lia.
      apply (unique_value p (fun q => reg (m q) k)); auto.
  Qed.
End Consistent.
