(** The loops over the shared degrees of freedom. *)
From Verif Require Import Util Lin OverlapModel OverlapSpec.
Local Open Scope nat_scope.

Lemma gather_ok v s : (forall i, In i s -> i < length v) -> gather v s = Ok (map (vat v) s).
Proof.
  induction s as [|i s IH]; intros H; cbn [gather map]; [reflexivity|].
  rewrite (aget_nth v i 0%Qc) by (apply H; left; auto). cbn [bind]. rewrite IH by (intros; apply H; right; auto). reflexivity.
Qed.

Lemma nth_error_combine2 {A B} (a : list A) (b : list B) j x y : nth_error a j = Some x -> nth_error b j = Some y -> nth_error (combine a b) j = Some (x, y).
Proof.
  revert b j; induction a as [|u a IH]; intros [|v b] [|j]; cbn; intros H1 H2; try discriminate.
  - injection H1 as ->. injection H2 as ->. reflexivity.
  - apply IH; auto.
Qed.

Definition add_in (s : list nat) (x : list Qc) (i : nat) : Qc := suml (map (fun jx => if fst jx =? i then snd jx else 0%Qc) (combine s x)).
Lemma accumulateProcess_ok s x v : length s = length x -> (forall i, In i s -> i < length v) ->
  accumulateProcess s x v = Ok (tab (length v) (fun i => (vat v i + add_in s x i)%Qc)).
Proof.
  intros Hl Hs. unfold accumulateProcess.
  loop_inv (fun j w => length w = length v /\ forall i, i < length v ->
    vat w i = (vat v i + suml (map (fun jx => if fst jx =? i then snd jx else 0%Qc) (firstn j (combine s x))))%Qc) w E HI.
  - lia.
  - split; auto. intros i Hi. cbn. ring.
  - intros j w Hj (Hw & Hv).
    destruct (nth_error_lt s j) as (i & Ei); [lia|]. destruct (nth_error_lt x j) as (y & Ey); [lia|].
    assert (i < length w) as Hi by (rewrite Hw; apply Hs; eapply nth_error_In; eauto).
    rewrite (aget_ok _ _ _ Ei). cbn [bind]. rewrite (aget_ok _ _ _ Ey). cbn [bind]. rewrite (aget_nth w i 0%Qc Hi). cbn [bind].
    rewrite aset_ok by auto. eexists; split; [reflexivity|]. rewrite upd_length. split; auto.
    intros k Hk. rewrite vat_upd by auto. destruct (cut_at _ _ _ (nth_error_combine2 _ _ _ _ _ Ei Ey)) as (-> & _ & _).
    rewrite map_app, suml_app. cbn [map suml fst snd]. rewrite (Nat.eqb_sym i k). destruct (Nat.eqb_spec k i) as [-> |Hne].
    + change (nth i w 0%Qc) with (vat w i). rewrite Hv by lia. ring.
    + rewrite Hv by lia. ring.
  - rewrite E. f_equal. destruct HI as (Hw & Hv). apply (eq_tab _ _ _ 0%Qc); auto.
    intros i Hi. change (nth i w 0%Qc) with (vat w i). rewrite Hv by auto. unfold add_in. rewrite firstn_all2; auto. rewrite combine_length. lia.
Qed.

Definition take_in (s : list nat) (x base : list Qc) (i : nat) : Qc :=
  match find (fun jx => fst jx =? i) (combine s x) with Some jx => snd jx | None => vat base i end.
Lemma find_app {A} f (a b : list A) : find f (a ++ b) = match find f a with Some x => Some x | None => find f b end.
Proof. induction a as [|x a IH]; cbn; auto. destruct (f x); auto. Qed.
Lemma uniqueProcess_ok s x v : length s = length x -> (forall i, In i s -> i < length v) -> NoDup s ->
  uniqueProcess s x v = Ok (tab (length v) (take_in s x v)).
Proof.
  intros Hl Hs Hd. unfold uniqueProcess.
  loop_inv (fun j w => length w = length v /\ forall i, i < length v ->
    vat w i = match find (fun jx => fst jx =? i) (firstn j (combine s x)) with Some jx => snd jx | None => vat v i end) w E HI.
  - lia.
  - split; auto.
  - intros j w Hj (Hw & Hv).
    destruct (nth_error_lt s j) as (i & Ei); [lia|]. destruct (nth_error_lt x j) as (y & Ey); [lia|].
    assert (i < length w) as Hi by (rewrite Hw; apply Hs; eapply nth_error_In; eauto).
    rewrite (aget_ok _ _ _ Ei). cbn [bind]. rewrite (aget_ok _ _ _ Ey). cbn [bind].
    rewrite aset_ok by auto. eexists; split; [reflexivity|]. rewrite upd_length. split; auto.
    intros k Hk. rewrite vat_upd by auto. destruct (cut_at _ _ _ (nth_error_combine2 _ _ _ _ _ Ei Ey)) as (-> & _ & _).
    rewrite find_app. cbn [find fst snd]. rewrite (Nat.eqb_sym i k).
    destruct (Nat.eqb_spec k i) as [-> |Hne].
    + destruct (find _ (firstn j (combine s x))) as [[i' x']|] eqn:Ef; auto. exfalso.
      apply find_some in Ef as (Hin & He). cbn in He. apply Nat.eqb_eq in He. subst i'.
      apply In_nth_error in Hin as (j' & Ej').
      assert (j' < j) as Hj'. { assert (j' < length (firstn j (combine s x))) by (apply nth_error_Some; congruence). rewrite firstn_length in H. lia. }
      assert (nth_error (combine s x) j' = Some (i, x')) as Ec.
      { rewrite <- (firstn_skipn j (combine s x)). rewrite nth_error_app1; auto. apply nth_error_Some. congruence. }
      assert (nth_error s j' = Some i) as Es.
      { clear - Ec. revert x j' Ec. induction s as [|a s IH]; intros [|b x] [|j'] E; cbn in *; try discriminate.
        - injection E as -> ->. reflexivity. - eapply IH; eauto. }
      assert (j' = j). { eapply NoDup_nth_error; eauto. - apply nth_error_Some. congruence. - congruence. } lia.
    + rewrite Hv by lia. destruct (find _ _) as [jx|]; auto.
  - rewrite E. f_equal. destruct HI as (Hw & Hv). apply (eq_tab _ _ _ 0%Qc); auto.
    intros i Hi. change (nth i w 0%Qc) with (vat w i). rewrite Hv by auto. unfold take_in. rewrite firstn_all2; auto. rewrite combine_length. lia.
Qed.

Lemma copy_into_ok v w : length v = length w -> copy_into v w = Ok v.
Proof.
  intros Hl. unfold copy_into.
  loop_inv (fun j u => length u = length v /\ firstn j u = firstn j v) u E HI.
  - lia.
  - split; auto.
  - intros j u Hj (Hu & Hf). destruct (nth_error_lt v j) as (x & Ex); [lia|].
    rewrite (aget_ok _ _ _ Ex). cbn [bind]. rewrite aset_ok by lia. eexists; split; [reflexivity|]. rewrite upd_length. split; auto.
    destruct (cut_at _ _ _ Ex) as (-> & _ & _).
    assert (nth_error (upd u j x) j = Some x) as Eu by (apply nth_error_upd_eq; lia).
    destruct (cut_at _ _ _ Eu) as (-> & _ & _). f_equal. rewrite <- Hf.
    assert (firstn j (upd u j x) = firstn j u) as ->; auto.
    clear. revert j; induction u as [|a u IH]; intros [|j]; cbn; auto. f_equal. auto.
  - rewrite E. f_equal. destruct HI as (Hu & Hf). rewrite firstn_all in Hf. rewrite <- Hu, firstn_all in Hf. auto.
Qed.

(** Adding the messages of several ranks *)
Lemma pop_split {X} i (l : list X) x : nth_error l i = Some x -> exists a b, l = a ++ x :: b /\ pop i l = a ++ b.
Proof.
  intros E. apply nth_error_split in E as (a & b & -> & <-). exists a, b. split; auto.
  unfold pop. rewrite firstn_at. replace (a ++ x :: b) with ((a ++ [x]) ++ b) by (rewrite <- app_assoc; auto).
  replace (S (length a)) with (length (a ++ [x])) by (rewrite app_length; cbn; lia). rewrite skipn_at. reflexivity.
Qed.

Lemma find_overlap_in m q : In q (neighbours m) -> exists o, find_overlap m q = Ok o.
Proof.
  unfold neighbours, find_overlap. intros H. apply in_map_iff in H as (o & <- & Ho).
  destruct (find (fun o0 => o_other o0 =? o_other o) m) eqn:E; eauto.
  eapply find_none in E; eauto. cbn in E. rewrite Nat.eqb_refl in E. discriminate.
Qed.
Lemma find_overlap_shared mgr p q o : find_overlap (mgr p) q = Ok o -> o_shared o = shared mgr p q.
Proof. unfold find_overlap, shared. destruct (find _ _); intros E; inversion E; auto. Qed.
Lemma shared_not_in mgr p q : ~ In q (neighbours (mgr p)) -> shared mgr p q = [].
Proof.
  unfold shared. intros H. destruct (find _ _) eqn:E; auto. apply find_some in E as (Hi & He). exfalso. apply H.
  apply Nat.eqb_eq in He. subst q. apply in_map; auto.
Qed.
