(** No execution fails, no reachable state is stuck, and every execution ends. *)
From Coq Require Import Sorted.
From Verif Require Import Util Lin OverlapModel OverlapSpec OverlapProofs OverlapProofs2.
Local Open Scope nat_scope.
Set Default Proof Using "Type".

Lemma for_n_pres {X} (I : X -> Prop) f : (forall k s s', f k s = Ok s' -> I s -> I s') ->
  forall n i s s', for_n n i f s = Ok s' -> I s -> I s'.
Proof.
  intros H. induction n as [|n IH]; cbn; intros i s s' E Hs; [congruence|].
  apply bind_ok in E as (s1 & E1 & E2). eapply IH; eauto.
Qed.

Section Progress.
  Variables (P : nat) (mgr : nat -> manager) (chan : nat -> nat -> list (nat * list Qc)) (cols : list (nat * (nat -> list Qc))) (fin : nat -> lst).
  Hypothesis Hval : forall p q, p < P -> q < P -> length (shared mgr p q) = length (shared mgr q p).
  Hypothesis Hrank : forall p q, p < P -> In q (neighbours (mgr p)) -> q < P /\ q <> p.
  Let INV w := exists ops l, inv P mgr chan cols fin w ops l.

  Lemma step_inv b w w' : INV w -> step P mgr b w w' -> INV w'.
  Proof using Hval Hrank.
    intros (ops & l & HI) [p ws Hp E Hin|p q i Hp Hq E|p q i Hp Hq E].
    - destruct (rank_step P mgr chan cols fin Hval Hrank w ops l p HI Hp) as (ws' & E' & H). rewrite E in E'. injection E' as <-. apply H; auto.
    - destruct (Nat.eq_dec p q) as [->|Hne].
      + exfalso. unfold copy_next in E. destruct (inv_self _ _ _ _ _ _ _ _ HI q) as (Es & _). rewrite Es in E. destruct i; discriminate.
      + exists ops, l. exact (copy_step _ _ _ _ _ b w ops l p q i w' HI Hp Hq E Hne).
    - destruct (Nat.eq_dec p q) as [->|Hne].
      + exfalso. unfold deliver_next in E. destruct (inv_self _ _ _ _ _ _ _ _ HI q) as (_ & Es). rewrite Es in E. destruct i; discriminate.
      + destruct (deliver_step P mgr chan cols fin Hval w ops l p q i HI Hp Hq Hne) as (o & E' & H). rewrite E in E'. injection E' as <-. exists ops, l. auto.
  Qed.
  Lemma runs_inv b n w w' : INV w -> runs P mgr b n w w' -> INV w'.
  Proof using Hval Hrank. intros H R. induction R as [|n w w1 w2 R IH Hs]; [exact H|]. exact (step_inv b w1 w2 (IH H) Hs). Qed.
  Lemma inv_safe w : INV w -> ~ fails P mgr w.
  Proof using Hval Hrank.
    intros (ops & l & HI) [p e Hp E|p q i e Hp Hq E].
    - destruct (rank_step P mgr chan cols fin Hval Hrank w ops l p HI Hp) as (ws' & E' & H). congruence.
    - destruct (Nat.eq_dec p q) as [->|Hne].
      + unfold deliver_next in E. destruct (inv_self _ _ _ _ _ _ _ _ HI q) as (_ & Es). rewrite Es in E. destruct i; discriminate.
      + destruct (deliver_step P mgr chan cols fin Hval w ops l p q i HI Hp Hq Hne) as (o & E' & H). congruence.
  Qed.
  Lemma inv_done w p : INV w -> p < P -> r_ops (w_rank w p) = [] -> r_mem (w_rank w p) = l_mem (fin p).
  Proof.
    intros (ops & l & HI) Hp E. destruct (inv_rank _ _ _ _ _ _ _ _ HI p Hp) as [E1 E2 E3 E4 E5 _ _ _ _ _ _].
    rewrite E in E1. destruct (ops p); [|discriminate]. cbn in E3. congruence.
  Qed.

  (** * Progress *)
  Lemma mono_sent p q ops : forall l f, lrun P mgr chan cols p ops l f -> l_sent l q <= l_sent f q.
  Proof.
    induction ops as [|(tau & o) ops IH]; cbn; intros l f H; [subst; auto|]. destruct H as (_ & H). apply IH in H.
    destruct o as [g| |q' v|q' v|q'|s d|d|q' v| |h|g| ]; cbn in H; auto; unfold put in H; destruct (Nat.eqb_spec q q') as [->|]; lia.
  Qed.
  Lemma mono_con p ops : forall l f, lrun P mgr chan cols p ops l f -> l_con l <= l_con f.
  Proof.
    induction ops as [|(tau & o) ops IH]; cbn; intros l f H; [subst; auto|]. destruct H as (_ & H). apply IH in H.
    destruct o; cbn in H; auto; lia.
  Qed.
  Lemma mono_post p q ops : forall l f, lrun P mgr chan cols p ops l f -> l_post l q <= l_post f q.
  Proof.
    induction ops as [|(tau & o) ops IH]; cbn; intros l f H; [subst; auto|]. destruct H as (_ & H). apply IH in H.
    destruct o as [g| |q' v|q' v|q'|s d|d|q' v| |h|g| ]; cbn in H; auto; unfold put in H; destruct (Nat.eqb_spec q q') as [->|]; lia.
  Qed.
  Lemma later_sent p q n tau ops : forall l f, lrun P mgr chan cols p ops l f -> (forall o, In o ops -> tau <= fst o) ->
    l_sent l q <= n -> n < l_sent f q -> tau <= sig chan p q n.
  Proof.
    induction ops as [|(t & o) ops IH]; cbn; intros l f H Ho H1 H2; [subst; lia|]. destruct H as (Hp & H).
    assert (forall q' v, lsend P mgr chan p t q' v l -> lrun P mgr chan cols p ops (lpost P mgr chan cols p o l) f -> l_sent (lpost P mgr chan cols p o l) = put (l_sent l) q' (S (l_sent l q')) -> tau <= sig chan p q n) as G.
    { intros q' v (_ & _ & _ & _ & _ & _ & _ & Hsg & _) Hr E. destruct (Nat.eq_dec q q') as [<-|Hne].
      - destruct (Nat.eq_dec (l_sent l q) n) as [<-|Hn].
        + rewrite Hsg. apply (Ho (t, o)). auto.
        + eapply IH; eauto. rewrite E, put_eq. lia.
      - eapply IH; eauto. rewrite E, put_neq; auto. }
    destruct o as [g| |q' v|q' v|q'|s d|d|q' v| |h|g| ]; cbn in Hp; try (eapply IH; eauto; fail); eapply G; eauto; reflexivity.
  Qed.
  Lemma later_post p q n tau ops : forall l f, lrun P mgr chan cols p ops l f -> (forall o, In o ops -> tau <= fst o) ->
    l_post l q <= n -> n < l_post f q -> tau <= sig chan q p n.
  Proof.
    induction ops as [|(t & o) ops IH]; cbn; intros l f H Ho H1 H2; [subst; lia|]. destruct H as (Hp & H).
    destruct o as [g| |q' v|q' v|q'|s d|d|q' v| |h|g| ]; cbn in Hp; try (eapply IH; eauto; fail).
    destruct Hp as (_ & _ & _ & _ & _ & Hsg). destruct (Nat.eq_dec q q') as [<-|Hne].
    - destruct (Nat.eq_dec (l_post l q) n) as [<-|Hn].
      + rewrite Hsg. apply (Ho (t, ORecv q)). auto.
      + eapply IH; eauto. cbn. rewrite put_eq. lia.
    - eapply IH; eauto. cbn. rewrite put_neq; auto.
  Qed.
  Lemma later_con p n tau ops : forall l f, lrun P mgr chan cols p ops l f -> (forall o, In o ops -> tau <= fst o) ->
    l_con l <= n -> n < l_con f -> tau <= csig cols n.
  Proof.
    induction ops as [|(t & o) ops IH]; cbn; intros l f H Ho H1 H2; [subst; lia|]. destruct H as (Hp & H).
    destruct o as [g| |q' v|q' v|q'|s d|d|q' v| |h|g| ]; cbn in Hp; try (eapply IH; eauto; fail).
    destruct Hp as (_ & _ & Hsg & _). destruct (Nat.eq_dec (l_con l) n) as [<-|Hn].
    - rewrite Hsg. apply (Ho (t, OContribute h)). auto.
    - eapply IH; eauto. cbn. lia.
  Qed.

  Lemma minimal (ops : nat -> list (nat * op)) : forall n, n <= P -> (forall p, p < n -> StronglySorted le (map fst (ops p))) ->
    (forall p, p < n -> ops p = []) \/
    exists p o r, p < n /\ ops p = o :: r /\ forall q o', q < n -> In o' (ops q) -> fst o <= fst o'.
  Proof.
    induction n as [|n IH]; intros Hn Hs; [left; lia|].
    assert (forall q o r o', q < S n -> ops q = o :: r -> In o' (ops q) -> fst o <= fst o') as Hd.
    { intros q o r o' Hq E Hi. specialize (Hs q Hq). rewrite E in Hs, Hi. cbn in Hs. apply StronglySorted_inv in Hs as (_ & Hf).
      destruct Hi as [->|Hi]; auto. eapply Forall_forall in Hf; eauto. apply in_map. auto. }
    destruct IH as [H|(p & o & r & Hp & E & H)]; [lia|auto| |].
    - destruct (ops n) as [|o r] eqn:E.
      + left. intros p Hp. destruct (Nat.eq_dec p n) as [->|]; auto. apply H. lia.
      + right. exists n, o, r. split; [lia|]. split; auto. intros q o' Hq Hi. destruct (Nat.eq_dec q n) as [->|].
        * eapply Hd; eauto.
        * rewrite H in Hi by lia. destruct Hi.
    - right. destruct (ops n) as [|o' r'] eqn:E'.
      + exists p, o, r. split; [lia|]. split; auto. intros q o' Hq Hi. destruct (Nat.eq_dec q n) as [->|].
        * rewrite E' in Hi. destruct Hi. * apply (H q o'); auto. lia.
      + destruct (Nat.le_gt_cases (fst o) (fst o')) as [Hle|Hgt].
        * exists p, o, r. split; [lia|]. split; auto. intros q o2 Hq Hi. destruct (Nat.eq_dec q n) as [->|].
          -- specialize (Hd n o' r' o2 ltac:(lia) E' Hi). lia. -- apply (H q o2); auto. lia.
        * exists n, o', r'. split; [lia|]. split; auto. intros q o2 Hq Hi. destruct (Nat.eq_dec q n) as [->|].
          -- eapply Hd; eauto. -- specialize (H q o2 ltac:(lia) Hi). lia.
  Qed.

  (** What a rank waits for *)
  Definition blocked (w : world) (p : nat) (r : rank) : Prop :=
    match r_ops r with
    | OWaitall :: _ => exists q t, In (q, t) (r_reqS r) /\ In t (w_send w p q)
    | OWaitallU :: _ => exists q t, In (q, t) (r_reqU r) /\ In t (w_send w p q)
    | ODrain _ :: _ => exists q t, In (q, t) (r_reqR r) /\ In t (w_recv w q p)
    | OWait q _ :: _ => exists t, In (q, t) (r_reqR r) /\ In t (w_recv w q p)
    | OResult _ :: _ => contributions (w_coll w (r_coll r)) 0 P = None
    | [] => True
    | _ => False
    end.
  Lemma complete_false w p reqs : complete w p reqs = false -> exists q t, In (q, t) reqs /\ In t (w_send w p q).
  Proof.
    unfold complete. induction reqs as [|(q & t) reqs IH]; cbn; [discriminate|]. intros H. apply andb_false_iff in H as [H|H].
    - exists q, t. split; auto. apply pending_in. destruct (pending t (w_send w p q)); auto.
    - destruct (IH H) as (q' & t' & H1 & H2). exists q', t'. auto.
  Qed.
  Lemma rank_live w p ws : rank_next P mgr p w = Ok ws -> ws <> [] \/ blocked w p (w_rank w p).
  Proof.
    unfold rank_next, blocked. destruct (r_ops (w_rank w p)) as [|o ops] eqn:Eo; [auto|]. intros E.
    destruct o as [g| |q v|q v|q|s d|d|q v| |h|g| ]; cbn [run_op] in E.
    1,5,10,12: injection E as <-; left; discriminate.
    - injection E as <-. destruct (complete w p (r_reqS (w_rank w p))) eqn:Ec; [left; discriminate|right; apply complete_false; auto].
    - apply bind_ok in E as ((r & t) & _ & E). injection E as <-. left. discriminate.
    - apply bind_ok in E as ((r & t) & _ & E). injection E as <-. left. discriminate.
    - apply bind_ok in E as (v & _ & E). apply bind_ok in E as (u & _ & E). apply bind_ok in E as (u' & _ & E). apply bind_ok in E as (m & _ & E). injection E as <-. left. discriminate.
    - destruct (r_reqR (w_rank w p)) as [|(q & t) R] eqn:ER; [injection E as <-; left; discriminate|].
      destruct (pending t (w_recv w q p)) eqn:Ep; [right; exists q, t; split; [left; auto|apply pending_in; auto]|]. left.
      unfold for_range in E. cbn [length Nat.sub for_n aget nth_error bind] in E. rewrite Ep in E. apply bind_ok in E as (s1 & E1 & E2).
      apply bind_ok in E1 as (m & _ & E1). eapply (for_n_pres (fun l => l <> [])); [|exact E2|].
      + intros k s s' Ek Hs. apply bind_ok in Ek as ((q' & t') & _ & Ek). destruct (pending t' (w_recv w q' p)).
        * injection Ek as <-. auto.
        * apply bind_ok in Ek as (m' & _ & Ek). injection Ek as <-. destruct s; [congruence|discriminate].
      + injection E1 as <-. discriminate.
    - destruct (find (fun x => fst x =? q) (r_reqR (w_rank w p))) as [(q' & t)|] eqn:Ef; [|discriminate].
      apply find_some in Ef as (Hi & He). cbn in He. apply Nat.eqb_eq in He. subst q'.
      destruct (pending t (w_recv w q p)) eqn:Ep; [right; exists t; split; auto; apply pending_in; auto|].
      apply bind_ok in E as (m & _ & E). injection E as <-. left. discriminate.
    - injection E as <-. destruct (complete w p (r_reqU (w_rank w p))) eqn:Ec; [left; discriminate|right; apply complete_false; auto].
    - injection E as <-. destruct (contributions (w_coll w (r_coll (w_rank w p))) 0 P); [left; discriminate|auto].
  Qed.

  Hypothesis Hsent : forall p q, p < P -> q < P -> l_sent (fin p) q = l_post (fin q) p.
  Hypothesis Hcon : forall p q, p < P -> q < P -> l_con (fin p) = l_con (fin q).

  Lemma tags_in t a b : In t (tags a b) -> 51 + a <= t /\ t < 51 + b.
  Proof. unfold tags. intros H. apply in_map_iff in H as (n & <- & H). apply in_seq in H. lia. Qed.

  (** A message that was sent, for which a receive is posted, can be moved on *)
  Lemma message_moves w ops l p q n : inv P mgr chan cols fin w ops l -> p < P -> q < P -> p <> q ->
    (n < l_sent (l p) q) -> n < l_post (l q) p -> In (51 + n) (w_send w p q) \/ In (51 + n) (w_recv w p q) ->
    exists w', step P mgr false w w'.
  Proof using Hval.
    intros HI Hp Hq Hpq Hs Hr Hw. pose proof HI as [I1 I2 I3 I4].
    destruct (I2 p q Hp Hq Hpq) as (s & r & c & x & d & [H1 H2 H3 H4 H5 H6 H7 H8 H9 H10 H11 H12]).
    pose proof (ok_tagS _ _ _ _ _ _ _ _ _ (I1 p Hp) q) as Ts. pose proof (ok_tagR _ _ _ _ _ _ _ _ _ (I1 q Hq) p) as Tr.
    assert (s = l_sent (l p) q) as -> by lia. assert (r = l_post (l q) p) as -> by lia.
    assert (d < l_post (l q) p /\ d < l_sent (l p) q) as (Hd & Hd').
    { destruct Hw as [Hw|Hw]; [rewrite H7 in Hw|rewrite H9 in Hw]; apply tags_in in Hw; lia. }
    assert (l_post (l q) p = S d) as Er by lia. rewrite Er, tags_one in H9.
    destruct (Nat.lt_ge_cases d x) as [Hdx|Hdx].
    - destruct (deliver_step P mgr chan cols fin Hval w ops l p q 0 HI Hp Hq Hpq) as (o & E & _).
      destruct o as [w'|]; [exists w'; exact (StepDeliver P mgr false w w' p q 0 Hp Hq E)|]. exfalso.
      unfold deliver_next in E. rewrite H9, H8, letters_cons in E by auto. cbn -[Nat.add] in E. rewrite Nat.eqb_refl in E.
      apply bind_ok in E as (? & _ & E). discriminate.
    - assert (x = d) as -> by lia. assert (l_sent (l p) q = S d) as Es by lia. rewrite Es, tags_one in H7.
      destruct (copy_next false p q 0 w) as [w'|] eqn:E; [exists w'; exact (StepCopy P mgr false w w' p q 0 Hp Hq E)|]. exfalso.
      unfold copy_next in E. rewrite H7, H9 in E. cbn -[Nat.add] in E. rewrite Nat.eqb_refl in E. discriminate.
  Qed.

  Lemma inv_progress w : INV w -> ~ finished P w -> exists w', step P mgr false w w'.
  Proof using Hval Hrank Hsent Hcon.
    intros (ops & l & HI) Hf. pose proof HI as [I1 I2 I3 I4].
    destruct (minimal ops P) as [H|(p & (tau & o) & rest & Hp & Eo & Hmin)]; [lia|intros p Hp; apply (I1 p Hp)| |].
    { exfalso. apply Hf. intros p Hp. destruct (I1 p Hp) as [E _ _ _ _ _ _ _ _ _ _]. rewrite E, H by auto. reflexivity. }
    destruct (rank_step P mgr chan cols fin Hval Hrank w ops l p HI Hp) as (ws & E & _).
    destruct (rank_live w p ws E) as [Hne|Hb].
    { destruct ws as [|w' ws]; [congruence|]. exists w'. eapply StepRank; eauto. left. auto. }
    pose proof (I1 p Hp) as [E1 E2 E3 E4 E5 E6 E7 E8 E9 E10 E11]. rewrite Eo in E1, E3. cbn [lrun fst snd] in E3. destruct E3 as (Hpre & Hrun0).
    pose proof (ok_run _ _ _ _ _ _ _ _ _ (I1 p Hp)) as Hrun.
    unfold blocked in Hb. rewrite E1 in Hb. cbn [map snd] in Hb.
    assert (forall q n, q < P -> q <> p -> sig chan p q n < tau -> n < l_sent (l p) q -> In (51 + n) (w_send w p q) -> exists w', step P mgr false w w') as Gs.
    { intros q n Hq Hqp Hsg Hn Hw. eapply (message_moves w ops l p q n); eauto.
      destruct (Nat.lt_ge_cases n (l_post (l q) p)) as [|Hge]; auto. exfalso.
      pose proof (later_post q p n tau (ops q) (l q) (fin q) (ok_run _ _ _ _ _ _ _ _ _ (I1 q Hq)) (fun o' Ho' => Hmin q o' Hq Ho') Hge) as L.
      pose proof (mono_sent p q (ops p) _ _ Hrun) as M. rewrite Hsent in M by auto. lia. }
    assert (forall q n, q < P -> q <> p -> sig chan q p n < tau -> n < l_post (l p) q -> In (51 + n) (w_recv w q p) -> exists w', step P mgr false w w') as Gr.
    { intros q n Hq Hqp Hsg Hn Hw. eapply (message_moves w ops l q p n); eauto.
      destruct (Nat.lt_ge_cases n (l_sent (l q) p)) as [|Hge]; auto. exfalso.
      pose proof (later_sent q p n tau (ops q) (l q) (fin q) (ok_run _ _ _ _ _ _ _ _ _ (I1 q Hq)) (fun o' Ho' => Hmin q o' Hq Ho') Hge) as L.
      pose proof (mono_post p q (ops p) _ _ Hrun) as M. rewrite <- Hsent in M by auto. lia. }
    destruct o as [g| |q v|q v|q|s d|d|q v| |h|g| ]; try contradiction; cbn [lpre] in Hpre; try (destruct Hb; fail).
    - destruct Hb as (q & t & Hi & Ht). rewrite E8 in Hi. destruct (wf_S _ _ _ E4 _ _ Hi) as (Et & Hpos & Hq & Hqp).
      apply (Gs q (t - 51)); auto; try lia. rewrite Et in Ht |- *. replace (51 + (50 + l_sent (l p) q - 51)) with (50 + l_sent (l p) q) by lia. auto.
    - destruct Hpre as (Hd & Hfit). destruct Hb as (q & t & Hi & Ht). rewrite E10 in Hi. destruct (wf_R _ _ _ E4 _ _ Hi) as (Et & Hpos & Hq & Hqp).
      apply (Gr q (t - 51)); auto; try lia; [apply Hfit; auto|]. rewrite Et in Ht |- *. replace (51 + (50 + l_post (l p) q - 51)) with (50 + l_post (l p) q) by lia. auto.
    - destruct Hpre as (_ & _ & _ & Hsg). destruct Hb as (t & Hi & Ht). rewrite E10 in Hi. destruct (wf_R _ _ _ E4 _ _ Hi) as (Et & Hpos & Hq & Hqp).
      apply (Gr q (l_post (l p) q - 1)); auto; try lia. replace (51 + (l_post (l p) q - 1)) with (50 + l_post (l p) q) by lia. congruence.
    - destruct Hb as (q & t & Hi & Ht). rewrite E9 in Hi. destruct (wf_U _ _ _ E4 _ _ Hi) as (Et & Hpos & Hq & Hqp).
      apply (Gs q (t - 51)); auto; try lia. rewrite Et in Ht |- *. replace (51 + (50 + l_sent (l p) q - 51)) with (50 + l_sent (l p) q) by lia. auto.
    - exfalso. destruct Hpre as (Hc & Hsg). rewrite E11 in Hb.
      assert (forall n f0, f0 + n <= P -> contributions (w_coll w (l_coll (l p))) f0 n <> None) as G; [|apply (G P 0); auto].
      clear Hb. induction n as [|n IH]; intros f0 Hle; cbn [contributions]; [discriminate|].
      rewrite I3 by lia. destruct (Nat.ltb_spec (l_coll (l p)) (l_con (l f0))) as [Hlt|Hge].
      + specialize (IH (S f0) ltac:(lia)). destruct (contributions _ (S f0) n); [discriminate|congruence].
      + exfalso. assert (f0 < P) as Hf0 by lia.
        pose proof (later_con f0 (l_coll (l p)) tau (ops f0) (l f0) (fin f0) (ok_run _ _ _ _ _ _ _ _ _ (I1 f0 Hf0)) (fun o' Ho' => Hmin f0 o' Hf0 Ho') Hge) as L.
        pose proof (mono_con p (ops p) _ _ Hrun) as M. rewrite (Hcon p f0) in M by auto. lia.
  Qed.
End Progress.

(** * Every execution ends *)
Section Measure.
  Variables (P : nat) (mgr : nat -> manager).
  Definition rank_weight (r : rank) : nat := 3 * length (r_ops r) + length (r_reqR r).
  Definition chan_weight (w : world) (p q : nat) : nat := 2 * length (w_send w p q) + length (w_net w p q).
  Definition total (n : nat) (f : nat -> nat) : nat := list_sum (map f (seq 0 n)).
  Definition weight (w : world) : nat := total P (fun p => rank_weight (w_rank w p)) + total P (fun p => total P (chan_weight w p)).

  Lemma total_S n f : total (S n) f = total n f + f n.
  Proof. unfold total. rewrite seq_S, map_app, list_sum_app. cbn. lia. Qed.
  Lemma total_ext n f g : (forall i, i < n -> f i = g i) -> total n f = total n g.
  Proof. intros H. unfold total. f_equal. apply map_ext_in. intros i Hi. apply in_seq in Hi. apply H. lia. Qed.
  Lemma total_at n f g k : k < n -> (forall i, i < n -> i <> k -> f i = g i) -> total n f + g k = total n g + f k.
  Proof.
    induction n as [|n IH]; intros Hk H; [lia|]. rewrite !total_S. destruct (Nat.eq_dec k n) as [->|Hne].
    - rewrite (total_ext n f g); [lia|]. intros i Hi. apply H; lia.
    - rewrite (H n) by lia. specialize (IH ltac:(lia) ltac:(intros; apply H; lia)). lia.
  Qed.
  Lemma rank_total w p r : p < P -> total P (fun q => rank_weight (put (w_rank w) p r q)) + rank_weight (w_rank w p) = total P (fun q => rank_weight (w_rank w q)) + rank_weight r.
  Proof.
    intros Hp. pose proof (total_at P (fun q => rank_weight (put (w_rank w) p r q)) (fun q => rank_weight (w_rank w q)) p Hp) as H.
    cbn beta in H. rewrite put_eq in H. rewrite H; [lia|]. intros i _ Hi. rewrite put_neq; auto.
  Qed.
  Lemma chan_total (f g : nat -> nat -> nat) p q : p < P -> q < P -> (forall a b, a <> p \/ b <> q -> f a b = g a b) ->
    total P (fun a => total P (f a)) + g p q = total P (fun a => total P (g a)) + f p q.
  Proof.
    intros Hp Hq H. pose proof (total_at P (fun a => total P (f a)) (fun a => total P (g a)) p Hp) as H1. cbn beta in H1.
    pose proof (total_at P (f p) (g p) q Hq) as H2.
    assert (total P (fun a => total P (f a)) + total P (g p) = total P (fun a => total P (g a)) + total P (f p)) as H3.
    { apply H1. intros i _ Hi. apply total_ext. intros j _. apply H. auto. }
    assert (total P (f p) + g p q = total P (g p) + f p q) as H4 by (apply H2; intros; apply H; auto). lia.
  Qed.
  Lemma pop_length {X} i (l : list X) : i < length l -> S (length (pop i l)) = length l.
  Proof. intros H. unfold pop. rewrite app_length, firstn_length, skipn_length. lia. Qed.
  Lemma filter_length_le {X} f (l : list X) : length (filter f l) <= length l.
  Proof. induction l as [|x l IH]; cbn; auto. destruct (f x); cbn; lia. Qed.

  Lemma set_rank_weight w p r : p < P -> rank_weight r < rank_weight (w_rank w p) -> weight (set_rank w p r) < weight w.
  Proof.
    intros Hp H. pose proof (rank_total w p r Hp) as R. unfold weight.
    change (total P (fun p0 => total P (chan_weight (set_rank w p r) p0))) with (total P (fun p0 => total P (chan_weight w p0))). cbn [set_rank w_rank]. lia.
  Qed.

  Lemma step_weight b w w' : (forall p q, p < P -> In q (neighbours (mgr p)) -> q < P) -> step P mgr b w w' -> weight w' < weight w.
  Proof.
    intros Hn [p ws Hp E Hin|p q i Hp Hq E|p q i Hp Hq E].
    - unfold rank_next in E. destruct (r_ops (w_rank w p)) as [|o ops] eqn:Eo; [injection E as <-; destruct Hin|].
      assert (rank_weight (w_rank w p) = 3 + 3 * length ops + length (r_reqR (w_rank w p))) as Ew by (unfold rank_weight; rewrite Eo; cbn [length]; lia).
      assert (forall q v r t w1, send p q v (mgr p) (w_rank w p) = Ok (r, t) -> length (r_reqR w1) = length (r_reqR (w_rank w p)) -> r_ops w1 = ops ->
        weight (World (put (w_rank w) p w1) (put2 (w_send w) p q (w_send w p q ++ [t])) (w_net w) (w_recv w) (w_coll w)) < weight w) as Gs.
      { intros q v r t w1 Es E1 E2. unfold send in Es. apply bind_ok in Es as (ov & Eov & Es).
        assert (q < P) as Hq. { apply (Hn p q Hp). unfold find_overlap in Eov. destruct (find _ _) eqn:Ef; [|discriminate]. apply find_some in Ef as (Hi & He). apply Nat.eqb_eq in He. subst q. apply in_map; auto. }
        unfold weight. cbn [w_rank]. pose proof (rank_total w p w1 Hp) as R. rewrite Ew in R. unfold rank_weight at 3 in R. rewrite E1, E2 in R.
        match goal with |- _ + total P (fun a => total P (chan_weight ?w2 a)) < _ => assert (total P (fun a => total P (chan_weight w2 a)) + chan_weight w p q = total P (fun a => total P (chan_weight w a)) + chan_weight w2 p q) as C end.
        { apply chan_total; auto. intros a c Hac. unfold chan_weight. cbn. rewrite !put2_neq by auto. auto. }
        unfold chan_weight at 2 4 in C. cbn [w_send w_net] in C. rewrite !put2_eq, app_length in C. cbn [length] in C. lia. }
      destruct o as [g| |q v|q v|q|s d|d|q v| |h|g| ]; cbn [run_op] in E.
      + injection E as <-. destruct Hin as [<-|[]]. apply set_rank_weight; auto. unfold rank_weight in *. cbn [set_mem r_ops r_reqR] in *. lia.
      + injection E as <-. destruct (complete _ _ _); [destruct Hin as [<-|[]]|destruct Hin]. apply set_rank_weight; auto. unfold rank_weight in *. cbn [set_reqs r_ops r_reqR] in *. lia.
      + apply bind_ok in E as ((r & t) & Es & E). injection E as <-. destruct Hin as [<-|[]]. cbn [set_rank w_rank w_send w_net w_recv w_coll]. eapply Gs; eauto.
        unfold send in Es. apply bind_ok in Es as (? & _ & Es). apply bind_ok in Es as (? & _ & Es). apply bind_ok in Es as (? & _ & Es). injection Es as <- _. reflexivity.
      + apply bind_ok in E as ((r & t) & Es & E). injection E as <-. destruct Hin as [<-|[]]. cbn [set_rank w_rank w_send w_net w_recv w_coll]. eapply Gs; eauto.
        unfold send in Es. apply bind_ok in Es as (? & _ & Es). apply bind_ok in Es as (? & _ & Es). apply bind_ok in Es as (? & _ & Es). injection Es as <- _. reflexivity.
      + injection E as <-. destruct Hin as [<-|[]]. unfold weight. cbn [w_rank].
        pose proof (rank_total w p (Rank ops (r_mem (w_rank w p)) (r_out (w_rank w p)) (r_in (w_rank w p)) (r_tagS (w_rank w p)) (put (r_tagR (w_rank w p)) q (S (r_tagR (w_rank w p) q))) (r_reqS (w_rank w p)) (r_reqU (w_rank w p)) (r_reqR (w_rank w p) ++ [(q, S (r_tagR (w_rank w p) q))]) (r_coll (w_rank w p))) Hp) as R.
        rewrite Ew in R. unfold rank_weight at 3 in R. cbn [r_ops r_reqR] in R. rewrite app_length in R. cbn [length] in R. 
        match goal with |- _ + total P (fun a => total P (chan_weight ?w2 a)) < _ => change (total P (fun a => total P (chan_weight w2 a))) with (total P (fun a => total P (chan_weight w a))) end. lia.
      + apply bind_ok in E as (v & _ & E). apply bind_ok in E as (u & _ & E). apply bind_ok in E as (u' & _ & E). apply bind_ok in E as (m & _ & E). injection E as <-.
        destruct Hin as [<-|[]]. apply set_rank_weight; auto. unfold rank_weight in *. cbn [set_mem r_ops r_reqR] in *. lia.
      + destruct (r_reqR (w_rank w p)) as [|x0 R0] eqn:ER.
        * injection E as <-. destruct Hin as [<-|[]]. apply set_rank_weight; auto. unfold rank_weight in *. cbn [set_ops r_ops r_reqR] in *. rewrite Eo, ER. cbn. lia.
        * rewrite <- ER in *. clear x0 R0 ER. unfold for_range in E.
          revert w' Hin. refine (for_n_pres (fun ws0 => forall w', In w' ws0 -> weight w' < weight w) _ _ _ _ _ _ E _); [|intros ? []].
          intros k s s' Ek Hs. apply bind_ok in Ek as ((q & t) & Eq & Ek). destruct (pending t (w_recv w q p)); [injection Ek as <-; auto|].
          apply bind_ok in Ek as (m & _ & Ek). injection Ek as <-. intros w' Hi. apply in_app_iff in Hi as [Hi|[<-|[]]]; auto.
          apply set_rank_weight; auto. unfold rank_weight in *. cbn [set_reqs set_mem r_ops r_reqR length] in *. rewrite Eo. cbn [length].
          apply aget_inv in Eq. assert (k < length (r_reqR (w_rank w p))) as Hk by (apply nth_error_Some; congruence). pose proof (pop_length _ _ Hk). lia.
      + destruct (find _ _) as [(q' & t)|]; [|discriminate]. destruct (pending t (w_recv w q p)); [injection E as <-; destruct Hin|].
        apply bind_ok in E as (m & _ & E). injection E as <-. destruct Hin as [<-|[]]. apply set_rank_weight; auto. unfold rank_weight in *. cbn [set_reqs set_mem r_ops r_reqR] in *.
        pose proof (filter_length_le (fun x => negb (fst x =? q)) (r_reqR (w_rank w p))). lia.
      + injection E as <-. destruct (complete _ _ _); [destruct Hin as [<-|[]]|destruct Hin]. apply set_rank_weight; auto. unfold rank_weight in *. cbn [set_reqs r_ops r_reqR] in *. lia.
      + injection E as <-. destruct Hin as [<-|[]]. unfold weight. cbn [w_rank]. pose proof (rank_total w p (set_ops (w_rank w p) ops) Hp) as R. rewrite Ew in R. unfold rank_weight at 3 in R. cbn [set_ops r_ops r_reqR] in R. 
        match goal with |- _ + total P (fun a => total P (chan_weight ?w2 a)) < _ => change (total P (fun a => total P (chan_weight w2 a))) with (total P (fun a => total P (chan_weight w a))) end. lia.
      + injection E as <-. destruct (contributions _ _ _); [destruct Hin as [<-|[]]|destruct Hin]. apply set_rank_weight; auto. unfold rank_weight in *. cbn [r_ops r_reqR] in *. lia.
      + injection E as <-. destruct Hin as [<-|[]]. apply set_rank_weight; auto. unfold rank_weight in *. cbn [set_ops r_ops r_reqR] in *. lia.
    - unfold copy_next in E. destruct (nth_error (w_send w p q) i) as [t|] eqn:Et; [|discriminate]. destruct (b || _); [|discriminate]. injection E as <-.
      assert (i < length (w_send w p q)) as Hi by (apply nth_error_Some; congruence). pose proof (pop_length _ _ Hi) as Hl.
      unfold weight. cbn [w_rank]. match goal with |- _ + total P (fun a => total P (chan_weight ?w2 a)) < _ => assert (total P (fun a => total P (chan_weight w2 a)) + chan_weight w p q = total P (fun a => total P (chan_weight w a)) + chan_weight w2 p q) as C end.
      { apply chan_total; auto. intros a c Hac. unfold chan_weight. cbn. rewrite !put2_neq by auto. auto. }
      unfold chan_weight at 2 4 in C. cbn [w_send w_net] in C. rewrite !put2_eq, app_length in C. cbn [length] in C. lia.
    - unfold deliver_next in E. destruct (nth_error (w_recv w p q) i) as [t|]; [|discriminate].
      destruct (find _ _) as [(k & (t' & data))|] eqn:Ef; [|discriminate]. apply bind_ok in E as (? & _ & E). injection E as <-.
      assert (k < length (w_net w p q)) as Hk. { apply find_some in Ef as (Hi & _). apply in_combine_l in Hi. apply in_seq in Hi. lia. }
      pose proof (pop_length _ _ Hk) as Hl. unfold weight. cbn [w_rank].
      match goal with |- _ + total P (fun a => total P (chan_weight ?w2 a)) < _ => assert (total P (fun a => total P (chan_weight w2 a)) + chan_weight w p q = total P (fun a => total P (chan_weight w a)) + chan_weight w2 p q) as C end.
      { apply chan_total; auto. intros a c Hac. unfold chan_weight. cbn. rewrite !put2_neq by auto. auto. }
      unfold chan_weight at 2 4 in C. cbn [w_send w_net] in C. rewrite !put2_eq in C.
      match goal with |- total P (fun q0 => rank_weight (put _ _ ?r q0)) + _ < _ => pose proof (rank_total w q r Hq) as R end. unfold rank_weight at 2 4 in R. cbn [r_ops r_reqR] in R. lia.
  Qed.
  Lemma runs_weight b n w w' : (forall p q, p < P -> In q (neighbours (mgr p)) -> q < P) -> runs P mgr b n w w' -> n + weight w' <= weight w.
  Proof. intros Hn R. induction R as [|n w w' w'' R IH Hs]; [lia|]. apply step_weight in Hs; auto. lia. Qed.
End Measure.
