(** Proofs about the split into near and far field. *)
From Coq Require Import Sorting.Permutation Sorting.Sorted Lqa.
From Verif Require Import Util Lin MeshGeom ClusterModel ClusterSpec ClusterProofs ClusterProofs2 ClusterProofs4.
Local Open Scope nat_scope.
Set Default Proof Using "Type".

(** ** Counting *)
Lemma member_in i l : member i l = true <-> In i l.
Proof.
  unfold member. rewrite existsb_exists. split.
  - intros (j & Hj & E). apply Nat.eqb_eq in E. subst. auto.
  - intros H. exists i. split; auto. apply Nat.eqb_refl.
Qed.
Definition b2n (b : bool) : nat := if b then 1 else 0.
Definition covers (cp : cpair) (i j : nat) : bool := member i (get_dofs (fst cp)) && member j (get_dofs (snd cp)).
Lemma hits_nil i j : hits [] i j = 0.
Proof. reflexivity. Qed.
Lemma hits_cons cp l i j : hits (cp :: l) i j = b2n (covers cp i j) + hits l i j.
Proof. unfold hits, covers. cbn [filter]. destruct (member i _ && member j _); reflexivity. Qed.
Lemma hits_app a b i j : hits (a ++ b) i j = hits a i j + hits b i j.
Proof. unfold hits. rewrite filter_app, app_length. reflexivity. Qed.
Lemma hits_perm a b i j : Permutation a b -> hits a i j = hits b i j.
Proof. induction 1; rewrite ?hits_cons; lia. Qed.
Lemma hits_0 l i j : (forall cp, In cp l -> covers cp i j = false) -> hits l i j = 0.
Proof. induction l as [|cp l IH]; intros H; [reflexivity|]. rewrite hits_cons, (H cp) by (cbn; auto). rewrite IH; [reflexivity|]. intros; apply H; cbn; auto. Qed.

Definition cnt (ts : list tree) (i : nat) : nat := length (filter (fun t => member i (get_dofs t)) ts).
Lemma cnt_cons t ts i : cnt (t :: ts) i = b2n (member i (get_dofs t)) + cnt ts i.
Proof. unfold cnt. cbn [filter]. destruct (member i (get_dofs t)); reflexivity. Qed.
Lemma cnt_nodup ts i : NoDup (flat_map get_dofs ts) -> cnt ts i = b2n (member i (flat_map get_dofs ts)).
Proof.
  induction ts as [|t ts IH]; cbn [flat_map]; intros H; [reflexivity|]. rewrite cnt_cons. apply nodup_app_iff in H as (_ & H2 & H3).
  rewrite IH by auto. destruct (member i (get_dofs t)) eqn:E1, (member i (flat_map get_dofs ts)) eqn:E2, (member i (get_dofs t ++ flat_map get_dofs ts)) eqn:E3; cbn; auto; exfalso.
  - apply (H3 i); apply member_in; auto.
  - apply (H3 i); apply member_in; auto.
  - assert (member i (get_dofs t ++ flat_map get_dofs ts) = true); [|congruence]. apply member_in, in_app_iff. left. apply member_in; auto.
  - assert (member i (get_dofs t ++ flat_map get_dofs ts) = true); [|congruence]. apply member_in, in_app_iff. right. apply member_in; auto.
  - apply member_in, in_app_iff in E3 as [E3|E3]; apply member_in in E3; congruence.
Qed.
Lemma cnt_children t i : partitioned t -> children t <> [] -> cnt (children t) i = b2n (member i (get_dofs t)).
Proof.
  intros Hp Hc. destruct (Hp t (sub_refl t)) as (Hi & _ & Hperm). specialize (Hperm Hc).
  rewrite cnt_nodup by (eapply Permutation_NoDup; [exact Hperm|]; apply inc_nodup; auto). f_equal.
  destruct (member i (get_dofs t)) eqn:E1, (member i (flat_map get_dofs (children t))) eqn:E2; auto.
  - apply member_in in E1. apply (Permutation_in i Hperm) in E1. apply member_in in E1. congruence.
  - apply member_in in E2. apply (Permutation_in i (Permutation_sym Hperm)) in E2. apply member_in in E2. congruence.
Qed.
Lemma hits_right n ts i j : hits (map (fun t => (n, t)) ts) i j = b2n (member i (get_dofs n)) * cnt ts j.
Proof.
  induction ts as [|t ts IH]; cbn [map]; [rewrite hits_nil; unfold cnt; cbn; lia|]. rewrite hits_cons, cnt_cons, IH. unfold covers. cbn [fst snd].
  destruct (member i _), (member j _); cbn; lia.
Qed.
Lemma hits_left n ts i j : hits (map (fun t => (t, n)) ts) i j = cnt ts i * b2n (member j (get_dofs n)).
Proof.
  induction ts as [|t ts IH]; cbn [map]; [reflexivity|]. rewrite hits_cons, cnt_cons, IH. unfold covers. cbn [fst snd].
  destruct (member i _), (member j _); cbn; lia.
Qed.
Lemma hits_product ts us i j : hits (flat_map (fun t => map (fun u => (t, u)) us) ts) i j = cnt ts i * cnt us j.
Proof.
  induction ts as [|t ts IH]; cbn [flat_map]; [reflexivity|]. rewrite hits_app, hits_right, cnt_cons, IH. lia.
Qed.
Lemma is_leaf_true t : is_leaf t = true <-> children t = [].
Proof. unfold is_leaf. destruct (children t); split; congruence. Qed.
Lemma hits_below n1 n2 i j : partitioned n1 -> partitioned n2 -> is_leaf n1 && is_leaf n2 = false ->
  hits (pairs_below n1 n2) i j = b2n (covers (n1, n2) i j).
Proof.
  intros H1 H2 Hl. unfold pairs_below, covers. cbn [fst snd].
  assert (N : forall t, is_leaf t = false -> children t <> []) by (intros t Ht C; apply is_leaf_true in C; congruence).
  destruct (is_leaf n1) eqn:L1.
  - cbn [andb] in Hl. rewrite hits_right, cnt_children by auto. destruct (member i _), (member j _); reflexivity.
  - destruct (is_leaf n2) eqn:L2.
    + rewrite hits_left, cnt_children by auto. destruct (member i _), (member j _); reflexivity.
    + rewrite hits_product, !cnt_children by auto. destruct (member i _), (member j _); reflexivity.
Qed.
Lemma below_sub n1 n2 cp : In cp (pairs_below n1 n2) -> subtree (fst cp) n1 /\ subtree (snd cp) n2 /\
  (is_leaf n1 && is_leaf n2 = false -> getLevels (fst cp) + getLevels (snd cp) < getLevels n1 + getLevels n2).
Proof.
  unfold pairs_below. assert (C : forall c t, In c (children t) -> subtree c t) by (intros; econstructor; [eauto|constructor]).
  destruct (is_leaf n1) eqn:L1; [|destruct (is_leaf n2) eqn:L2].
  - intros H. apply in_map_iff in H as (t & <- & Ht). cbn [fst snd]. split; [constructor|]. split; auto. intros _. apply levels_child in Ht. lia.
  - intros H. apply in_map_iff in H as (t & <- & Ht). cbn [fst snd]. split; auto. split; [constructor|]. intros _. apply levels_child in Ht. lia.
  - intros H. apply in_flat_map in H as (t & Ht & H). apply in_map_iff in H as (u & <- & Hu). cbn [fst snd]. split; auto. split; auto. intros _.
    apply levels_child in Ht. apply levels_child in Hu. lia.
Qed.
Lemma partitioned_sub s t : partitioned t -> subtree s t -> partitioned s.
Proof. intros H Hs r Hr. apply H. eapply subtree_trans; eauto. Qed.
Lemma sub_dofs s t i : partitioned t -> subtree s t -> In i (get_dofs s) -> In i (get_dofs t).
Proof.
  intros Hp Hs Hi. induction Hs as [|c t Hc Hs IH]; auto. destruct (Hp t (sub_refl t)) as (_ & _ & Hperm).
  assert (Hn : children t <> []) by (intros C; rewrite C in Hc; destruct Hc). apply (Permutation_in i (Permutation_sym (Hperm Hn))).
  apply in_flat_map. exists c. split; auto. apply IH. eapply partitioned_child; eauto.
Qed.
Lemma covers_sub s1 s2 n1 n2 i j : partitioned n1 -> partitioned n2 -> subtree s1 n1 -> subtree s2 n2 -> covers (s1, s2) i j = true -> covers (n1, n2) i j = true.
Proof.
  unfold covers. cbn [fst snd]. rewrite !andb_true_iff, !member_in. intros P1 P2 S1 S2 (H1 & H2). split; eapply sub_dofs; eauto.
Qed.

(** ** getAdmissibleClusters *)
Lemma far_append_perm l cp d : Permutation (flat_map snd (far_append l cp d)) (flat_map snd d ++ [cp]).
Proof.
  induction d as [|[m cps] d IH]; cbn [far_append flat_map snd app]; auto.
  destruct (m =? l); cbn [flat_map snd].
  - rewrite <- !app_assoc. apply Permutation_app_head. apply Permutation_app_comm.
  - rewrite IH, app_assoc. reflexivity.
Qed.
Lemma zero_dropped K b1 b2 : zero_pair K b1 b2 = true <-> dropped K b1 b2.
Proof.
  unfold zero_pair, dropped, root_le. destruct (horizon K) as [h|]; [|split; [discriminate|tauto]]. destruct (complement K).
  - rewrite andb_true_iff, !qle_true. tauto.
  - rewrite negb_true_iff, andb_false_iff, !qle_false. tauto.
Qed.
Lemma query_adm K P n1 n2 : queryAdmissibility K P n1 n2 = ADMISSIBLE <->
  zero_pair K (nbox (info_of n1)) (nbox (info_of n2)) = false /\
  cut_pair K (nbox (info_of n1)) (nbox (info_of n2)) = false /\ seemsAdmissible K P n1 n2 = true.
Proof.
  unfold queryAdmissibility. destruct (zero_pair _ _ _), (cut_pair _ _ _), (seemsAdmissible _ _ _ _); split; intros H; try discriminate; auto; destruct H as (? & ? & ?); discriminate.
Qed.

(** What a call on (n1, n2) adds. *)
Definition added (K : kernel) (P : refinementParams) (n1 n2 : tree) (b : bool) (far near : list cpair) : Prop :=
  (forall cp, In cp (far ++ near) -> subtree (fst cp) n1 /\ subtree (snd cp) n2) /\
  (forall cp, In cp far -> queryAdmissibility K P (fst cp) (snd cp) = ADMISSIBLE) /\
  (forall cp, In cp near -> queryAdmissibility K P (fst cp) (snd cp) = INADMISSIBLE) /\
  (forall i j, covers (n1, n2) i j = true -> hits (far ++ near) i j = 1 \/
     (b = true /\ hits (far ++ near) i j = 0 /\ exists s1 s2, subtree s1 n1 /\ subtree s2 n2 /\ covers (s1, s2) i j = true /\
       dropped K (nbox (info_of s1)) (nbox (info_of s2)))) /\
  (b = false -> far = []).
(** What the loop over a list of pairs adds. *)
Definition added_list (K : kernel) (P : refinementParams) (L : list cpair) (b : bool) (far near : list cpair) : Prop :=
  (forall cp, In cp (far ++ near) -> exists q, In q L /\ subtree (fst cp) (fst q) /\ subtree (snd cp) (snd q)) /\
  (forall cp, In cp far -> queryAdmissibility K P (fst cp) (snd cp) = ADMISSIBLE) /\
  (forall cp, In cp near -> queryAdmissibility K P (fst cp) (snd cp) = INADMISSIBLE) /\
  (forall i j, hits L i j = 0 -> hits (far ++ near) i j = 0) /\
  (forall i j, hits L i j = 1 -> hits (far ++ near) i j = 1 \/
     (b = true /\ hits (far ++ near) i j = 0 /\ exists q s1 s2, In q L /\ subtree s1 (fst q) /\ subtree s2 (snd q) /\ covers (s1, s2) i j = true /\
       dropped K (nbox (info_of s1)) (nbox (info_of s2)))) /\
  (b = false -> far = []).
Definition extends (st st' : pairs) (far near : list cpair) : Prop :=
  Pnear st' = Pnear st ++ near /\ Permutation (far_pairs st') (far_pairs st ++ far) /\ (far = [] -> Pfar st' = Pfar st).

Lemma hits_mixed a b c d i j : hits ((a ++ b) ++ (c ++ d)) i j = hits (a ++ c) i j + hits (b ++ d) i j.
Proof. rewrite !hits_app. lia. Qed.

Section Loop.
  Variables (K : kernel) (P : refinementParams) (call : cpair -> pairs -> res (bool * pairs)).
  Definition step (cp : cpair) (s : bool * pairs) : res (bool * pairs) := q <- call cp (snd s) ;; Ok (fst s || fst q, snd q).
  Lemma loop_added L : (forall cp st b st', In cp L -> call cp st = Ok (b, st') -> exists far near, extends st st' far near /\ added K P (fst cp) (snd cp) b far near) ->
    (forall cp, In cp L -> partitioned (fst cp) /\ partitioned (snd cp)) ->
    forall b0 st b st', for_list L step (b0, st) = Ok (b, st') ->
    exists far near b1, b = b0 || b1 /\ extends st st' far near /\ added_list K P L b1 far near.
  Proof.
    induction L as [|cp L IH]; intros Hcall Hpart b0 st b st'; cbn [for_list].
    - intros E. inversion E; subst. exists [], [], false. split; [rewrite orb_false_r; auto|]. split.
      + split; [rewrite app_nil_r; auto|]. split; [rewrite app_nil_r; auto|auto].
      + split; [intros q []|]. split; [intros q []|]. split; [intros q []|]. split; [auto|]. split; [intros i j H; discriminate|auto].
    - unfold step at 1. cbn [fst snd]. destruct (call cp st) as [[b1 st1]|e] eqn:Ec; cbn [bind fst snd]; [|discriminate]. intros E.
      destruct (Hcall cp st b1 st1 (or_introl eq_refl) Ec) as (far1 & near1 & (X1 & X2 & X3) & (A1 & A2 & A2' & A3 & A4)).
      destruct (Hpart cp (or_introl eq_refl)) as (P1 & P2).
      destruct (IH (fun cp st b st' H => Hcall cp st b st' (or_intror H)) (fun cp H => Hpart cp (or_intror H)) _ _ _ _ E) as (far2 & near2 & b2 & Eb & (Y1 & Y2 & Y3) & (B1 & B2 & B2' & B3 & B4 & B5)).
      exists (far1 ++ far2), (near1 ++ near2), (b1 || b2). split; [rewrite Eb, orb_assoc; auto|]. split.
      + split; [rewrite Y1, X1, app_assoc; auto|]. split.
        * rewrite Y2, X2, app_assoc. reflexivity.
        * intros C. apply app_eq_nil in C as [C1 C2]. rewrite Y3, X3 by auto. reflexivity.
      + assert (Hnot : forall i j, covers cp i j = false -> hits (far1 ++ near1) i j = 0).
        { intros i j Hc. apply hits_0. intros q Hq. destruct (A1 q Hq) as (S1 & S2). destruct (covers q i j) eqn:Eq; auto.
          exfalso. destruct q as [q1 q2]. rewrite (surjective_pairing cp) in Hc. rewrite (covers_sub q1 q2 (fst cp) (snd cp)) in Hc; auto. discriminate. }
        split; [|split; [|split; [|split; [|split]]]].
        * intros q Hq. rewrite <- app_assoc in Hq. rewrite !in_app_iff in Hq.
          assert (Hq' : In q (far1 ++ near1) \/ In q (far2 ++ near2)) by (rewrite !in_app_iff; tauto). destruct Hq' as [Hq'|Hq'].
          -- exists cp. split; [cbn; auto|]. apply A1; auto.
          -- destruct (B1 q Hq') as (r & Hr & H). exists r. cbn; auto.
        * intros q Hq. apply in_app_iff in Hq as [Hq|Hq]; auto.
        * intros q Hq. apply in_app_iff in Hq as [Hq|Hq]; auto.
        * intros i j H. rewrite hits_cons in H. rewrite hits_mixed. rewrite B3 by lia. rewrite Hnot; auto. destruct (covers cp i j); [cbn in H; lia|auto].
        * intros i j H. rewrite hits_cons in H. rewrite hits_mixed. destruct (covers cp i j) eqn:Ec'; cbn [b2n] in H.
          -- assert (H0 : hits L i j = 0) by lia. rewrite (B3 _ _ H0). rewrite (surjective_pairing cp) in Ec'. destruct (A3 i j Ec') as [H1|(-> & H1 & s1 & s2 & H2 & H3 & H4)].
             ++ left. lia.
             ++ right. split; auto. split; [lia|]. exists cp, s1, s2. split; [cbn; auto|]. auto.
          -- rewrite (Hnot _ _ Ec'). destruct (B4 i j) as [H1|(-> & H1 & q & s1 & s2 & H2 & H3)]; [lia|left; lia|].
             right. split; [apply orb_true_r|]. split; [lia|]. exists q, s1, s2. split; [cbn; auto|]. auto.
        * intros C. apply orb_false_iff in C as [C1 C2]. rewrite A4, B5 by auto. reflexivity.
  Qed.
  Lemma loop_total L : (forall cp st, In cp L -> exists r, call cp st = Ok r) -> forall s, exists r, for_list L step s = Ok r.
  Proof.
    induction L as [|cp L IH]; intros H s; cbn [for_list]; eauto. unfold step at 1. destruct (H cp (snd s) (or_introl eq_refl)) as (r & ->). cbn [bind].
    apply IH. intros q st Hq. apply H. cbn; auto.
  Qed.
End Loop.

Lemma adm_ok K P : forall fuel n1 n2 level st b st', partitioned n1 -> partitioned n2 ->
  getAdmissibleClusters fuel K P n1 n2 level st = Ok (b, st') -> exists far near, extends st st' far near /\ added K P n1 n2 b far near.
Proof.
  induction fuel as [|fuel IH]; intros n1 n2 level st b st' P1 P2; cbn [getAdmissibleClusters]; [discriminate|].
  set (b1 := nbox (info_of n1)). set (b2 := nbox (info_of n2)).
  assert (Single : forall i j, covers (n1, n2) i j = true -> hits [(n1, n2)] i j = 1) by (intros i j H; rewrite hits_cons, H; reflexivity).
  assert (Near : zero_pair K b1 b2 = false -> negb (cut_pair K b1 b2) && seemsAdmissible K P n1 n2 = false ->
    exists far near, extends st (Pairs (Pfar st) (Pnear st ++ [(n1, n2)])) far near /\ added K P n1 n2 false far near).
  { intros Hz Ha. exists [], [(n1, n2)]. split.
    - split; auto. split; [unfold far_pairs; cbn [Pfar]; rewrite app_nil_r; auto|auto].
    - split; [intros cp [<-|[]]; cbn; split; constructor|]. split; [intros cp []|]. split; [intros cp [<-|[]]; cbn [fst snd]; unfold queryAdmissibility; fold b1 b2; rewrite Hz; destruct (cut_pair K b1 b2); auto; cbn [negb andb] in Ha; rewrite Ha; auto|]. split; [left; cbn [app]; auto|auto]. }
  destruct (zero_pair K b1 b2) eqn:Ez.
  { intros E. inversion E; subst. exists [], []. split; [split; [rewrite app_nil_r; auto|split; [rewrite app_nil_r; auto|auto]]|].
    split; [intros cp []|]. split; [intros cp []|]. split; [intros cp []|]. split; [|discriminate]. intros i j Hc. right. split; auto. split; [reflexivity|].
    exists n1, n2. split; [constructor|]. split; [constructor|]. split; auto. apply zero_dropped. auto. }
  destruct (negb (cut_pair K b1 b2) && seemsAdmissible K P n1 n2) eqn:Ea.
  { apply andb_true_iff in Ea as [Ea1 Ea2]. apply negb_true_iff in Ea1. intros E. inversion E; subst. exists [(n1, n2)], []. split.
    - split; [cbn [Pnear]; rewrite app_nil_r; auto|]. split; [apply far_append_perm|discriminate].
    - split; [intros cp [<-|[]]; cbn; split; constructor|]. split; [intros cp [<-|[]]; cbn [fst snd]; apply query_adm; auto|]. split; [intros cp []|]. split; [left; cbn [app]; auto|discriminate]. }
  destruct ((is_leaf n1 && is_leaf n2) || (level =? maxLevels P)) eqn:El; [intros E; inversion E; subst; exact (Near eq_refl eq_refl)|].
  apply orb_false_iff in El as [El _].
  destruct ((_ <? farSize K n1 n2) && union_within K b1 b2) eqn:Es; [intros E; inversion E; subst; exact (Near eq_refl eq_refl)|]. clear Es.
  change (fun cp s => q <- getAdmissibleClusters fuel K P (fst cp) (snd cp) (S level) (snd s);; Ok (fst s || fst q, snd q))
    with (step (fun cp st => getAdmissibleClusters fuel K P (fst cp) (snd cp) (S level) st)).
  destruct (for_list _ _ _) as [[bb st1]|e] eqn:Ef; cbn [bind fst snd]; [|discriminate].
  apply (loop_added K P) in Ef.
  2:{ intros cp s0 b0 s1 Hcp E. destruct (below_sub _ _ _ Hcp) as (S1 & S2 & _). apply (IH _ _ _ _ _ _ (partitioned_sub _ _ P1 S1) (partitioned_sub _ _ P2 S2) E). }
  2:{ intros cp Hcp. destruct (below_sub _ _ _ Hcp) as (S1 & S2 & _). split; [exact (partitioned_sub _ _ P1 S1)|exact (partitioned_sub _ _ P2 S2)]. }
  destruct Ef as (far & near & b0 & Eb & (X1 & X2 & X3) & (A1 & A2 & A2' & A3 & A4 & A5)). cbn [orb] in Eb. subst bb.
  assert (Hsub : forall cp q, In q (pairs_below n1 n2) -> subtree (fst cp) (fst q) -> subtree (snd cp) (snd q) -> subtree (fst cp) n1 /\ subtree (snd cp) n2).
  { intros cp q Hq S1 S2. destruct (below_sub _ _ _ Hq) as (T1 & T2 & _). split; eapply subtree_trans; eauto. }
  destruct (negb b0 && union_within K b1 b2) eqn:Eu.
  - apply andb_true_iff in Eu as [Eu _]. apply negb_true_iff in Eu. subst b0. intros E. inversion E; subst. specialize (A5 eq_refl). subst far.
    exists [], [(n1, n2)]. split.
    + split; [cbn [Pnear]; rewrite X1, firstn_at; auto|]. unfold far_pairs. cbn [Pfar]. rewrite X3 by auto. split; [rewrite app_nil_r; auto|auto].
    + split; [intros cp [<-|[]]; cbn; split; constructor|]. split; [intros cp []|]. split; [intros cp [<-|[]]; cbn [fst snd]; unfold queryAdmissibility; fold b1 b2; rewrite Ez; destruct (cut_pair K b1 b2); auto; cbn [negb andb] in Ea; rewrite Ea; auto|]. split; [left; cbn [app]; auto|auto].
  - intros E. inversion E; subst. exists far, near. split; [split; auto|]. split; [|split; [auto|split; [auto|split; [|auto]]]].
    + intros cp Hcp. destruct (A1 cp Hcp) as (q & Hq & S1 & S2). eapply Hsub; eauto.
    + intros i j Hc. destruct (A4 i j) as [H|(H1 & H2 & q & s1 & s2 & Hq & S1 & S2 & H3)].
      * rewrite hits_below, Hc by auto. reflexivity.
      * auto.
      * right. split; auto. split; auto. destruct (Hsub (s1, s2) q Hq S1 S2) as (T1 & T2). exists s1, s2. auto.
Qed.

Lemma adm_total K P : forall fuel n1 n2 level st, getLevels n1 + getLevels n2 < S fuel -> exists r, getAdmissibleClusters fuel K P n1 n2 level st = Ok r.
Proof.
  induction fuel as [|fuel IH]; intros n1 n2 level st Hf; cbn [getAdmissibleClusters].
  - pose proof (levels_pos n1). lia.
  - destruct (zero_pair _ _ _); eauto. destruct (negb _ && seemsAdmissible _ _ _ _); eauto. destruct ((is_leaf n1 && is_leaf n2) || _) eqn:El; eauto.
    apply orb_false_iff in El as [El _]. destruct ((_ <? _) && _); eauto.
    destruct (loop_total (fun cp st => getAdmissibleClusters fuel K P (fst cp) (snd cp) (S level) st) (pairs_below n1 n2)) with (s := (false, st)) as (r & Er).
    { intros cp s0 Hcp. apply IH. destruct (below_sub _ _ _ Hcp) as (_ & _ & H). specialize (H El). lia. }
    change (fun cp s => q <- getAdmissibleClusters fuel K P (fst cp) (snd cp) (S level) (snd s);; Ok (fst s || fst q, snd q))
      with (step (fun cp st => getAdmissibleClusters fuel K P (fst cp) (snd cp) (S level) st)).
    rewrite Er. cbn [bind]. destruct (negb (fst r) && _); eauto.
Qed.

(** ** getCoveringClusters *)
Definition cover_gap (K : kernel) (s1 s2 : tree) : Prop :=
  exists h, horizon K = Some h /\ (h < 0 \/ h * h < dist2 (nbox (info_of s1)) (nbox (info_of s2)))%Qc.
Lemma dofs_nonempty t i : partitioned t -> In i (get_dofs t) -> get_num_dofs t <> 0.
Proof. intros Hp Hi. destruct (Hp t (sub_refl t)) as (_ & -> & _). destruct (get_dofs t); [destruct Hi|discriminate]. Qed.
Lemma covering_ok K P : forall fuel n1 n2 level near near', partitioned n1 -> partitioned n2 ->
  getCoveringClusters fuel K P n1 n2 level near = Ok near' -> exists new, near' = near ++ new /\
    (forall cp, In cp new -> subtree (fst cp) n1 /\ subtree (snd cp) n2) /\
    (forall i j, covers (n1, n2) i j = true -> hits new i j = 1 \/ (hits new i j = 0 /\ exists s1 s2, subtree s1 n1 /\ subtree s2 n2 /\ covers (s1, s2) i j = true /\ cover_gap K s1 s2)).
Proof.
  induction fuel as [|fuel IH]; intros n1 n2 level near near' P1 P2; cbn [getCoveringClusters]; [discriminate|].
  set (beyond := match horizon K with Some h => _ | None => false end).
  assert (Single : forall i j, covers (n1, n2) i j = true -> hits [(n1, n2)] i j = 1) by (intros i j H; rewrite hits_cons, H; reflexivity).
  assert (Near : exists new, near ++ [(n1, n2)] = near ++ new /\
    (forall cp, In cp new -> subtree (fst cp) n1 /\ subtree (snd cp) n2) /\
    (forall i j, covers (n1, n2) i j = true -> hits new i j = 1 \/ (hits new i j = 0 /\ exists s1 s2, subtree s1 n1 /\ subtree s2 n2 /\ covers (s1, s2) i j = true /\ cover_gap K s1 s2))).
  { exists [(n1, n2)]. split; auto. split; [intros cp [<-|[]]; cbn; split; constructor|]. left; auto. }
  destruct (beyond || (get_num_dofs n1 =? 0) || (get_num_dofs n2 =? 0)) eqn:Eb.
  { intros E. inversion E; subst. exists []. split; [rewrite app_nil_r; auto|]. split; [intros cp []|]. intros i j Hc. right. split; [reflexivity|].
    exists n1, n2. split; [constructor|]. split; [constructor|]. split; auto. unfold covers in Hc. cbn [fst snd] in Hc. apply andb_true_iff in Hc as [H1 H2].
    apply member_in in H1, H2. apply dofs_nonempty in H1; auto. apply dofs_nonempty in H2; auto.
    apply Nat.eqb_neq in H1, H2. rewrite H1, H2, !orb_false_r in Eb. unfold beyond in Eb. destruct (horizon K) as [h|] eqn:Eh; [|discriminate]. exists h. split; auto.
    apply negb_true_iff in Eb. unfold root_le in Eb. apply andb_false_iff in Eb. rewrite !qle_false in Eb. auto. }
  destruct (match horizon K with Some h => _ | None => true end); [intros E; inversion E; subst; exact Near|].
  destruct ((is_leaf n1 && is_leaf n2) || (level =? maxLevels P)) eqn:El; [intros E; inversion E; subst; exact Near|].
  apply orb_false_iff in El as [El _]. intros E.
  assert (G : forall L, (forall cp, In cp L -> partitioned (fst cp) /\ partitioned (snd cp)) -> forall near near',
    for_list L (fun cp s => getCoveringClusters fuel K P (fst cp) (snd cp) (S level) s) near = Ok near' -> exists new, near' = near ++ new /\
    (forall cp, In cp new -> exists q, In q L /\ subtree (fst cp) (fst q) /\ subtree (snd cp) (snd q)) /\
    (forall i j, hits L i j = 0 -> hits new i j = 0) /\
    (forall i j, hits L i j = 1 -> hits new i j = 1 \/ (hits new i j = 0 /\ exists q s1 s2, In q L /\ subtree s1 (fst q) /\ subtree s2 (snd q) /\ covers (s1, s2) i j = true /\ cover_gap K s1 s2))).
  { clear E near near' Near. induction L as [|cp L IHL]; intros HP near near'; cbn [for_list].
    - intros E. inversion E; subst. exists []. split; [rewrite app_nil_r; auto|]. split; [intros q []|]. split; [auto|]. intros i j H; discriminate.
    - destruct (getCoveringClusters fuel K P (fst cp) (snd cp) (S level) near) as [near1|e] eqn:E1; cbn [bind]; [|discriminate]. intros E.
      destruct (HP cp (or_introl eq_refl)) as (Q1 & Q2). apply IH in E1 as (new1 & -> & A1 & A2); auto.
      apply IHL in E as (new2 & -> & B1 & B2 & B3); [|intros q Hq; apply HP; cbn; auto]. exists (new1 ++ new2). split; [rewrite app_assoc; auto|].
      assert (Hnot : forall i j, covers cp i j = false -> hits new1 i j = 0).
      { intros i j Hc. apply hits_0. intros q Hq. destruct (A1 q Hq) as (S1 & S2). destruct (covers q i j) eqn:Eq; auto.
        exfalso. destruct q as [q1 q2]. rewrite (surjective_pairing cp) in Hc. rewrite (covers_sub q1 q2 (fst cp) (snd cp)) in Hc; auto. discriminate. }
      split; [|split].
      + intros q Hq. apply in_app_iff in Hq as [Hq|Hq]; [exists cp; split; [cbn; auto|]; apply A1; auto|]. destruct (B1 q Hq) as (r & Hr & H). exists r. cbn; auto.
      + intros i j H. rewrite hits_cons in H. rewrite hits_app, B2, Hnot by (destruct (covers cp i j); cbn in H; auto; lia). reflexivity.
      + intros i j H. rewrite hits_cons in H. rewrite hits_app. destruct (covers cp i j) eqn:Ec; cbn [b2n] in H.
        * rewrite (B2 i j) by lia. rewrite (surjective_pairing cp) in Ec. destruct (A2 i j Ec) as [H1|(H1 & s1 & s2 & H2)]; [left; lia|].
          right. split; [lia|]. exists cp, s1, s2. split; [cbn; auto|]. auto.
        * rewrite Hnot by auto. destruct (B3 i j) as [H1|(H1 & q & s1 & s2 & H2 & H3)]; [lia|left; lia|]. right. split; [lia|]. exists q, s1, s2. split; [cbn; auto|]. auto. }
  apply G in E as (new & -> & A1 & A2 & A3).
  - exists new. split; auto. split.
    + intros cp Hcp. destruct (A1 cp Hcp) as (q & Hq & S1 & S2). destruct (below_sub _ _ _ Hq) as (T1 & T2 & _). split; eapply subtree_trans; eauto.
    + intros i j Hc. destruct (A3 i j) as [H|(H1 & q & s1 & s2 & Hq & S1 & S2 & H3)]; [rewrite hits_below, Hc by auto; reflexivity|auto|].
      right. split; auto. destruct (below_sub _ _ _ Hq) as (T1 & T2 & _). exists s1, s2. split; [eapply subtree_trans; eauto|]. split; [eapply subtree_trans; eauto|]. auto.
  - intros cp Hcp. destruct (below_sub _ _ _ Hcp) as (S1 & S2 & _). split; [exact (partitioned_sub _ _ P1 S1)|exact (partitioned_sub _ _ P2 S2)].
Qed.
Lemma covering_total K P : forall fuel n1 n2 level near, getLevels n1 + getLevels n2 < S fuel -> exists r, getCoveringClusters fuel K P n1 n2 level near = Ok r.
Proof.
  induction fuel as [|fuel IH]; intros n1 n2 level near Hf; cbn [getCoveringClusters].
  - pose proof (levels_pos n1). lia.
  - destruct (_ || _ || _); eauto. destruct (match horizon K with Some h => _ | None => true end); eauto. destruct ((is_leaf n1 && is_leaf n2) || _) eqn:El; eauto.
    apply orb_false_iff in El as [El _].
    assert (H : forall cp near, In cp (pairs_below n1 n2) -> exists r, getCoveringClusters fuel K P (fst cp) (snd cp) (S level) near = Ok r).
    { intros cp s0 Hcp. apply IH. destruct (below_sub _ _ _ Hcp) as (_ & _ & H). specialize (H El). lia. }
    revert near H. induction (pairs_below n1 n2) as [|cp L IHL]; intros near H; cbn [for_list]; eauto.
    destruct (H cp near (or_introl eq_refl)) as (r & ->). cbn [bind]. apply IHL. intros q s Hq. apply H. cbn; auto.
Qed.
