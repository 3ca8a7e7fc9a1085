(** Proofs about the queries on a tree and about trimming. *)
From Coq Require Import Sorting.Permutation Sorting.Sorted Lqa.
From Verif Require Import Util Lin MeshGeom ClusterModel ClusterSpec ClusterProofs ClusterProofs2.
Local Open Scope nat_scope.
Set Default Proof Using "Type".

(** ** Queries *)
Lemma in_nodes s : forall t, In s (get_tree_nodes t) <-> subtree s t.
Proof.
  induction t as [x own cs IH] using tree_ind2. cbn [get_tree_nodes]. rewrite Forall_forall in IH. split.
  - intros [<-|H]; [constructor|]. apply in_flat_map in H as (c & Hc & H). econstructor; [exact Hc|]. apply IH; auto.
  - intros H. apply subtree_inv in H as [->|(c & Hc & H)]; [left; auto|]. right. apply in_flat_map. exists c. split; auto. apply IH; auto.
Qed.
Lemma levels_node x own c cs : getLevels (Tree x own (c :: cs)) = 1 + fold_left (fun l n => Nat.max l n) (map getLevels (c :: cs)) 0.
Proof. reflexivity. Qed.
Lemma fold_max l : forall a n, n < fold_left (fun l n => Nat.max l n) l a <-> n < a \/ exists m, In m l /\ n < m.
Proof.
  induction l as [|x l IH]; intros a n; cbn [fold_left].
  - split; auto. intros [H|(m & [] & _)]; auto.
  - rewrite IH. split.
    + intros [H|(m & Hm & H)]; [|right; exists m; cbn; auto]. destruct (Nat.max_spec a x) as [[_ E]|[_ E]]; rewrite E in H; auto.
      right. exists x. cbn; auto.
    + intros [H|(m & [->|Hm] & H)]; [left; lia|left; lia|eauto].
Qed.
Lemma levels_child c t : In c (children t) -> getLevels c < getLevels t.
Proof.
  destruct t as [x own cs]. cbn [children]. intros Hc. destruct cs as [|d cs]; [destruct Hc|]. rewrite levels_node.
  cbn [plus]. apply Nat.lt_succ_r. destruct (Nat.le_gt_cases (getLevels c) (fold_left (fun l n => Nat.max l n) (map getLevels (d :: cs)) 0)) as [|H]; auto.
  exfalso. assert (fold_left (fun l n => Nat.max l n) (map getLevels (d :: cs)) 0 < fold_left (fun l n => Nat.max l n) (map getLevels (d :: cs)) 0); [|lia].
  apply fold_max. right. exists (getLevels c). split; auto. apply in_map. auto.
Qed.
Lemma levels_pos t : 1 <= getLevels t.
Proof. destruct t as [x own [|c cs]]; [cbn; lia|rewrite levels_node; lia]. Qed.

Lemma levels_spec : forall t l, nodes_at l t <> [] <-> l < getLevels t.
Proof.
  induction t as [x own cs IH] using tree_ind2. intros l. rewrite Forall_forall in IH. destruct cs as [|c cs].
  - destruct l; cbn; split; intros; try congruence; try lia.
  - rewrite levels_node. destruct l as [|l]; cbn [nodes_at children].
    + split; [lia|intros; congruence].
    + assert (E : S l < 1 + fold_left (fun l n => Nat.max l n) (map getLevels (c :: cs)) 0 <-> exists d, In d (c :: cs) /\ l < getLevels d).
      { cbn [plus]. rewrite <- Nat.succ_lt_mono, fold_max. split.
        - intros [H|(m & Hm & H)]; [lia|]. apply in_map_iff in Hm as (d & <- & Hd). eauto.
        - intros (d & Hd & H). right. exists (getLevels d). split; auto. apply in_map; auto. }
      rewrite E. split.
      * intros H. destruct (flat_map (nodes_at l) (c :: cs)) as [|s r] eqn:Ef; [congruence|].
        assert (Hs : In s (flat_map (nodes_at l) (c :: cs))) by (rewrite Ef; cbn; auto).
        apply in_flat_map in Hs as (d & Hd & Hs). exists d. split; auto. apply IH; auto. intros C. rewrite C in Hs. destruct Hs.
      * intros (d & Hd & H). apply IH in H; auto. destruct (nodes_at l d) as [|s r] eqn:En; [congruence|]. intros C.
        assert (Hs : In s (flat_map (nodes_at l) (c :: cs))) by (apply in_flat_map; exists d; rewrite En; cbn; auto).
        rewrite C in Hs. destruct Hs.
Qed.
Lemma nodes_at_spec s : forall l t, In s (nodes_at l t) <-> at_depth s l t.
Proof.
  induction l as [|l IH]; intros t; cbn [nodes_at].
  - split; [intros [->|[]]; constructor|]. intros H. inversion H; subst. left; auto.
  - rewrite in_flat_map. split.
    + intros (c & Hc & H). apply IH in H. econstructor; eauto.
    + intros H. inversion H; subst. exists c. split; auto. apply IH; auto.
Qed.
Lemma sum_flat {A B} (f : A -> list B) l : list_sum (map (fun a => length (f a)) l) = length (flat_map f l).
Proof. induction l as [|a l IH]; auto. cbn [map flat_map]. rewrite app_length, <- IH. reflexivity. Qed.
Lemma map_ext_F {A B} (f g : A -> B) l : Forall (fun a => f a = g a) l -> map f l = map g l.
Proof. induction 1; cbn [map]; congruence. Qed.

Lemma num_nodes_neg : forall t l, (l < 0)%Z -> getNumNodesOnLevel l t = 0.
Proof.
  induction t as [x own cs IH] using tree_ind2. intros l Hl. cbn [getNumNodesOnLevel]. rewrite fold_add.
  destruct (Z.eqb_spec l 0); [lia|]. cbn [plus]. rewrite (map_ext_F _ (fun _ => 0)).
  - clear. induction cs as [|c cs IH]; auto.
  - eapply Forall_impl; [|exact IH]. intros c H. apply H. lia.
Qed.
Lemma num_nodes_spec : forall t l, getNumNodesOnLevel (Z.of_nat l) t = length (nodes_at l t).
Proof.
  induction t as [x own cs IH] using tree_ind2. intros l. cbn [getNumNodesOnLevel]. rewrite fold_add. destruct l as [|l].
  - cbn [Z.of_nat Z.eqb nodes_at length]. rewrite (map_ext_F _ (fun _ => 0)).
    + clear. induction cs as [|c cs IH]; auto.
    + apply Forall_forall. intros c _. apply num_nodes_neg. lia.
  - destruct (Z.eqb_spec (Z.of_nat (S l)) 0); [lia|]. cbn [plus nodes_at children]. rewrite <- sum_flat. f_equal. apply map_ext_F.
    eapply Forall_impl; [|exact IH]. intros c H. cbn beta. replace (Z.of_nat (S l) - 1)%Z with (Z.of_nat l) by lia. apply H.
Qed.
Lemma num_leaves_neg : forall t l, (l < 0)%Z -> getNumLeavesOnLevel l t = 0.
Proof.
  induction t as [x own cs IH] using tree_ind2. intros l Hl. cbn [getNumLeavesOnLevel]. rewrite fold_add.
  destruct (Z.eqb_spec l 0); [lia|]. cbn [plus andb]. rewrite (map_ext_F _ (fun _ => 0)).
  - clear. induction cs as [|c cs IH]; auto.
  - eapply Forall_impl; [|exact IH]. intros c H. apply H. lia.
Qed.
Lemma filter_flat {A B} (p : B -> bool) (f : A -> list B) l : filter p (flat_map f l) = flat_map (fun a => filter p (f a)) l.
Proof. induction l as [|a l IH]; auto. cbn [flat_map]. rewrite filter_app, IH. reflexivity. Qed.
Lemma num_leaves_spec : forall t l, getNumLeavesOnLevel (Z.of_nat l) t = length (filter is_leaf (nodes_at l t)).
Proof.
  induction t as [x own cs IH] using tree_ind2. intros l. cbn [getNumLeavesOnLevel]. rewrite fold_add. destruct l as [|l].
  - cbn [Z.of_nat Z.eqb nodes_at andb filter]. rewrite (map_ext_F _ (fun _ => 0)).
    + unfold is_leaf. cbn [children]. replace (list_sum (map (fun _ => 0) cs)) with 0 by (clear; induction cs as [|c cs IH]; auto).
      destruct cs; reflexivity.
    + apply Forall_forall. intros c _. apply num_leaves_neg. lia.
  - destruct (Z.eqb_spec (Z.of_nat (S l)) 0); [lia|]. cbn [plus andb nodes_at children]. rewrite filter_flat, <- sum_flat. f_equal. apply map_ext_F.
    eapply Forall_impl; [|exact IH]. intros c H. cbn beta. replace (Z.of_nat (S l) - 1)%Z with (Z.of_nat l) by lia. apply H.
Qed.

Lemma zseq_S a n : zseq a (S n) = a :: zseq (a + 1) n.
Proof.
  unfold zseq. cbn [seq map]. f_equal; [lia|]. rewrite <- seq_shift, map_map. apply map_ext. intros k. lia.
Qed.
Lemma zseq_app n m : forall a, zseq a (n + m) = zseq a n ++ zseq (a + Z.of_nat n) m.
Proof.
  induction n as [|n IH]; intros a; cbn [plus].
  - cbn [zseq map seq app Z.of_nat]. rewrite Z.add_0_r. reflexivity.
  - rewrite !zseq_S, IH. cbn [app]. do 3 f_equal. lia.
Qed.
Lemma set_id_spec : forall t m, let r := set_id m t in
  fst r = (m + Z.of_nat (length (get_tree_nodes t)))%Z /\ ids (snd r) = zseq m (length (get_tree_nodes t)) /\ get_dofs (snd r) = get_dofs t.
Proof.
  induction t as [x own cs IH] using tree_ind2. intros m. cbn [set_id].
  set (go := fix go (m : Z) (l : list tree) : Z * list tree := match l with [] => (m, []) | c :: r => let '(m1, c') := set_id m c in let '(m2, r') := go m1 r in (m2, c' :: r') end).
  assert (G : forall m, fst (go m cs) = (m + Z.of_nat (length (flat_map get_tree_nodes cs)))%Z /\
     flat_map ids (snd (go m cs)) = zseq m (length (flat_map get_tree_nodes cs)) /\ map get_dofs (snd (go m cs)) = map get_dofs cs).
  { clear m. induction IH as [|c l H _ IHl]; intros m.
    - cbn. split; [lia|]. auto.
    - cbn [go]. destruct (H m) as (A & B & C). destruct (set_id m c) as [m1 c'] eqn:E1. cbn [fst snd] in A, B, C.
      destruct (IHl m1) as (A2 & B2 & C2). fold go. destruct (go m1 l) as [m2 r'] eqn:E2. cbn [fst snd] in *. cbn [flat_map map].
      rewrite app_length. split; [lia|]. split; [|congruence]. rewrite B, B2, zseq_app, A. reflexivity. }
  destruct (G (m + 1)%Z) as (A & B & C). destruct (go (m + 1)%Z cs) as [m2 cs'] eqn:Eg. cbn [fst snd] in A, B, C. cbv zeta.
  cbn [fst snd get_tree_nodes length]. split; [lia|]. split.
  - rewrite ids_tree. cbn [with_id id]. rewrite zseq_S, B. reflexivity.
  - destruct cs as [|c cs], cs' as [|c' cs']; try discriminate; auto. rewrite !get_dofs_node, C. reflexivity.
Qed.
Lemma fold_zmax l : forall a, (a <= fold_left Z.max l a)%Z /\ (forall z, In z l -> (z <= fold_left Z.max l a)%Z) /\
  (fold_left Z.max l a = a \/ In (fold_left Z.max l a) l).
Proof.
  induction l as [|x l IH]; intros a; cbn [fold_left].
  - split; [lia|]. split; [intros z []|auto].
  - destruct (IH (Z.max a x)) as (A & B & C). split; [lia|]. split.
    + intros z [->|Hz]; auto. lia.
    + destruct C as [C|C]; [|right; right; auto]. destruct (Z.max_spec a x) as [[_ E]|[_ E]]; rewrite C, E; cbn; auto.
Qed.
Lemma max_id_spec : forall t, In (get_max_id t) (ids t) /\ forall z, In z (ids t) -> (z <= get_max_id t)%Z.
Proof.
  induction t as [x own cs IH] using tree_ind2. rewrite Forall_forall in IH. rewrite ids_tree. cbn [get_max_id].
  destruct (fold_zmax (map get_max_id cs) (id x)) as (A & B & C). split.
  - destruct C as [->|C]; [left; auto|]. right. apply in_map_iff in C as (c & E & Hc). rewrite <- E. apply in_flat_map. exists c. split; auto. apply IH; auto.
  - intros z [<-|Hz]; auto. apply in_flat_map in Hz as (c & Hc & Hz). apply IH in Hz; auto. eapply Z.le_trans; [exact Hz|]. apply B. apply in_map; auto.
Qed.

Lemma nodup_app_iff {A} (a b : list A) : NoDup (a ++ b) <-> NoDup a /\ NoDup b /\ forall z, In z a -> In z b -> False.
Proof.
  induction a as [|x a IH]; cbn [app].
  - split; [intros H; split; [constructor|]; split; [auto|intros z []]|tauto].
  - split.
    + intros H. inversion H; subst. apply IH in H3 as (H3 & H4 & H5). split; [constructor; auto; intros C; apply H2; apply in_app_iff; auto|].
      split; auto. intros z [->|Hz] Hb; [apply H2, in_app_iff; auto|eauto].
    + intros (Ha & Hb & Hd). inversion Ha; subst. constructor.
      * rewrite in_app_iff. intros [C|C]; auto. apply (Hd x); cbn; auto.
      * apply IH. split; auto. split; auto. intros z Hz. apply Hd. cbn; auto.
Qed.
Lemma unique_spec : forall t used, let r := idsAreUnique used t in
  (forall z, In z (snd r) <-> In z used \/ In z (ids t)) /\ (fst r = true <-> NoDup (ids t) /\ forall z, In z (ids t) -> ~ In z used).
Proof.
  induction t as [x own cs IH] using tree_ind2. intros used. cbn [idsAreUnique].
  set (f := fun st c => let '(b, us) := idsAreUnique (snd st) c in (fst st && b, us)).
  assert (G : forall b used, let r := fold_left f cs (b, used) in
    (forall z, In z (snd r) <-> In z used \/ In z (flat_map ids cs)) /\ (fst r = true <-> b = true /\ NoDup (flat_map ids cs) /\ forall z, In z (flat_map ids cs) -> ~ In z used)).
  { clear used. induction IH as [|c l H _ IHl]; intros b used; cbn [fold_left flat_map].
    - split; [intros z; cbn; tauto|]. cbn. split; [intros ->; split; auto; split; [constructor|tauto]|tauto].
    - unfold f at 2 4. cbn [fst snd]. destruct (H used) as (A & B). destruct (idsAreUnique used c) as [b1 u1] eqn:E1. cbn [fst snd] in A, B.
      destruct (IHl (b && b1) u1) as (A2 & B2). cbv zeta in *. split.
      + intros z. rewrite A2, A, in_app_iff. tauto.
      + rewrite B2, andb_true_iff, B, nodup_app_iff. split.
        * intros ((-> & N1 & D1) & N2 & D2). split; auto. split; [split; auto; split; auto; intros z Hc Hl; apply (D2 z Hl); apply A; auto|].
          intros z Hz. apply in_app_iff in Hz as [Hz|Hz]; auto. intros C. apply (D2 z Hz), A. auto.
        * intros (-> & (N1 & N2 & Dis) & D). split; [split; auto; split; auto; intros z Hz; apply D, in_app_iff; auto|]. split; auto.
          intros z Hz C. apply A in C as [C|C]; [apply (D z); [apply in_app_iff; auto|auto]|eauto]. }
  destruct (G true used) as (A & B). destruct (fold_left f cs (true, used)) as [u us] eqn:Ef. cbn [fst snd] in A, B. cbv zeta.
  rewrite ids_tree. destruct (existsb (Z.eqb (id x)) us) eqn:Ex; cbn [fst snd].
  - apply existsb_exists in Ex as (z & Hz & Ez). apply Z.eqb_eq in Ez. subst z. apply A in Hz. split.
    + intros z. rewrite A. cbn [In]. split; [tauto|]. intros [H|[<-|H]]; auto.
    + split; [discriminate|]. intros (N & D). exfalso. inversion N; subst. destruct Hz as [Hz|Hz]; auto. apply (D (id x)); cbn; auto.
  - assert (Hn : ~ In (id x) us).
    { intros C. assert (existsb (Z.eqb (id x)) us = true); [|congruence]. apply existsb_exists. exists (id x). split; auto. apply Z.eqb_refl. }
    split.
    + intros z. cbn [In]. rewrite A. tauto.
    + rewrite B. split.
      * intros (_ & N & D). split; [constructor; auto; intros C; apply Hn, A; auto|]. intros z [<-|Hz]; auto. intros C. apply Hn, A. auto.
      * intros (N & D). inversion N; subst. split; auto. split; auto. intros z Hz. apply D. cbn; auto.
Qed.

(** ** Trimming *)
Lemma partitioned_child c t : partitioned t -> In c (children t) -> partitioned c.
Proof. intros H Hc s Hs. apply H. econstructor; eauto. Qed.

Lemma trim_ok keep : forall t, partitioned t -> exists b t', trim keep t = Ok (b, t') /\ same_node t t' /\ partitioned t' /\
  (b = true <-> forall s, subtree s t -> keep (id (info_of s)) = false) /\ (b = true -> children t' = []) /\
  (forall s, subtree s t -> keep (id (info_of s)) = true -> exists s', subtree s' t' /\ same_node s s') /\
  (forall s', subtree s' t' -> exists s, subtree s t /\ same_node s s' /\ (children s' <> [] -> children s <> [])).
Proof.
  induction t as [x own cs IH] using tree_ind2. intros Hp.
  assert (G : exists rs, mapM (trim keep) cs = Ok rs /\ Forall2 (fun t r => same_node t (snd r) /\ partitioned (snd r) /\
    (fst r = true <-> forall s, subtree s t -> keep (id (info_of s)) = false) /\ (fst r = true -> children (snd r) = []) /\
    (forall s, subtree s t -> keep (id (info_of s)) = true -> exists s', subtree s' (snd r) /\ same_node s s') /\
    (forall s', subtree s' (snd r) -> exists s, subtree s t /\ same_node s s' /\ (children s' <> [] -> children s <> []))) cs rs).
  { assert (Hc : Forall partitioned cs) by (apply Forall_forall; intros c Hc; apply (partitioned_child c (Tree x own cs) Hp Hc)).
    clear Hp. induction IH as [|c l H _ IHl]; [exists []; split; auto|]. inversion Hc; subst.
    destruct (H H2) as (b & t' & E & Q). destruct (IHl H3) as (rs & Es & F). exists ((b, t') :: rs). cbn [mapM]. rewrite E. cbn [bind]. rewrite Es. cbn [bind].
    split; [reflexivity|constructor; auto]. }
  clear IH. destruct G as (rs & Em & F). cbn [trim]. rewrite Em. cbn [bind].
  assert (Emap : map get_dofs (map snd rs) = map get_dofs cs).
  { clear Em Hp. induction F as [|c r l rs' ((_ & H) & _) _ IHF]; cbn [map]; auto. rewrite H, IHF. reflexivity. }
  assert (Ed : get_dofs (Tree x own (map snd rs)) = get_dofs (Tree x own cs)).
  { destruct cs as [|c cs], rs as [|r rs]; try (inversion F; fail); auto. cbn [map] in *. rewrite !get_dofs_node. cbn [map]. rewrite <- Emap. reflexivity. }
  assert (Hd : forall b, b = negb (keep (id x)) && forallb fst rs -> (b = true <-> forall s, subtree s (Tree x own cs) -> keep (id (info_of s)) = false)).
  { intros b ->. rewrite andb_true_iff, negb_true_iff, forallb_forall. split.
    - intros (H1 & H2) s Hs. apply subtree_inv in Hs as [->|(c & Hc & Hs)]; auto. cbn [children] in Hc. apply In_nth_error in Hc as (k & Hk).
      assert (exists r, nth_error rs k = Some r /\ (fst r = true <-> forall s, subtree s c -> keep (id (info_of s)) = false)) as (r & Hr & Q).
      { clear - F Hk. revert k Hk. induction F as [|c0 r l rs' Q _ IHF]; intros [|k] Hk; cbn in Hk; try discriminate.
        - inversion Hk; subst. exists r. split; auto. apply Q.
        - apply IHF in Hk. auto. }
      apply nth_error_In in Hr. apply H2 in Hr. apply Q; auto.
    - intros H. split; [apply (H _ (sub_refl _))|]. intros r Hr. destruct (Forall2_in_r _ _ _ _ F Hr) as (c & Hc & _ & _ & Q & _). apply Q.
      intros s Hs. apply H. econstructor; [exact Hc|exact Hs]. }
  specialize (Hd _ eq_refl). set (del := negb (keep (id x)) && forallb fst rs) in *.
  assert (Hpart : Forall partitioned (map snd rs)).
  { apply Forall_map, Forall_forall. intros r Hr. destruct (Forall2_in_r _ _ _ _ F Hr) as (c & _ & _ & Q & _). exact Q. }
  assert (Hlift : forall s, (exists c, In c cs /\ subtree s c) -> keep (id (info_of s)) = true -> exists r s', In r rs /\ subtree s' (snd r) /\ same_node s s').
  { intros s (c & Hc & Hs) Hk. apply In_nth_error in Hc as (k & Hc). clear - F Hc Hs Hk. revert k Hc.
    induction F as [|c0 r l rs' Q _ IHF]; intros [|k] Hc; cbn in Hc; try discriminate.
    - inversion Hc; subst. destruct Q as (_ & _ & _ & _ & Q & _). destruct (Q s Hs Hk) as (s' & H1 & H2). exists r, s'. cbn; auto.
    - destruct (IHF _ Hc) as (r' & s' & H1 & H2). exists r', s'. cbn; auto. }
  destruct cs as [|c cs].
  { inversion F; subst rs. exists del, (Tree x own []). split; auto. split; [split; auto|]. split; auto. split; auto. split; auto. split.
    - intros s Hs Hk. apply subtree_inv in Hs as [->|(d & [] & _)]. exists (Tree x own []). split; [constructor|split; auto].
    - intros s' Hs. apply subtree_inv in Hs as [->|(d & [] & _)]. exists (Tree x own []). split; [constructor|]. split; [split; auto|auto]. }
  destruct (filter (fun r => negb (fst r)) rs) as [|r0 nc] eqn:En.
  - destruct (Hp _ (sub_refl _)) as (Hi & Hnum & _). rewrite Ed, Hnum, Nat.eqb_refl. cbn [guard bind].
    set (dofs := get_dofs (Tree x own (c :: cs))) in *.
    exists del, (Tree x dofs []). split; auto. split; [split; auto|]. split; [apply partitioned_leaf; auto|]. split; auto. split; auto. split.
    + intros s Hs Hk. apply subtree_inv in Hs as [->|(d & Hd' & Hs)].
      * exists (Tree x dofs []). split; [constructor|split; auto].
      * exfalso. apply In_nth_error in Hd' as (k & Hk'). cbn [children] in Hk'.
        assert (Hall : forall r, In r rs -> fst r = true).
        { intros r Hr. destruct (fst r) eqn:Er; auto. exfalso. assert (Hin : In r (filter (fun r => negb (fst r)) rs)) by (apply filter_In; rewrite Er; auto). rewrite En in Hin. destruct Hin. }
        clear - F Hk' Hs Hk Hall. revert k Hk'. induction F as [|c0 r l rs' Q _ IHF]; intros [|k] Hk'; cbn in Hk'; try discriminate.
        -- inversion Hk'; subst. destruct Q as (_ & _ & Q & _). rewrite (proj1 Q (Hall r (or_introl eq_refl)) s Hs) in Hk. discriminate.
        -- apply (IHF (fun r Hr => Hall r (or_intror Hr)) k); auto.
    + intros s' Hs. apply subtree_inv in Hs as [->|(e & [] & _)]. exists (Tree x own (c :: cs)). split; [constructor|]. split; [split; auto|].
      intros C. cbn in C. congruence.
  - assert (Hf : forallb fst rs = false).
    { destruct (forallb fst rs) eqn:Ef; auto. rewrite forallb_forall in Ef. assert (Hin : In r0 (filter (fun r => negb (fst r)) rs)) by (rewrite En; cbn; auto).
      apply filter_In in Hin as [Hin Hneg]. rewrite (Ef r0 Hin) in Hneg. discriminate. }
    rewrite Hf. exists del, (Tree x own (map snd rs)). split; auto. split; [split; auto|]. split; [|split; [auto|split; [|split]]].
    + apply partitioned_node; auto.
      * intros C. apply map_eq_nil in C. subst rs. discriminate.
      * rewrite flat_map_concat_map, Emap, <- flat_map_concat_map. destruct (Hp _ (sub_refl _)) as (Hi & _ & Hperm).
        eapply Permutation_NoDup; [apply Hperm; cbn; congruence|]. apply inc_nodup; auto.
    + intros Hb. unfold del in Hb. rewrite Hf, andb_false_r in Hb. discriminate.
    + intros s Hs Hk. apply subtree_inv in Hs as [->|(d & Hd' & Hs)].
      * exists (Tree x own (map snd rs)). split; [constructor|split; auto].
      * destruct (Hlift s) as (r & s' & Hr & Hs' & Hsame); eauto. exists s'. split; auto. econstructor; [|exact Hs']. cbn [children]. apply in_map; auto.
    + intros s' Hs. apply subtree_inv in Hs as [->|(e & He & Hs)].
      * exists (Tree x own (c :: cs)). split; [constructor|]. split; [split; auto|cbn; congruence].
      * cbn [children] in He. apply in_map_iff in He as (r & <- & Hr). destruct (Forall2_in_r _ _ _ _ F Hr) as (d & Hd' & _ & _ & _ & _ & _ & Q).
        destruct (Q s' Hs) as (s & H1 & H2). exists s. split; auto. econstructor; [exact Hd'|exact H1].
Qed.
