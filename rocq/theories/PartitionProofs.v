(** The counting sort. *)
From Verif Require Import Util Lin AssemblyProofs TransferProofs2 SubMapProofs8 PartitionModel PartitionSpec.
From Coq Require Import Sorting.Sorted.
Local Open Scope nat_scope.
Set Default Proof Using "Type".

Lemma aset_nth {A} (l : list A) i x (d : A) : i < length l -> exists l', aset l i x = Ok l' /\ length l' = length l /\ (forall j, nth j l' d = if j =? i then x else nth j l d).
Proof.
  intros H. rewrite aset_ok by exact H. eexists; split; [reflexivity|]. split; [apply upd_length|]. intros j.
  destruct (nth_error (upd l i x) j) as [y|] eqn:E.
  - rewrite (nth_error_nth _ _ _ E). rewrite nth_error_upd in E. rewrite (Nat.eqb_sym j i). destruct (Nat.eqb_spec i j) as [->|N]; cbn [andb] in E.
    + rewrite (proj2 (Nat.ltb_lt _ _) H) in E. congruence.
    + symmetry. apply nth_error_nth. exact E.
  - pose proof (proj1 (nth_error_None _ _) E) as L. rewrite upd_length in L. destruct (Nat.eqb_spec j i); [lia|]. rewrite !nth_overflow by (rewrite ?upd_length; lia). reflexivity.
Qed.

Lemma nth_firstn_lt {X} (l : list X) k j d : j < k -> nth j (firstn k l) d = nth j l d.
Proof. revert l j; induction k as [|k IH]; intros [|x l] [|j] H; cbn [firstn nth]; try lia; try reflexivity. apply IH. lia. Qed.
Lemma nth_skipn {X} (l : list X) k j d : nth j (skipn k l) d = nth (k + j) l d.
Proof. revert l; induction k as [|k IH]; intros [|x l]; cbn [skipn nth Nat.add]; try reflexivity; [destruct j; reflexivity|]. apply IH. Qed.

Section Sort.
  Variables (P : list nat) (n : nat).
  Hypothesis HP : forall p, In p P -> p < n.
  Let N := length P.
  Definition cls (p t : nat) : list nat := filter (fun i => nth i P n =? p) (seq 0 t).
  Definition cnt (p t : nat) : nat := length (cls p t).
  Fixpoint start (p : nat) : nat := match p with O => 0 | S p => start p + cnt p N end.
  Lemma cls_S p t : cls p (S t) = cls p t ++ (if nth t P n =? p then [t] else []).
  Proof. unfold cls. rewrite seq_S, filter_app. cbn [Nat.add filter]. destruct (nth t P n =? p); reflexivity. Qed.
  Lemma cnt_S p t : cnt p (S t) = cnt p t + (if nth t P n =? p then 1 else 0).
  Proof. unfold cnt. rewrite cls_S, app_length. destruct (nth t P n =? p); reflexivity. Qed.
  Lemma cnt_mono p t t' : t <= t' -> cnt p t <= cnt p t'.
  Proof. induction 1 as [|m _ IH]; [lia|]. rewrite cnt_S. lia. Qed.
  Lemma start_mono p q : p < q -> start p + cnt p N <= start q.
  Proof. induction 1 as [|q _ IH]; cbn [start]; lia. Qed.
  Lemma cnt_strict p t : t < N -> nth t P n = p -> cnt p t < cnt p N.
  Proof using. intros H E. pose proof (cnt_mono p (S t) N H). rewrite cnt_S, E, Nat.eqb_refl in H0. lia. Qed.
  Lemma below t : t < N -> nth t P n < n.
  Proof using HP. intros H. apply HP. apply nth_In. exact H. Qed.
  Fixpoint total (m t : nat) : nat := match m with O => 0 | S m => total m t + cnt m t end.
  Lemma total_S m t : total m (S t) = total m t + (if nth t P n <? m then 1 else 0).
  Proof.
    induction m as [|m IH]; cbn [total]; [destruct (nth t P n <? 0) eqn:E; [apply Nat.ltb_lt in E; lia|reflexivity]|].
    rewrite IH, cnt_S. destruct (Nat.ltb_spec (nth t P n) m), (Nat.eqb_spec (nth t P n) m), (Nat.ltb_spec (nth t P n) (S m)); lia.
  Qed.
  Lemma start_all : start n = N.
  Proof using HP.
    assert (A : forall m, start m = total m N) by (induction m as [|m IH]; cbn [start total]; congruence). rewrite A.
    assert (B : forall t, t <= N -> total n t = t).
    { induction t as [|t IH]; intros Ht; [clear; induction n as [|m IH]; cbn [total]; [reflexivity|rewrite IH; reflexivity]|].
      rewrite total_S, IH by lia. rewrite (proj2 (Nat.ltb_lt _ _)) by (apply below; lia). lia. }
    apply B. lia.
  Qed.

  Lemma phase1 : exists a, for_range 0 N (fun i a => p <- aget P i ;; v <- aget a (p + 1) ;; aset a (p + 1) (v + 1)) (repeat 0 (n + 1)) = Ok a /\
    length a = S n /\ nth 0 a 0 = 0 /\ forall p, p < n -> nth (S p) a 0 = cnt p N.
  Proof using HP.
    destruct (for_range_inv (fun t a => length a = S n /\ nth 0 a 0 = 0 /\ forall p, p < n -> nth (S p) a 0 = cnt p t)
      (fun i a => p <- aget P i ;; v <- aget a (p + 1) ;; aset a (p + 1) (v + 1)) 0 N (repeat 0 (n + 1))) as (a & E & H); [lia| | |exists a; auto].
    - rewrite repeat_length. split; [lia|]. split; [apply nth_repeat|]. intros p _. rewrite nth_repeat. reflexivity.
    - intros t a Ht (La & H0 & H). rewrite (aget_nth P t n) by (unfold N in Ht; lia). cbn [bind]. pose proof (below t ltac:(lia)) as B.
      rewrite (aget_nth a (nth t P n + 1) 0) by lia. cbn [bind]. destruct (aset_nth a (nth t P n + 1) (nth (nth t P n + 1) a 0 + 1) 0 ltac:(lia)) as (a' & E & L' & V).
      exists a'. split; [exact E|]. split; [lia|]. split.
      + rewrite V. destruct (Nat.eqb_spec 0 (nth t P n + 1)); [lia|exact H0].
      + intros p Hp. rewrite V, cnt_S. destruct (Nat.eqb_spec (S p) (nth t P n + 1)) as [E1|N1], (Nat.eqb_spec (nth t P n) p) as [E2|N2]; try lia.
        * replace (nth t P n + 1) with (S p) by lia. rewrite H by lia. reflexivity.
        * rewrite H by lia. lia.
  Qed.
  Lemma phase2 a0 : length a0 = S n -> nth 0 a0 0 = 0 -> (forall p, p < n -> nth (S p) a0 0 = cnt p N) ->
    exists a, for_range 1 (n + 1) (fun i a => u <- aget a (i - 1) ;; v <- aget a i ;; aset a i (v + u)) a0 = Ok a /\ length a = S n /\ forall p, p <= n -> nth p a 0 = start p.
  Proof using.
    intros L0 Z0 H0. destruct (for_range_inv (fun t a => length a = S n /\ (forall p, p < t -> nth p a 0 = start p) /\ forall p, t <= p -> nth p a 0 = nth p a0 0)
      (fun i a => u <- aget a (i - 1) ;; v <- aget a i ;; aset a i (v + u)) 1 (n + 1) a0) as (a & E & La & H & _); [lia| | |exists a; split; [exact E|split; [exact La|intros p Hp; apply H; lia]]].
    - split; [exact L0|]. split; [|reflexivity]. intros p Hp. replace p with 0 by lia. exact Z0.
    - intros t a Ht (La & H & R). rewrite (aget_nth a (t - 1) 0) by lia. cbn [bind]. rewrite (aget_nth a t 0) by lia. cbn [bind].
      destruct (aset_nth a t (nth t a 0 + nth (t - 1) a 0) 0 ltac:(lia)) as (a' & E & L' & V). exists a'. split; [exact E|]. split; [lia|]. split.
      + intros p Hp. rewrite V. destruct (Nat.eqb_spec p t) as [->|]; [|apply H; lia]. destruct t as [|t]; [lia|]. rewrite (R (S t)) by lia. rewrite (H0 t) by lia. replace (S t - 1) with t by lia. rewrite (H t) by lia. cbn [start]. lia.
      + intros p Hp. rewrite V. destruct (Nat.eqb_spec p t); [lia|]. apply R. lia.
  Qed.
  Lemma phase3 a0 : length a0 = S n -> (forall p, p <= n -> nth p a0 0 = start p) ->
    exists a b, for_range 0 N (fun i '(a, b) => pos <- aget P i ;; k <- aget a pos ;; b' <- wr b k i ;; a' <- (v <- aget a pos ;; aset a pos (v + 1)) ;; Ok (a', b')) (a0, alloc N) = Ok (a, b) /\
      length a = S n /\ length b = N /\ (forall p, p < n -> nth p a 0 = start (S p)) /\
      (forall p r, p < n -> r < cnt p N -> nth_error b (start p + r) = Some (Some (nth r (cls p N) 0))).
  Proof using HP.
    intros L0 H0. destruct (for_range_inv (fun t '(a, b) => length a = S n /\ length b = N /\ (forall p, p < n -> nth p a 0 = start p + cnt p t) /\
      (forall p r, p < n -> r < cnt p t -> nth_error b (start p + r) = Some (Some (nth r (cls p t) 0))))
      (fun i '(a, b) => pos <- aget P i ;; k <- aget a pos ;; b' <- wr b k i ;; a' <- (v <- aget a pos ;; aset a pos (v + 1)) ;; Ok (a', b')) 0 N (a0, alloc N)) as ([a b] & E & La & Lb & H & V); [lia| | |].
    - split; [exact L0|]. unfold alloc. rewrite repeat_length. split; [reflexivity|]. split; [intros p Hp; rewrite H0 by lia; unfold cnt, cls; cbn; lia|]. intros p r _ Hr. unfold cnt, cls in Hr. cbn in Hr. lia.
    - intros t [a b] Ht (La & Lb & H & V). rewrite (aget_nth P t n) by (unfold N in Ht; lia). cbn [bind]. pose proof (below t ltac:(lia)) as B. set (q := nth t P n) in *.
      rewrite (aget_nth a q 0) by lia. cbn [bind]. rewrite (H q B). pose proof (cnt_strict q t ltac:(lia) eq_refl) as CS. pose proof (start_mono q n B). rewrite start_all in H1.
      rewrite wr_ok by lia. cbn [bind]. destruct (aset_nth a q (start q + cnt q t + 1) 0 ltac:(lia)) as (a' & E & L' & V'). rewrite E. cbn [bind]. eexists; split; [reflexivity|].
      cbv beta iota. split; [lia|]. split; [rewrite upd_length; exact Lb|]. split.
      + intros p Hp. rewrite V', cnt_S. fold q. destruct (Nat.eqb_spec p q) as [->|Np]; [rewrite Nat.eqb_refl; lia|]. destruct (Nat.eqb_spec q p); [congruence|]. rewrite H by exact Hp. lia.
      + intros p r Hp Hr. rewrite nth_error_upd. rewrite cnt_S in Hr. fold q in Hr. destruct (Nat.eqb_spec (start q + cnt q t) (start p + r)) as [Eq|Nq]; cbn [andb].
        * rewrite (proj2 (Nat.ltb_lt _ _)) by lia. assert (EP : p = q).
          { destruct (lt_eq_lt_dec p q) as [[Hlt| ->]|Hgt]; [|reflexivity|].
            - pose proof (start_mono p q Hlt). pose proof (cnt_mono p (S t) N ltac:(lia)). rewrite cnt_S in H3. fold q in H3. lia.
            - pose proof (start_mono q p Hgt). lia. }
          subst p. assert (r = cnt q t) by lia. subst r. rewrite cls_S. fold q. rewrite Nat.eqb_refl. unfold cnt. rewrite app_nth2 by lia. rewrite Nat.sub_diag. reflexivity.
        * rewrite cls_S. fold q. destruct (Nat.eqb_spec q p) as [<-|Np].
          -- assert (r < cnt q t) by lia. rewrite V by lia. rewrite app_nth1 by exact H2. reflexivity.
          -- rewrite app_nil_r. apply V; [exact Hp|lia].
    - exists a, b. split; [exact E|]. split; [exact La|]. split; [exact Lb|]. split; [intros p Hp; rewrite H by exact Hp; reflexivity|exact V].
  Qed.
  Lemma phase4 a0 : length a0 = S n -> (forall p, p < n -> nth p a0 0 = start (S p)) ->
    exists a, for_range_down n 0 (fun i a => v <- aget a (i - 1) ;; aset a i v) a0 = Ok a /\ length a = S n /\ forall p, 0 < p -> p <= n -> nth p a 0 = start p.
  Proof using.
    intros L0 H0. unfold for_range_down. rewrite Nat.sub_0_r.
    assert (G : forall m a, length a = S n -> m <= n -> (forall p, p < m -> nth p a 0 = start (S p)) -> (forall p, m < p -> p <= n -> nth p a 0 = start p) ->
      exists a', for_down m m (fun i a => v <- aget a (i - 1) ;; aset a i v) a = Ok a' /\ length a' = S n /\ forall p, 0 < p -> p <= n -> nth p a' 0 = start p).
    { induction m as [|m IH]; intros a La Hm H1 H2; cbn [for_down]; [exists a; split; [reflexivity|]; split; [exact La|]; intros p Hp Hp'; apply H2; lia|].
      replace (S m - 1) with m by lia. rewrite (aget_nth a m 0) by lia. cbn [bind]. destruct (aset_nth a (S m) (nth m a 0) 0 ltac:(lia)) as (a' & E & L' & V). rewrite E. cbn [bind].
      destruct (IH a') as (a2 & E2 & R); [lia|lia| | |exists a2; split; [|exact R]].
      - intros p Hp. rewrite V. destruct (Nat.eqb_spec p (S m)); [lia|]. apply H1. lia.
      - intros p Hp Hp'. rewrite V. destruct (Nat.eqb_spec p (S m)) as [->|]; [apply H1; lia|]. apply H2; lia.
      - rewrite <- E2. f_equal. }
    apply (G n a0 L0 (Nat.le_refl n) H0). intros p Hp Hp'. lia.
  Qed.

  Lemma graph_ok : exists indptr indices, partition2sparseGraph P n = Ok (indptr, indices) /\ lists_parts P n indptr indices.
  Proof using HP.
    unfold partition2sparseGraph. cbv zeta. fold N. destruct phase1 as (a1 & E1 & L1 & Z1 & H1). rewrite E1. cbn [bind].
    destruct (phase2 a1 L1 Z1 H1) as (a2 & E2 & L2 & H2). rewrite E2. cbn [bind]. destruct (phase3 a2 L2 H2) as (a3 & b & E3 & L3 & Lb & H3 & V). rewrite E3. cbn [bind].
    destruct (phase4 a3 L3 H3) as (a4 & E4 & L4 & H4). rewrite E4. cbn [bind]. destruct (aset_nth a4 0 0 0 ltac:(lia)) as (a & E & L & H). rewrite E. cbn [bind].
    assert (IP : forall p, p <= n -> nth p a 0 = start p).
    { intros p Hp. rewrite H. destruct (Nat.eqb_spec p 0) as [->|]; [reflexivity|]. apply H4; lia. }
    assert (FIND : forall m, m <= n -> forall i, i < start m -> exists p r, p < m /\ r < cnt p N /\ i = start p + r).
    { induction m as [|m IH]; intros Hm i Hi; cbn [start] in Hi; [lia|]. destruct (lt_dec i (start m)) as [Hl|Hg].
      - destruct (IH ltac:(lia) i Hl) as (p & r & A & B & C). exists p, r. split; [lia|auto].
      - exists m, (i - start m). lia. }
    destruct (all_init_ok 0 b) as (l & El & Eb).
    { intros i Hi. rewrite Lb in Hi. destruct (FIND n ltac:(lia) i ltac:(rewrite start_all; exact Hi)) as (p & r & A & B & ->). exists (nth r (cls p N) 0). apply V; assumption. }
    rewrite El. cbn [bind]. exists a, l. split; [reflexivity|]. assert (Ll : length l = N) by (rewrite <- Lb, Eb, map_length; reflexivity).
    assert (ROW : forall p, p < n -> row a l p = cls p N).
    { intros p Hp. unfold row. rewrite !IP by lia. cbn [start]. replace (start p + cnt p N - start p) with (cnt p N) by lia.
      pose proof (start_mono p n Hp) as SM. rewrite start_all in SM.
      apply (nth_ext _ _ 0 0).
      - rewrite firstn_length, skipn_length. change (length (cls p N)) with (cnt p N). lia.
      - intros r Hr. rewrite firstn_length, skipn_length in Hr. rewrite nth_firstn_lt by lia. rewrite nth_skipn.
        pose proof (V p r Hp ltac:(lia)) as VV. rewrite Eb, nth_error_map in VV. destruct (nth_error l (start p + r)) as [x|] eqn:Ex; cbn [option_map] in VV; [|discriminate].
        rewrite (nth_error_nth _ _ _ Ex). congruence. }
    split; [lia|]. split; [rewrite IP by lia; reflexivity|]. split; [rewrite IP by lia; apply start_all|]. split; [exact Ll|]. split; [|split].
    - intros p Hp. rewrite !IP by lia. cbn [start]. lia.
    - intros p Hp. rewrite (ROW p Hp). apply ssorted_filter, ssorted_seq.
    - intros p i Hp. rewrite (ROW p Hp). unfold cls. rewrite filter_In, in_seq, Nat.eqb_eq. fold N. split; intros (A & B); (split; [lia|exact B]).
  Qed.
End Sort.
