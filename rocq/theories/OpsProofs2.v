(** Proofs about eliminate_zeros, from_dense, sort_indices. *)
From Coq Require Import Sorted Permutation Qcabs.
From Verif Require Import Util Lin SparsitySpec CSRModel CSRSpec CSRProofs Rows SSSProofs OpsProofs.
Set Default Proof Using "Type".

Lemma Qc_nonzero_false v : Qc_nonzero v = false -> v = 0%Qc.
Proof.
  unfold Qc_nonzero. intros H. apply Qc_eq_bool_correct. destruct (Qc_eq_bool v 0); auto; discriminate.
Qed.

Lemma ent_filter_zero row j : ent (filter (fun p => Qc_nonzero (snd p)) row) j = ent row j.
Proof.
  induction row as [|p row IH]; [reflexivity|]. cbn [filter]. rewrite ent_cons, <- IH.
  destruct (Qc_nonzero (snd p)) eqn:E; [apply ent_cons|].
  apply Qc_nonzero_false in E. rewrite E. destruct (fst p =? j)%nat; ring.
Qed.

Lemma csr_eliminate_zeros_ok n m A : wf_csr n m A ->
  csr_eliminate_zeros A
  = Ok (mk n m (fun i => filter (fun p => Qc_nonzero (snd p)) (rowlist (c_indptr A) (c_indices A) (c_data A) i))).
Proof.
  intros wf. pose proof (proj2 wf) as wfr. unfold csr_eliminate_zeros. rewrite (csr_nrows n m A wf).
  set (R := fun i => filter (fun p => Qc_nonzero (snd p)) (rowlist (c_indptr A) (c_indices A) (c_data A) i)).
  loop_inv (fun i ipn => length ipn = n + 1 /\ forall k, k <= i -> nth k ipn 0 = nsum k (len R)) st E HI.
  3: { intros i ipn Hi (L & V). rewrite (aget_nth _ _ 0) by lia. cbn [bind]. rewrite aset_ok by lia. cbn [bind].
       rewrite (for_row_list n m _ _ _ wfr i _ (fun p ipn => if Qc_nonzero (snd p) then incr ipn (i + 1) else Ok ipn)); [|lia|].
       2: { intros jj j d s _ _ Ed. rewrite (aget_ok _ _ _ Ed). cbn [bind]. reflexivity. }
       rewrite incr_if_loop by (rewrite upd_length; lia). eexists; split; [reflexivity|].
       rewrite nth_upd_eq, upd_upd by lia. split; [rewrite upd_length; auto|].
       intros k Hk. destruct (Nat.eq_dec k (i + 1)) as [->|].
       - rewrite nth_upd_eq by lia. rewrite Nat.add_1_r. cbn [nsum]. rewrite V by lia. reflexivity.
       - rewrite nth_upd_neq by lia. apply V; lia. }
  - lia.
  - split; [apply repeat_length|]. intros k Hk. replace k with 0 by lia. apply nth_repeat.
  - rewrite E. cbn [bind]. destruct HI as (L & V).
    assert (Est : st = ptr n R) by (apply eq_tab with (d := 0); auto; intros; apply V; lia).
    rewrite (aget_nth _ _ 0) by lia. rewrite V by lia. cbn [bind]. rewrite Est. clear E L V Est st.
    loop_inv (fun i (st : buf nat * buf Qc * nat) => st = (app_state (nsum n (len R)) (cat i R), length (cat i R))) st E HI.
    3: { intros i st Hi ->.
         rewrite (for_row_list n m _ _ _ wfr i _ (fun p '(ind, dat, k) => if Qc_nonzero (snd p) then
            ind' <- wr ind (0 + k) (fst p) ;; dat' <- wr dat (0 + k) (snd p) ;; Ok (ind', dat', k + 1) else Ok (ind, dat, k))); [|lia|].
         2: { intros jj j d [[a b] k] _ Ej Ed. rewrite (aget_ok _ _ _ Ed), (aget_ok _ _ _ Ej). cbn [bind fst snd].
              destruct (Qc_nonzero d); reflexivity. }
         pose proof (append_row (nsum n (len R)) (fun p => Qc_nonzero (snd p)) 0
           (rowlist (c_indptr A) (c_indices A) (c_data A) i) (cat i R)) as H.
         cbn beta in H. rewrite !Nat.sub_0_r in H. rewrite H; [|lia|].
         - eexists; split; [reflexivity|]. rewrite cat_S. reflexivity.
         - rewrite cat_length. pose proof (nsum_mono (S i) n (len R) ltac:(lia)) as Hm. cbn [nsum] in Hm.
           unfold len at 2 in Hm. unfold R at 2 in Hm. lia. }
    + lia.
    + cbn [cat tab seq map concat length]. rewrite app_state_nil. reflexivity.
    + rewrite E, HI. cbn [bind]. rewrite <- cat_length, app_state_full. cbn [bind].
      rewrite !all_init_some. cbn [bind]. rewrite (proj1 wf). reflexivity.
Qed.

Lemma eliminate_zeros_thm n m A : wf_csr n m A ->
  exists B, csr_eliminate_zeros A = Ok B /\ wf_csr n m B /\
    (forall i j, i < n -> matrix B i j = matrix A i j) /\ (forall v, In v (c_data B) -> v <> 0%Qc).
Proof.
  intros wf. rewrite (csr_eliminate_zeros_ok n m) by auto. eexists; split; [reflexivity|]. split; [|split].
  - apply mk_wf. intros i p Hi Hp. apply filter_In in Hp as [Hp _]. eapply row_cols; [exact (proj2 wf)|exact Hp].
  - intros i j Hi. rewrite mk_matrix by auto. apply ent_filter_zero.
  - intros v Hv. cbn [c_data mk] in Hv. apply in_map_iff in Hv as (p & <- & Hp).
    apply in_cat in Hp as (i & _ & Hp). apply filter_In in Hp as [_ Hp]. intros E. rewrite E in Hp. discriminate.
Qed.

(** * from_dense *)
Definition drow (m : nat) (M : nat -> nat -> Qc) (tol : Qc) (i : nat) : list (nat * Qc) :=
  filter (fun p => above tol (snd p)) (tab m (fun j => (j, M i j))).

Lemma for_range_tab {S B} n (f : nat -> S -> res S) (h : nat -> B) (g : B -> S -> res S) s :
  (forall j s, j < n -> f j s = g (h j) s) -> for_range 0 n f s = for_list (tab n h) g s.
Proof.
  intros H. rewrite (for_range_list (tab n h) f g) by
    (rewrite ?tab_length; auto; intros jj x s0 Hjj E; rewrite nth_error_tab in E by lia; injection E as <-; apply H; lia).
  f_equal. unfold slice. cbn [skipn]. rewrite Nat.sub_0_r.
  replace n with (length (tab n h)) at 1 by apply tab_length. apply firstn_all.
Qed.

Lemma csr_from_dense_ok n m M tol : csr_from_dense n m M tol = Ok (mk n m (drow m M tol)).
Proof.
  unfold csr_from_dense. set (R := drow m M tol).
  loop_inv (fun i ip => length ip = n + 1 /\ nth 0 ip 0 = 0 /\ (forall k, k < i -> nth (S k) ip 0 = len R k) /\
     (forall k, i < k -> nth k ip 0 = 0)) st E HI.
  3: { intros i ip Hi (L & Z & V & W).
       rewrite (for_range_tab m _ (fun j => (j, M i j)) (fun p ip => if above tol (snd p) then incr ip (i + 1) else Ok ip))
         by (intros; reflexivity).
       rewrite incr_if_loop by lia. eexists; split; [reflexivity|]. split; [rewrite upd_length; auto|].
       rewrite (W (i + 1)) by lia. split; [rewrite nth_upd_neq by lia; auto|]. split.
       - intros k Hk. destruct (Nat.eq_dec k i) as [->|].
         + rewrite Nat.add_1_r, nth_upd_eq by lia. reflexivity.
         + rewrite nth_upd_neq by lia. apply V; lia.
       - intros k Hk. rewrite nth_upd_neq by lia. apply W; lia. }
  - lia.
  - split; [apply repeat_length|]. split; [apply nth_repeat|]. split; [lia|]. intros; apply nth_repeat.
  - rewrite E. cbn [bind]. destruct HI as (L & Z & V & _). rewrite (prefix_loop n st (len R)) by auto.
    cbn [bind]. fold (ptr n R). rewrite (aget_nth _ _ 0) by (rewrite ptr_length; lia). rewrite nth_ptr by lia. cbn [bind].
    clear E L Z V st.
    loop_inv (fun i (st : buf nat * buf Qc) => st = app_state (nsum n (len R)) (cat i R)) st E HI.
    3: { intros i st Hi ->.
         rewrite (for_range_tab m _ (fun j => (j, M i j)) (fun p '(ind, dat, k) => if above tol (snd p) then
            ind' <- wr ind (length (cat i R) + k) (fst p) ;; dat' <- wr dat (length (cat i R) + k) (snd p) ;; Ok (ind', dat', k + 1)
            else Ok (ind, dat, k))).
         2: { intros j [[a b] k] Hj. cbn [fst snd]. destruct (above tol (M i j)); auto.
              rewrite (aget_nth _ _ 0) by (rewrite ptr_length; lia). rewrite nth_ptr, cat_length by lia. reflexivity. }
         replace (fst (app_state (nsum n (len R)) (cat i R)), snd (app_state (nsum n (len R)) (cat i R)), 0)
           with (app_state (nsum n (len R)) (cat i R), length (cat i R) - length (cat i R)) by
           (rewrite Nat.sub_diag; destruct (app_state (nsum n (len R)) (cat i R)); reflexivity).
         pose proof (append_row (nsum n (len R)) (fun p => above tol (snd p)) (length (cat i R))
           (tab m (fun j => (j, M i j))) (cat i R)) as H. cbn beta in H. rewrite H; [|lia|].
         - change (filter (fun p => above tol (snd p)) (tab m (fun j => (j, M i j)))) with (R i).
           destruct (app_state (nsum n (len R)) (cat i R ++ R i)) as [a b] eqn:Ea. cbn [bind].
           eexists; split; [reflexivity|]. rewrite cat_S. auto.
         - rewrite cat_length. pose proof (nsum_mono (S i) n (len R) ltac:(lia)) as Hm. cbn [nsum] in Hm.
           unfold len at 2 in Hm. unfold R at 2, drow in Hm. lia. }
    + lia.
    + cbn [cat tab seq map concat length]. rewrite app_state_nil. reflexivity.
    + rewrite E, HI. cbn [bind]. rewrite <- cat_length, app_state_full. cbn [bind].
      rewrite !all_init_some. cbn [bind]. reflexivity.
Qed.

Lemma ent_filter_tab m (t : nat * Qc -> bool) (f : nat -> Qc) j : j < m ->
  ent (filter t (tab m (fun j => (j, f j)))) j = if t (j, f j) then f j else 0%Qc.
Proof.
  intros Hj. induction m as [|m IH]; [lia|]. rewrite tab_S, filter_app, ent_app. cbn [filter].
  destruct (Nat.eq_dec j m) as [->|Hne].
  - rewrite (ent_absent (filter t (tab m _))).
    + destruct (t (m, f m)); rewrite ?ent_cons, ?ent_nil; cbn [fst snd]; rewrite ?Nat.eqb_refl; ring.
    + intros p Hp. apply filter_In in Hp as [Hp _]. unfold tab in Hp. apply in_map_iff in Hp as (k & <- & Hk).
      apply in_seq in Hk. cbn [fst]. lia.
  - rewrite IH by lia. assert (m =? j = false) by (apply Nat.eqb_neq; lia).
    destruct (t (m, f m)); rewrite ?ent_cons, ?ent_nil; cbn [fst snd]; rewrite ?H; ring.
Qed.

Lemma sorted_app_lt (l l' : list nat) : StronglySorted lt l -> StronglySorted lt l' ->
  (forall x y, In x l -> In y l' -> x < y) -> StronglySorted lt (l ++ l').
Proof.
  induction 1 as [|x l HS IH HF]; intros HS' H; cbn [app]; auto. constructor.
  - apply IH; auto. intros; apply H; auto. right; auto.
  - apply Forall_app. split; auto. apply Forall_forall. intros y Hy. apply H; auto. left; auto.
Qed.

Lemma sorted_filter_tab m (t : nat * Qc -> bool) (f : nat -> Qc) :
  StronglySorted lt (map fst (filter t (tab m (fun j => (j, f j))))).
Proof.
  induction m as [|m IH]; [constructor|]. rewrite tab_S, filter_app, map_app. apply sorted_app_lt; auto.
  - cbn [filter]. destruct (t (m, f m)); repeat constructor.
  - intros x y Hx Hy. apply in_map_iff in Hx as (p & <- & Hp). apply filter_In in Hp as [Hp _].
    unfold tab in Hp. apply in_map_iff in Hp as (k & <- & Hk). apply in_seq in Hk. cbn [fst].
    cbn [filter] in Hy. destruct (t (m, f m)); cbn in Hy; [|tauto]. destruct Hy as [<-|[]]. lia.
Qed.

Lemma from_dense_thm n m M tol : exists B, csr_from_dense n m M tol = Ok B /\ wf_csr n m B /\ sorted_csr n B /\
  forall i j, i < n -> j < m -> matrix B i j = if above tol (M i j) then M i j else 0%Qc.
Proof.
  rewrite csr_from_dense_ok. eexists; split; [reflexivity|]. split; [|split].
  - apply mk_wf. intros i p Hi Hp. apply filter_In in Hp as [Hp _]. unfold tab in Hp.
    apply in_map_iff in Hp as (k & <- & Hk). apply in_seq in Hk. cbn [fst]. lia.
  - intros i Hi. unfold mk. cbn [c_indptr c_indices c_data]. rewrite mk_row by auto. apply sorted_filter_tab.
  - intros i j Hi Hj. rewrite mk_matrix by auto. unfold drow. rewrite ent_filter_tab by auto. reflexivity.
Qed.

Lemma above_zero v : above 0 v = false -> v = 0%Qc.
Proof.
  unfold above. destruct (Qclt_le_dec 0 (Qcabs v)) as [|H]; [discriminate|]. intros _.
  pose proof (Qcabs_nonneg v) as H'. pose proof (Qcle_antisym _ _ H H') as E.
  apply Qcabs_case with (P := fun x => x = 0%Qc -> v = 0%Qc) in E; auto.
  intros _ E1. replace v with (- - v)%Qc by ring. rewrite E1. ring.
Qed.

(** * sort_indices *)
Section Sift.
  Variables (pre post : list (nat * Qc)) (j : nat) (d : Qc).

  Definition pairs (l : list (nat * Qc)) : list nat * list Qc := (map fst l, map snd l).

  Lemma sift_ok : forall s1 hole s2,
    Forall (fun p => j < fst p) s2 ->
    exists s1' s2', s1 ++ s2 = s1' ++ s2' /\
      sift (length pre) j d (length (pre ++ s1)) (pairs (pre ++ s1 ++ hole :: s2 ++ post))
      = Ok (pairs (pre ++ s1' ++ (j, d) :: s2' ++ post)) /\
      Forall (fun p => j < fst p) s2' /\ (s1' = [] \/ exists q p, s1' = q ++ [p] /\ fst p <= j).
  Proof.
    assert (Hplace : forall s1 hole s2 k, k = length (pre ++ s1) ->
      (ind <- aset (fst (pairs (pre ++ s1 ++ hole :: s2 ++ post))) k j ;;
       dat <- aset (snd (pairs (pre ++ s1 ++ hole :: s2 ++ post))) k d ;; Ok (ind, dat))
      = Ok (pairs (pre ++ s1 ++ (j, d) :: s2 ++ post))).
    { intros s1 hole s2 k ->. unfold pairs. cbn [fst snd].
      assert (Em : forall (B : Type) (f : nat * Qc -> B),
        upd (map f (pre ++ s1 ++ hole :: s2 ++ post)) (length (pre ++ s1)) (f (j, d)) = map f (pre ++ s1 ++ (j, d) :: s2 ++ post)).
      { intros B f. rewrite <- map_upd. f_equal. rewrite (app_assoc pre), upd_at by auto. rewrite <- app_assoc. reflexivity. }
      rewrite aset_ok by (rewrite map_length, !app_length; cbn [length]; lia). cbn [bind].
      rewrite aset_ok by (rewrite map_length, !app_length; cbn [length]; lia). cbn [bind].
      change j with (fst (j, d)) at 1. change d with (snd (j, d)) at 3. rewrite !Em. reflexivity. }
    induction s1 as [|p s1 IH] using rev_ind; intros hole s2 Hs2.
    - exists [], s2. split; [reflexivity|]. split; [|split; auto].
      rewrite app_nil_r. cbn [app].
      pose proof (Hplace [] hole s2 (length pre) ltac:(rewrite app_nil_r; auto)) as HP. cbn [app] in HP.
      destruct (length pre) as [|k] eqn:El; cbn [sift].
      + exact HP.
      + rewrite Nat.ltb_irrefl. exact HP.
    - pose proof (Hplace (s1 ++ [p]) hole s2 _ eq_refl) as HP.
      destruct (length (pre ++ s1 ++ [p])) as [|k] eqn:El.
      { rewrite !app_length in El. cbn [length] in El. lia. }
      cbn [sift]. rewrite !app_length in El. cbn [length] in El.
      assert (Hlt : length pre <? S k = true) by (apply Nat.ltb_lt; lia). rewrite Hlt.
      assert (Ek : k = length (pre ++ s1)) by (rewrite app_length; lia).
      assert (Eg : aget (fst (pairs (pre ++ (s1 ++ [p]) ++ hole :: s2 ++ post))) k = Ok (fst p)).
      { apply aget_ok. unfold pairs. cbn [fst]. rewrite nth_error_map. subst k.
        rewrite <- !app_assoc. rewrite app_assoc. cbn [app]. rewrite nth_error_app2 by auto. rewrite Nat.sub_diag. reflexivity. }
      rewrite Eg. cbn [bind]. destruct (Nat.ltb_spec j (fst p)) as [Hj|Hj].
      + assert (Es : aget (snd (pairs (pre ++ (s1 ++ [p]) ++ hole :: s2 ++ post))) k = Ok (snd p)).
        { apply aget_ok. unfold pairs. cbn [snd]. rewrite nth_error_map. subst k.
          rewrite <- !app_assoc. rewrite app_assoc. cbn [app]. rewrite nth_error_app2 by auto. rewrite Nat.sub_diag. reflexivity. }
        rewrite Es. unfold pairs at 1 2. cbn [fst snd].
        rewrite !aset_ok by (rewrite map_length, !app_length; cbn [length]; lia). cbn [bind].
        rewrite aset_ok by (rewrite map_length, !app_length; cbn [length]; lia). cbn [bind].
        assert (Em : forall (B : Type) (f : nat * Qc -> B), upd (map f (pre ++ (s1 ++ [p]) ++ hole :: s2 ++ post)) (S k) (f p)
                     = map f (pre ++ s1 ++ p :: (p :: s2) ++ post)).
        { intros B f. rewrite <- map_upd. f_equal. rewrite app_assoc.
          rewrite upd_at by (rewrite !app_length; cbn [length]; lia).
          rewrite <- !app_assoc. reflexivity. }
        rewrite !Em. destruct (IH p (p :: s2)) as (s1' & s2' & E1 & E2 & E3 & E4); [constructor; auto|].
        exists s1', s2'. split; [rewrite <- E1, <- app_assoc; reflexivity|]. split; [|auto].
        rewrite Ek. exact E2.
      + exists (s1 ++ [p]), s2. split; [reflexivity|]. split; [exact HP|]. split; auto.
        right. exists s1, p. auto.
  Qed.
End Sift.

Definition sorted_le (row : list (nat * Qc)) : Prop := StronglySorted le (map fst row).

Lemma sorted_le_insert s1 s2 s1' s2' j (d : Qc) : s1 = s1' ++ s2' -> s2 = s1' ++ (j, d) :: s2' ->
  sorted_le s1 -> Forall (fun p => j < fst p) s2' -> (s1' = [] \/ exists q p, s1' = q ++ [p] /\ fst p <= j) ->
  sorted_le s2.
Proof.
  intros -> -> HS H2 H1. unfold sorted_le in *. rewrite map_app in *. cbn [map fst].
  assert (Hs1 : Forall (fun x => x <= j) (map fst s1')).
  { destruct H1 as [->|(q & p & -> & Hp)]; [constructor|].
    rewrite map_app in *. cbn [map] in *. rewrite <- app_assoc in HS. cbn [app] in HS.
    clear H2. induction (map fst q) as [|x l IH]; cbn [app] in *.
    - constructor; auto.
    - apply StronglySorted_inv in HS as [HS HF]. constructor; auto.
      rewrite Forall_app in HF. destruct HF as [_ HF]. inversion HF; subst. lia. }
  assert (Hs2 : Forall (fun x => j <= x) (map fst s2')).
  { apply Forall_map. eapply Forall_impl; [|exact H2]. cbn beta. intros; lia. }
  clear H1 H2. induction (map fst s1') as [|x l IH]; cbn [app] in *.
  - constructor; auto.
  - apply StronglySorted_inv in HS as [HS HF]. inversion Hs1; subst. constructor; auto.
    rewrite Forall_app in *. destruct HF. split; auto.
Qed.

Lemma sort_row_ok pre post (row : list (nat * Qc)) :
  exists row', for_range (length pre) (length (pre ++ row)) (fun jj st =>
      j <- aget (fst st) jj ;; d <- aget (snd st) jj ;; sift (length pre) j d jj st) (pairs (pre ++ row ++ post))
    = Ok (pairs (pre ++ row' ++ post)) /\ Permutation row row' /\ sorted_le row'.
Proof.
  loop_inv (fun k st => exists q p p', row = p ++ q /\ k = length (pre ++ p) /\ st = pairs (pre ++ p' ++ q ++ post) /\
      Permutation p p' /\ sorted_le p') st E HI.
  3: { intros k st Hk (q & p & p' & Erow & Ek & -> & Hp & Hs).
       destruct q as [|[j d] q]; [exfalso; rewrite app_nil_r in Erow; subst; lia|].
       assert (Hlen : k = length (pre ++ p')) by (rewrite Ek, !app_length, (Permutation_length Hp); auto).
       assert (E1 : aget (fst (pairs (pre ++ p' ++ ((j, d) :: q) ++ post))) k = Ok j).
       { apply aget_ok. unfold pairs. cbn [fst]. rewrite nth_error_map, Hlen, app_assoc. cbn [app].
         rewrite nth_error_app2 by auto. rewrite Nat.sub_diag. reflexivity. }
       assert (E2 : aget (snd (pairs (pre ++ p' ++ ((j, d) :: q) ++ post))) k = Ok d).
       { apply aget_ok. unfold pairs. cbn [snd]. rewrite nth_error_map, Hlen, app_assoc. cbn [app].
         rewrite nth_error_app2 by auto. rewrite Nat.sub_diag. reflexivity. }
       rewrite E1. cbn [bind]. rewrite E2. cbn [bind]. rewrite Hlen.
       destruct (sift_ok pre (q ++ post) j d p' (j, d) []) as (s1 & s2 & E3 & E4 & E5 & E6); [constructor|].
       rewrite app_nil_r in E3. cbn [app] in *. rewrite E4. eexists; split; [reflexivity|].
       exists q, (p ++ [(j, d)]), (s1 ++ (j, d) :: s2). split; [rewrite <- app_assoc; auto|].
       split; [rewrite Hlen in Ek; rewrite Ek, !app_length; cbn [length]; lia|].
       split; [rewrite <- !app_assoc; reflexivity|]. split.
       - rewrite Hp, E3. rewrite <- app_assoc. apply Permutation_app_head. symmetry. apply Permutation_cons_append.
       - eapply sorted_le_insert; eauto. }
  - rewrite app_length. lia.
  - exists row, [], []. split; auto. split; [rewrite app_nil_r; auto|]. split; [reflexivity|]. split; auto. constructor.
  - destruct HI as (q & p & p' & Erow & Ek & -> & Hp & Hs).
    assert (q = []) as -> by (destruct q; auto; subst; rewrite !app_length in Ek; cbn [length] in Ek; lia).
    rewrite app_nil_r in Erow. subst. exists p'. auto.
Qed.

Lemma skipn_skipn {A} x : forall y (l : list A), skipn x (skipn y l) = skipn (x + y) l.
Proof.
  induction y as [|y IH]; intros l; [rewrite Nat.add_0_r; reflexivity|].
  rewrite Nat.add_succ_r. destruct l; [rewrite !skipn_nil; reflexivity|]. cbn [skipn]. apply IH.
Qed.

Lemma slice_app_l {A} (p q : list A) lo hi : hi <= length p -> slice (p ++ q) lo hi = slice p lo hi.
Proof.
  intros H. unfold slice. destruct (Nat.le_gt_cases lo hi).
  - rewrite skipn_app, firstn_app. rewrite skipn_length.
    replace (hi - lo - (length p - lo)) with 0 by lia. cbn [firstn]. apply app_nil_r.
  - replace (hi - lo) with 0 by lia. reflexivity.
Qed.

Lemma slice_split {A} (l : list A) lo hi : lo <= hi -> hi <= length l ->
  l = firstn lo l ++ slice l lo hi ++ skipn hi l.
Proof.
  intros H1 H2. unfold slice. rewrite <- (firstn_skipn lo l) at 1. f_equal.
  rewrite <- (firstn_skipn (hi - lo) (skipn lo l)) at 1. f_equal. rewrite skipn_skipn. f_equal. lia.
Qed.

Lemma ent_perm row row' j : Permutation row row' -> ent row j = ent row' j.
Proof.
  induction 1; rewrite ?ent_nil, ?ent_cons; auto.
  - rewrite IHPermutation; auto.
  - ring.
  - congruence.
Qed.

Lemma sort_indices_thm n m A : wf_csr n m A -> length (c_indices A) = length (c_data A) ->
  exists B, csr_sort_indices A = Ok B /\ wf_csr n m B /\ c_indptr B = c_indptr A /\
    forall i, i < n ->
      Permutation (rowlist (c_indptr A) (c_indices A) (c_data A) i) (rowlist (c_indptr B) (c_indices B) (c_data B) i) /\
      sorted_le (rowlist (c_indptr B) (c_indices B) (c_data B) i).
Proof.
  intros wf Hlen. pose proof (proj2 wf) as wfr. unfold csr_sort_indices. rewrite Hlen, Nat.eqb_refl. cbn [guard bind].
  rewrite (csr_nrows n m A wf).
  set (L := combine (c_indices A) (c_data A)).
  set (ip := c_indptr A) in *.
  assert (HL : length L = length (c_indices A)) by (unfold L; rewrite combine_length; lia).
  assert (EL : (c_indices A, c_data A) = pairs L).
  { unfold pairs, L. f_equal.
    - clear -Hlen. revert Hlen. generalize (c_data A). induction (c_indices A) as [|a l IH]; intros [|b l'] H; cbn in *; try discriminate; auto.
      f_equal. auto.
    - clear -Hlen. revert Hlen. generalize (c_indices A). induction (c_data A) as [|a l IH]; intros [|b l'] H; cbn in *; try discriminate; auto.
      f_equal. auto. }
  rewrite EL.
  assert (Hhi : forall i, i <= n -> nth i ip 0 <= length L).
  { intros i Hi. rewrite HL. destruct wfr as (_ & _ & H3 & _). pose proof (wf_mono n m _ _ _ (proj2 wf) i n ltac:(lia) ltac:(lia)).
    fold ip in H. lia. }
  assert (Hmono : forall a b, a <= b -> b <= n -> nth a ip 0 <= nth b ip 0) by (intros; eapply wf_mono; eauto).
  loop_inv (fun i st => exists P, length P = nth i ip 0 /\ st = pairs (P ++ skipn (nth i ip 0) L) /\
     Permutation (firstn (nth i ip 0) L) P /\
     forall i', i' < i -> Permutation (slice L (nth i' ip 0) (nth (S i') ip 0)) (slice P (nth i' ip 0) (nth (S i') ip 0)) /\
        sorted_le (slice P (nth i' ip 0) (nth (S i') ip 0))) st E HI.
  3: { intros i st Hi (P & HP & -> & HPP & HR).
       rewrite (wf_ip n m _ _ _ wfr) by lia. cbn [bind]. rewrite (wf_ip n m _ _ _ wfr) by lia. cbn [bind].
       fold ip. rewrite Nat.add_1_r.
       pose proof (Hmono i (S i) ltac:(lia) ltac:(lia)) as Hm. pose proof (Hhi (S i) ltac:(lia)) as Hh.
       set (row := slice L (nth i ip 0) (nth (S i) ip 0)).
       assert (Hrl : length row = nth (S i) ip 0 - nth i ip 0).
       { unfold row, slice. rewrite firstn_length, skipn_length. lia. }
       assert (Esk : skipn (nth i ip 0) L = row ++ skipn (nth (S i) ip 0) L).
       { unfold row, slice. rewrite <- (firstn_skipn (nth (S i) ip 0 - nth i ip 0) (skipn (nth i ip 0) L)) at 1. f_equal.
         rewrite skipn_skipn. f_equal. lia. }
       rewrite Esk. destruct (sort_row_ok P (skipn (nth (S i) ip 0) L) row) as (row' & E1 & E2 & E3).
       rewrite app_length, HP, Hrl in E1. replace (nth i ip 0 + (nth (S i) ip 0 - nth i ip 0)) with (nth (S i) ip 0) in E1 by lia.
       rewrite E1. eexists; split; [reflexivity|]. exists (P ++ row').
       assert (Hl' : length (P ++ row') = nth (S i) ip 0) by (rewrite app_length, HP, <- (Permutation_length E2); lia).
       split; auto. split; [rewrite <- app_assoc; reflexivity|]. split.
       { rewrite <- (firstn_skipn (nth i ip 0) (firstn (nth (S i) ip 0) L)). apply Permutation_app.
         - rewrite firstn_firstn. replace (Nat.min _ _) with (nth i ip 0) by lia. auto.
         - rewrite <- E2. unfold row, slice. rewrite skipn_firstn_comm. reflexivity. }
       intros i' Hi'. destruct (Nat.eq_dec i' i) as [->|Hne].
       - fold row. assert (slice (P ++ row') (nth i ip 0) (nth (S i) ip 0) = row') as ->; auto.
         unfold slice. rewrite <- HP, skipn_at, HP. replace (nth (S i) ip 0 - nth i ip 0) with (length row') by
           (rewrite <- (Permutation_length E2); auto). apply firstn_all.
       - pose proof (Hmono (S i') i ltac:(lia) ltac:(lia)). rewrite slice_app_l by lia. apply HR; lia. }
  - lia.
  - exists (firstn (nth 0 ip 0) L). split; [rewrite firstn_length; pose proof (Hhi 0 ltac:(lia)); lia|].
    split; [rewrite firstn_skipn; reflexivity|]. split; auto. intros; lia.
  - rewrite E. destruct HI as (P & HP & -> & HPP & HR). cbn [bind pairs].
    set (L' := P ++ skipn (nth n ip 0) L) in *.
    assert (HLP : Permutation L L').
    { unfold L'. rewrite <- (firstn_skipn (nth n ip 0) L) at 1. apply Permutation_app_tail; auto. }
    eexists; split; [reflexivity|]. cbn [c_indptr c_indices c_data]. split; [|split; [reflexivity|]].
    + split; [exact (proj1 wf)|]. cbn [c_indptr c_indices c_data]. destruct wfr as (W1 & W2 & W3 & W4 & W5).
      split; auto. split; auto. rewrite !map_length, <- (Permutation_length HLP).
      split; [rewrite HL; auto|]. split; auto. intros j Hj.
      apply W5. apply (Permutation_in _ (Permutation_sym (Permutation_map fst HLP))) in Hj.
      injection EL as E1 E2. rewrite E1. auto.
    + intros i Hi. unfold rowlist. rewrite combine_fst_snd. fold L.
      unfold L'. rewrite slice_app_l by (rewrite HP; apply Hmono; lia). apply HR; auto.
Qed.

Lemma sorted_le_nodup row : sorted_le row -> NoDup (map fst row) -> StronglySorted lt (map fst row).
Proof.
  unfold sorted_le. induction 1 as [|x l HS IH HF]; intros Hn; constructor; inversion Hn; subst; auto.
  apply Forall_forall. intros y Hy. rewrite Forall_forall in HF. specialize (HF y Hy).
  assert (x <> y) by (intros ->; auto). lia.
Qed.
