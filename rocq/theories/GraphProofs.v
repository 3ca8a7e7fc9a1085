(** Products with sparse graphs. *)
From Verif Require Import Util Lin SparsitySpec CSRModel CSRSpec GraphModel GraphSpec.
Local Open Scope nat_scope.
Set Default Proof Using "Type".

Lemma qz_plus a b : qz (a + b) = (qz a + qz b)%Qc.
Proof. unfold qz. apply Qc_is_canon. unfold Qcplus, Q2Qc. cbn [this]. rewrite !Qred_correct, inject_Z_plus. reflexivity. Qed.
Lemma qnat_S k : qnat (S k) = (1 + qnat k)%Qc.
Proof. unfold qnat. rewrite Nat2Z.inj_succ. unfold Z.succ. rewrite Z.add_comm, qz_plus. reflexivity. Qed.
Lemma qnat_inj a b : qnat a = qnat b -> a = b.
Proof.
  unfold qnat, qz. intros H. apply (f_equal this) in H. unfold Q2Qc in H. cbn [this] in H. apply Qred_eq_iff in H. unfold Qeq in H. cbn in H. lia.
Qed.
Lemma slice_snoc {X} (l : list X) lo k d : lo <= k -> k < length l -> slice l lo (S k) = slice l lo k ++ [nth k l d].
Proof.
  intros H L. unfold slice. replace (S k - lo) with (S (k - lo)) by lia.
  rewrite <- (firstn_skipn lo l) at 3. assert (E : nth k l d = nth (k - lo) (skipn lo l) d) by (rewrite <- (firstn_skipn lo l) at 1; rewrite app_nth2; rewrite firstn_length_le by lia; [reflexivity|lia]).
  rewrite (firstn_skipn lo l), E. assert (L' : k - lo < length (skipn lo l)) by (rewrite skipn_length; lia).
  generalize (skipn lo l), (k - lo), L'. clear. intros t; induction t as [|a t IH]; intros n H; [cbn in H; lia|]. destruct n; [reflexivity|]. cbn in *. f_equal. apply IH. lia.
Qed.
Lemma slice_in {X} (l : list X) a e x : In x (slice l a e) -> In x l.
Proof. unfold slice. intros H. rewrite <- (firstn_skipn a l). apply in_or_app. right. rewrite <- (firstn_skipn (e - a) (skipn a l)). apply in_or_app. auto. Qed.
Lemma suml_count m l (x : nat -> Qc) : (forall c, In c l -> c < m) -> suml (map x l) = sumf m (fun c => qnat (count_occ Nat.eq_dec l c) * x c)%Qc.
Proof.
  induction l as [|a l IH]; intros H; cbn [map suml].
  - symmetry. apply sumf_zero. intros i _. change (qnat (count_occ Nat.eq_dec [] i)) with 0%Qc. ring.
  - rewrite IH by (intros; apply H; right; auto).
    symmetry. rewrite (sumf_ext m _ (fun c => (if c =? a then x c else 0) + qnat (count_occ Nat.eq_dec l c) * x c)%Qc).
    + rewrite sumf_plus, sumf_delta by (apply H; left; auto). reflexivity.
    + intros c _. cbn [count_occ]. destruct (Nat.eq_dec a c) as [->|N]; [rewrite Nat.eqb_refl, qnat_S; ring|]. destruct (Nat.eqb_spec c a); [congruence|ring].
Qed.
Section G.
  Variables (n m : nat) (g : graph).
  Hypothesis W : wf_graph n m g.
  Lemma ptr_mono a b : a <= b -> b <= n -> nth a (g_ptr g) 0 <= nth b (g_ptr g) 0.
  Proof using W. destruct W as (_ & _ & _ & _ & M & _). intros H. induction H as [|b H IH]; intros Hb; [lia|]. specialize (IH ltac:(lia)). specialize (M b ltac:(lia)). lia. Qed.
  Lemma row_sum_ok x i : i < n -> length x = m -> row_sum g x i = Ok (mv m (gmat g) (vat x) i).
  Proof using W.
    intros Hi Lx. pose proof (ptr_mono (S i) n ltac:(lia) ltac:(lia)) as PM. destruct W as (_ & _ & Lp & _ & M & Ln & B). unfold row_sum.
    rewrite (aget_nth _ i 0), (aget_nth _ (i + 1) 0) by lia. cbn [bind]. replace (i + 1) with (S i) by lia.
    specialize (M i Hi). 
    destruct (for_range_inv (fun k s => s = suml (map (vat x) (slice (g_ind g) (nth i (g_ptr g) 0) k)))
      (fun j s => c <- aget (g_ind g) j ;; v <- aget x c ;; Ok (s + v)%Qc) (nth i (g_ptr g) 0) (nth (S i) (g_ptr g) 0) 0%Qc) as (s & E & HI).
    - exact M.
    - unfold slice. rewrite Nat.sub_diag. reflexivity.
    - intros k s Hk ->. rewrite (aget_nth _ k 0) by lia. cbn [bind]. assert (C : nth k (g_ind g) 0 < m) by (apply B, nth_In; lia).
      rewrite (aget_ok x _ (vat x (nth k (g_ind g) 0))) by (apply nth_error_vat; lia). cbn [bind]. eexists. split; [reflexivity|].
      rewrite (slice_snoc _ _ k 0) by lia. rewrite map_app, suml_app. cbn. ring.
    - rewrite E, HI. f_equal. apply suml_count. intros c Hc. apply B. eapply slice_in; eauto.
  Qed.
  Lemma graph_matvec_ok x y : length x = m -> length y = n -> graph_matvec g x y = Ok (map Some (tab n (mv m (gmat g) (vat x)))).
  Proof using W.
    intros Lx Ly. unfold graph_matvec. rewrite (proj1 W). apply fill_loop; auto.
    intros i b Hi _ _. rewrite row_sum_ok by auto. reflexivity.
  Qed.
  Lemma graph_add_ok x y : length x = m -> length y = n -> graph_matvec_add g x (map Some y) = Ok (map Some (tab n (fun i => vat y i + mv m (gmat g) (vat x) i)%Qc)).
  Proof using W.
    intros Lx Ly. unfold graph_matvec_add. rewrite (proj1 W). apply fill_loop; [rewrite map_length; auto|].
    intros i b Hi _ E. rewrite row_sum_ok by auto. cbn [bind]. rewrite (rd_ok b i (vat y i)); [reflexivity|].
    rewrite E. apply map_nth_error. apply nth_error_vat. lia.
  Qed.
  Lemma tmat_mv x i : i < m -> mv m (tmat g) x i = (x i + half * mv m (gmat g) x i)%Qc.
  Proof using.
    intros Hi. unfold mv, tmat. fold half. rewrite (sumf_ext m _ (fun j => (if j =? i then x j else 0) + half * (gmat g i j * x j))%Qc).
    - rewrite sumf_plus, sumf_delta, sumf_scal by auto. reflexivity.
    - intros j _. unfold gmat. rewrite (Nat.eqb_sym i j). destruct (j =? i); ring.
  Qed.
  Lemma tmat_mv_out x i : m <= i -> mv m (tmat g) x i = (half * mv m (gmat g) x i)%Qc.
  Proof using.
    intros Hi. unfold mv, tmat. fold half. rewrite (sumf_ext m _ (fun j => half * (gmat g i j * x j))%Qc).
    - rewrite sumf_scal. reflexivity.
    - intros j Hj. unfold gmat. destruct (Nat.eqb_spec i j); [lia|ring].
  Qed.
  Lemma restriction_ok x y : n <= m -> length x = m -> length y = n -> restriction_matvec g x y = Ok (map Some (tab n (mv m (tmat g) (vat x)))).
  Proof using W.
    intros H Lx Ly. unfold restriction_matvec. rewrite (proj1 W). apply fill_loop; auto.
    intros i b Hi _ _. rewrite row_sum_ok by auto. cbn [bind]. rewrite (aget_ok x i (vat x i)) by (apply nth_error_vat; lia). cbn [bind].
    rewrite tmat_mv by lia. reflexivity.
  Qed.
  Lemma prolongation_ok x y : m <= n -> length x = m -> length y = n -> prolongation_matvec g x y = Ok (map Some (tab n (mv m (tmat g) (vat x)))).
  Proof using W.
    intros H Lx Ly. unfold prolongation_matvec. rewrite (proj1 W), (proj1 (proj2 W)).
    rewrite (fill_loop n _ y (fun i => half * mv m (gmat g) (vat x) i)%Qc); auto.
    - cbn [bind]. set (h := fun i => (half * mv m (gmat g) (vat x) i)%Qc).
      destruct (for_range_inv (fun k b => b = map Some (tab n (fun i => if i <? k then vat x i + h i else h i)%Qc))
        (fun i y => v <- rd y i ;; a <- aget x i ;; wr y i (v + a)%Qc) 0 m (map Some (tab n h))) as (b & E & HI); [lia|reflexivity| |].
      + intros k b Hk ->. rewrite (rd_some _ k 0%Qc) by (rewrite tab_length; lia). cbn [bind]. rewrite nth_tab by lia. rewrite Nat.ltb_irrefl.
        rewrite (aget_ok x k (vat x k)) by (apply nth_error_vat; lia). cbn [bind]. rewrite wr_some by (rewrite tab_length; lia). eexists. split; [reflexivity|].
        f_equal. apply (eq_tab _ n _ 0%Qc); [rewrite upd_length, tab_length; auto|]. intros i Hi.
        match goal with |- nth i ?l _ = _ => change (vat l i = (if i <? S k then vat x i + h i else h i)%Qc) end. rewrite vat_upd by (rewrite tab_length; lia). rewrite vat_tab by auto.
        destruct (Nat.eqb_spec i k) as [E|N]; [subst i; rewrite (proj2 (Nat.ltb_lt k (S k))) by lia; ring|].
        destruct (Nat.ltb_spec i k), (Nat.ltb_spec i (S k)); try lia; reflexivity.
      + rewrite E, HI. do 2 f_equal. apply tab_ext. intros i Hi. unfold h. destruct (Nat.ltb_spec i m); [rewrite tmat_mv by auto; reflexivity|rewrite tmat_mv_out by auto; reflexivity].
    - intros i b Hi _ _. rewrite row_sum_ok by auto. reflexivity.
  Qed.
End G.
