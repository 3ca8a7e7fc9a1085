(** Proofs about the products of hierarchical matrices. *)
From Verif Require Import Util Lin SparsitySpec CSRModel CSRSpec CSRProofs TriModel TriSpec TriProofs TriProofs2 OpsProofs DenseModel DenseSpec DenseProofs OpsProofs3.
From Verif Require Import H2Model H2Spec H2Proofs H2Proofs2 H2Proofs3.
Set Default Proof Using "Type".
Local Open Scope nat_scope.

Lemma nnz_ok n m A : wf_csr n m A -> nnz A = Ok (nth n (c_indptr A) 0).
Proof.
  intros (_ & Hl & _). unfold nnz. rewrite Hl, Nat.add_sub. unfold aget.
  destruct (nth_error (c_indptr A) n) as [v|] eqn:E.
  - rewrite (nth_error_nth _ _ _ E). auto.
  - apply nth_error_None in E. lia.
Qed.

Lemma indptr_mono n m A i j : wf_csr n m A -> i <= j -> j <= n -> nth i (c_indptr A) 0 <= nth j (c_indptr A) 0.
Proof.
  intros (_ & _ & Hm & _) Hij Hj. induction j as [|j IH]; [assert (i = 0) as -> by lia; auto|].
  destruct (Nat.eq_dec i (S j)) as [->|]; auto. specialize (IH ltac:(lia) ltac:(lia)). specialize (Hm j ltac:(lia)). lia.
Qed.

Lemma empty_csr n m A : wf_csr n m A -> nth n (c_indptr A) 0 = 0 -> forall i j, i < n -> matrix A i j = 0%Qc.
Proof.
  intros W E i j Hi. unfold matrix, rowlist, slice.
  pose proof (indptr_mono n m A (S i) n W ltac:(lia) ltac:(lia)).
  assert (nth (S i) (c_indptr A) 0 = 0) as -> by lia. auto.
Qed.

Section Products.
  Variables (N : nat) (M : h2) (x : list Qc).
  Hypothesis (W : wf_h2 N M) (Hx : length x = N).

  Lemma near_matvec (y : buf Qc) : length y = N ->
    (k <- nnz (Anear M) ;; if 0 <? k then csr_matvec false (Anear M) x y else set0 y)
    = Ok (map Some (tab N (mv N (matrix (Anear M)) (vat x)))).
  Proof using W Hx.
    intros Hy. destruct W as [Wn _ _]. rewrite (nnz_ok N N) by auto. cbn [bind]. destruct (Nat.ltb_spec 0 (nth N (c_indptr (Anear M)) 0)) as [|E].
    - apply (csr_kernels_ok N N (Anear M) false x Wn Hx). auto.
    - rewrite set0_ok, Hy. do 2 f_equal. apply tab_ext. intros i Hi. unfold mv.
      rewrite (sumf_ext N _ (fun _ => 0%Qc)); [rewrite sumf_0; auto|]. intros j Hj. rewrite (empty_csr N N) by (auto; lia). ring.
  Qed.
  Lemma near_matvecTrans (y : buf Qc) : length y = N ->
    (k <- nnz (Anear M) ;; if 0 <? k then csr_matvecTrans false (Anear M) x y else set0 y)
    = Ok (map Some (tab N (mv N (mt (matrix (Anear M))) (vat x)))).
  Proof using W Hx.
    intros Hy. destruct W as [Wn _ _]. rewrite (nnz_ok N N) by auto. cbn [bind]. destruct (Nat.ltb_spec 0 (nth N (c_indptr (Anear M)) 0)) as [|E].
    - apply (csr_trans_kernels_ok N N (Anear M) x Wn Hx). auto.
    - rewrite set0_ok, Hy. do 2 f_equal. apply tab_ext. intros i Hi. unfold mv, mt.
      rewrite (sumf_ext N _ (fun _ => 0%Qc)); [rewrite sumf_0; auto|]. intros j Hj. rewrite (empty_csr N N) by (auto; lia). ring.
  Qed.

  Lemma mv_add (A B : mat) v i : mv N (fun r c => A r c + B r c)%Qc v i = (mv N A v i + mv N B v i)%Qc.
  Proof. unfold mv. rewrite <- sumf_plus. apply sumf_ext. intros; ring. Qed.

  Variables (w w0 : work).
  Hypothesis (Sw : sizedw M w) (Sw0 : sizedw M w0).

  Lemma matvec_core trans : can M trans -> leaf_step M trans x w = Ok w0 ->
    (skips M = true -> components M <= 1 /\ forall s, In s (nodes (tree M)) -> kids s = [] -> up_right N 0 x (w_up w0) s) ->
    (forall y, length y = N -> exists w', (if trans then h2_matvecTrans else h2_matvec) M x y w
        = Ok (map Some (tab N (mv N (if trans then mt (h2mat M) else h2mat M) (vat x))), w') /\ sizedw M w' /\ (w_leaf w' = w_leaf w \/ w_leaf w' = w_leaf w0)) /\
    (forall y, length y = N -> exists w', (if trans then h2_matvecTrans_no_overwrite else h2_matvec_no_overwrite) M x (map Some y) w
        = Ok (map Some (tab N (fun i => vat y i + mv N (if trans then mt (h2mat M) else h2mat M) (vat x) i)%Qc), w') /\ sizedw M w' /\ (w_leaf w' = w_leaf w \/ w_leaf w' = w_leaf w0)).
  Proof using W Hx Sw Sw0.
    intros C E0 Hsk. split; intros y Hy.
    - destruct (far_part_ok N M trans x (tab N (mv N (if trans then mt (matrix (Anear M)) else matrix (Anear M)) (vat x))) w w0 W C Hx (tab_length _ _) E0 Sw Sw0 Hsk) as (w' & E & S').
      exists w'. split; [|auto]. destruct trans.
      + pose proof (near_matvecTrans y Hy) as En. unfold h2_matvecTrans. destruct (nnz (Anear M)) as [k|e]; cbn [bind] in *; [|discriminate].
        rewrite En. cbn [bind]. rewrite E. do 2 f_equal. f_equal. apply tab_ext. intros i Hi. rewrite vat_tab by auto.
        unfold mt at 3, h2mat. rewrite mv_add. auto.
      + pose proof (near_matvec y Hy) as En. unfold h2_matvec. destruct (nnz (Anear M)) as [k|e]; cbn [bind] in *; [|discriminate].
        rewrite En. cbn [bind]. rewrite E. do 2 f_equal. f_equal. apply tab_ext. intros i Hi. rewrite vat_tab by auto.
        unfold h2mat. rewrite mv_add. auto.
    - destruct (far_part_ok N M trans x (tab N (fun i => vat y i + mv N (if trans then mt (matrix (Anear M)) else matrix (Anear M)) (vat x) i)%Qc) w w0 W C Hx (tab_length _ _) E0 Sw Sw0 Hsk) as (w' & E & S').
      exists w'. split; [|auto]. pose proof (wf_near N M W) as Wn. destruct trans.
      + unfold h2_matvecTrans_no_overwrite. rewrite (proj2 (csr_trans_kernels_ok N N (Anear M) x Wn Hx)) by auto.
        cbn [bind]. rewrite E. do 2 f_equal. f_equal. apply tab_ext. intros i Hi. rewrite vat_tab by auto.
        unfold mt at 3, h2mat. rewrite mv_add. unfold mt. ring.
      + unfold h2_matvec_no_overwrite. rewrite (proj1 (proj2 (csr_kernels_ok N N (Anear M) false x Wn Hx))) by auto.
        cbn [bind]. rewrite E. do 2 f_equal. f_equal. apply tab_ext. intros i Hi. rewrite vat_tab by auto.
        unfold h2mat. rewrite mv_add. ring.
  Qed.
End Products.

Lemma matvec_thm : forall N M x w, wf_h2 N M -> basis M = None -> no_taller (tree M) -> length x = N -> ready M w ->
  (forall y, length y = N -> exists w', h2_matvec M x y w = Ok (map Some (tab N (mv N (h2mat M) (vat x))), w') /\ ready M w') /\
  (forall y, length y = N -> exists w', h2_matvec_no_overwrite M x (map Some y) w
      = Ok (map Some (tab N (fun i => vat y i + mv N (h2mat M) (vat x) i)%Qc), w') /\ ready M w').
Proof.
  intros N M x w W Hb Nt Hx (Su & Sd & _).
  destruct (matvec_core N M x W Hx w w (conj Su Sd) (conj Su Sd) false) as (H1 & H2).
  - split; [auto|]. intros; discriminate.
  - unfold leaf_step. rewrite Hb. auto.
  - unfold skips. rewrite Hb. intros; discriminate.
  - unfold ready. rewrite Hb.
    split; intros y Hy; [destruct (H1 y Hy) as (w' & E & (S1 & S2) & _)|destruct (H2 y Hy) as (w' & E & (S1 & S2) & _)]; exists w'; auto.
Qed.

Lemma matvecTrans_thm : forall N M x w, wf_h2 N M -> basis M = None -> no_taller (tree M) ->
  (forall p, In p (far M) -> ksize (inf (p1 p)) <= ksize (inf (p2 p))) -> length x = N -> ready M w ->
  (forall y, length y = N -> exists w', h2_matvecTrans M x y w = Ok (map Some (tab N (mv N (mt (h2mat M)) (vat x))), w') /\ ready M w') /\
  (forall y, length y = N -> exists w', h2_matvecTrans_no_overwrite M x (map Some y) w
      = Ok (map Some (tab N (fun i => vat y i + mv N (mt (h2mat M)) (vat x) i)%Qc), w') /\ ready M w').
Proof.
  intros N M x w W Hb Nt Hp Hx (Su & Sd & _).
  destruct (matvec_core N M x W Hx w w (conj Su Sd) (conj Su Sd) true) as (H1 & H2).
  - split; auto.
  - unfold leaf_step. rewrite Hb. auto.
  - unfold skips. rewrite Hb. intros; discriminate.
  - unfold ready. rewrite Hb.
    split; intros y Hy; [destruct (H1 y Hy) as (w' & E & (S1 & S2) & _)|destruct (H2 y Hy) as (w' & E & (S1 & S2) & _)]; exists w'; auto.
Qed.
