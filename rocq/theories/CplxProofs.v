From Verif Require Import Util Lin CSRModel CSRSpec CSRProofs OpsProofs DenseModel SmootherModel CompModel CompSpec CompProofs CompProofs10 CplxModel CplxSpec.

Lemma cplx_eq (a b : cplx) : fst a = fst b -> snd a = snd b -> a = b.
Proof. destruct a, b; cbn; congruence. Qed.
Lemma csumf_parts n f : csumf n f = (sumf n (fun i => fst (f i)), sumf n (fun i => snd (f i))).
Proof. induction n as [|n IH]; cbn [csumf sumf]; [reflexivity|]. rewrite IH. reflexivity. Qed.
Lemma real_product m A x i : cmv m (real_mat A) x i = (mv m A (fun j => fst (x j)) i, mv m A (fun j => snd (x j)) i).
Proof.
  unfold cmv. rewrite csumf_parts. unfold mv. apply cplx_eq; cbn [fst snd]; apply sumf_ext; intros j _; unfold real_mat, cmult, of_real; cbn [fst snd]; ring.
Qed.
Lemma shifted_product m A B s x i : cmv m (shifted A B s) x i = cplus (cmv m (real_mat A) x i) (cmult s (cmv m (real_mat B) x i)).
Proof.
  rewrite !real_product. unfold cmv. rewrite csumf_parts. unfold mv. apply cplx_eq; unfold shifted, cplus, cmult, of_real; cbn [fst snd].
  - unfold Qcminus. rewrite <- !sumf_scal, <- sumf_opp, <- !sumf_plus. apply sumf_ext. intros j _. ring.
  - rewrite <- !sumf_scal, <- !sumf_plus. apply sumf_ext. intros j _. ring.
Qed.
Lemma cvat_vat (part : cplx -> Qc) x j : part (of_real 0%Qc) = 0%Qc -> vat (map part x) j = part (cvat x j).
Proof. intros H. unfold vat, cvat. etransitivity; [|apply (map_nth part)]. f_equal. symmetry. exact H. Qed.

Lemma row_product_loop (row : list (nat * Qc)) (x : list cplx) : forall t,
  (forall p, In p row -> fst p < length x) ->
  for_list row (fun p t => xj <- aget x (fst p) ;; Ok (cplus t (cmult (of_real (snd p)) xj))) t
  = Ok (fst t + suml (map (fun p => snd p * vat (map fst x) (fst p)) row), snd t + suml (map (fun p => snd p * vat (map snd x) (fst p)) row))%Qc.
Proof.
  induction row as [|p row IH]; intros t H; cbn [for_list map suml].
  - apply (f_equal (@Ok cplx)). apply cplx_eq; cbn [fst snd]; ring.
  - rewrite (aget_nth _ _ (of_real 0%Qc)) by (apply H; left; auto). cbn [bind]. rewrite IH by (intros q Hq; apply H; right; auto).
    apply (f_equal (@Ok cplx)). rewrite (cvat_vat fst x) by reflexivity. rewrite (cvat_vat snd x) by reflexivity. unfold cvat, cplus, cmult, of_real. apply cplx_eq; cbn [fst snd]; ring.
Qed.
Lemma row_product_ok n m A x i : wf_csr n m A -> length x = m -> i < n -> row_product A x i = Ok (cmv m (real_mat (matrix A)) (cvat x) i).
Proof.
  intros wf Hx Hi. unfold row_product. pose proof (proj2 wf) as wfr.
  rewrite (for_row_list n m _ _ _ wfr i _ (fun p t => xj <- aget x (fst p) ;; Ok (cplus t (cmult (of_real (snd p)) xj)))) by
    (auto; intros jj j d s _ E1 E2; rewrite (aget_ok _ _ _ E1), (aget_ok _ _ _ E2); reflexivity).
  rewrite row_product_loop by (intros p Hp; rewrite Hx; apply (row_cols n m _ _ _ wfr _ _ Hp)).
  rewrite (ent_dot _ m (vat (map fst x))) by apply (row_cols n m _ _ _ wfr). rewrite (ent_dot _ m (vat (map snd x))) by apply (row_cols n m _ _ _ wfr).
  apply (f_equal (@Ok cplx)). rewrite real_product. unfold mv, matrix. apply cplx_eq; cbn [fst snd of_real].
  - etransitivity; [apply Qcplus_0_l|]. apply sumf_ext. intros j _. now rewrite (cvat_vat fst x).
  - etransitivity; [apply Qcplus_0_l|]. apply sumf_ext. intros j _. now rewrite (cvat_vat snd x).
Qed.
Lemma wrapCSR_ok n m A x y : wf_csr n m A -> length x = m -> length y = n ->
  wrapCSR_matvec A x y = Ok (map Some (tab n (cmv m (real_mat (matrix A)) (cvat x)))).
Proof.
  intros wf Hx Hy. unfold wrapCSR_matvec. rewrite (csr_nrows n m A wf). apply fill_loop; [exact Hy|].
  intros i y0 Hi Hl _. rewrite (row_product_ok n m A x i wf Hx Hi). reflexivity.
Qed.

Lemma setShift_ok n S M s0 d0 s : wf_csr n n S -> wf_csr n n M -> nodup_csr n S -> nodup_csr n M -> length d0 = n ->
  setShift (Helmholtz S M s0 d0) s = Ok (Helmholtz S M s (map Some (tab n (fun i => shifted (matrix S) (matrix M) s i i)))).
Proof.
  intros wS wM nS nM Hd. unfold setShift. cbn [h_S h_M h_diagonal]. rewrite (csr_get_diagonal_ok n n S wS nS). cbn [bind]. rewrite (csr_get_diagonal_ok n n M wM nM). cbn [bind].
  rewrite (csr_nrows n n S wS).
  erewrite (fill_loop n _ d0 (fun i => shifted (matrix S) (matrix M) s i i)); [reflexivity|exact Hd|].
  intros i y Hi Hl _. rewrite (aget_nth _ _ 0%Qc) by (rewrite tab_length; auto). cbn [bind]. rewrite (aget_nth _ _ 0%Qc) by (rewrite tab_length; auto). cbn [bind].
  rewrite !nth_tab by auto. reflexivity.
Qed.
Lemma helmholtz_ok n m S M s d x y : wf_csr n m S -> wf_csr n m M -> length x = m -> length y = n ->
  helmholtz_matvec (Helmholtz S M s d) x y = Ok (map Some (tab n (cmv m (shifted (matrix S) (matrix M) s) (cvat x)))).
Proof.
  intros wS wM Hx Hy. unfold helmholtz_matvec. cbn [h_S h_M h_shift]. change (for_range 0 (c_nrows S) _ y) with (wrapCSR_matvec S x y).
  rewrite (wrapCSR_ok n m S x y wS Hx Hy). cbn [bind]. rewrite (csr_nrows n m S wS). apply fill_loop; [rewrite map_length, tab_length; auto|].
  intros i y0 Hi Hl E. rewrite (row_product_ok n m M x i wM Hx Hi). cbn [bind].
  rewrite (rd_ok _ _ (cmv m (real_mat (matrix S)) (cvat x) i)) by (rewrite E; erewrite map_nth_error; [reflexivity|apply nth_error_tab; auto]).
  cbn [bind]. rewrite <- shifted_product. reflexivity.
Qed.
Lemma split_ok n m A1 A2 x y : wf_csr n m A1 -> wf_csr n m A2 -> length x = m -> length y = n ->
  split_matvec A1 A2 x y = Ok (map Some (tab n (mv m (fun i j => matrix A1 i j + matrix A2 i j)%Qc (vat x)))).
Proof.
  intros w1 w2 Hx Hy. unfold split_matvec. destruct (csr_kernels_ok n m A1 false x w1 Hx) as (K1 & _). destruct (csr_kernels_ok n m A2 false x w2 Hx) as (_ & K2 & _).
  rewrite K1 by auto. cbn [bind]. rewrite K2 by apply tab_length. f_equal. f_equal. apply tab_ext. intros i Hi. rewrite vat_tab by auto.
  unfold mv. rewrite <- sumf_plus. apply sumf_ext. intros j _. ring.
Qed.
