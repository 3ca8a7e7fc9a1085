(** Gauss-Seidel sweeps. *)
From Coq Require Import Sorted.
From Verif Require Import Util Lin SparsitySpec CSRModel CSRSpec CSRProofs TriModel TriSpec TriProofs TriProofs2 TriProofs3
  SmootherModel SmootherSpec SmootherProofs SmootherProofs2.
Set Default Proof Using "Type".

(** * Vector kernels *)
Lemma update_ok x y : length y = length x -> update (map Some x) (map Some y) = Ok (map Some (tab (length x) (fun i => vat x i + vat y i)%Qc)).
Proof.
  intros H. unfold update. rewrite map_length. apply fill_loop; [apply map_length|].
  intros i z Hi Hl E. rewrite (rd_ok _ _ (vat x i)) by (rewrite E; apply map_nth_error, nth_error_vat; auto). cbn [bind].
  rewrite (rd_some _ _ 0%Qc) by lia. reflexivity.
Qed.
Lemma assign3_own_ok z a y b : length y = length z ->
  assign3_own (map Some z) a (map Some y) b = Ok (map Some (tab (length z) (fun i => a * vat z i + b * vat y i)%Qc)).
Proof.
  intros H. unfold assign3_own. rewrite map_length. apply fill_loop; [apply map_length|].
  intros i w Hi Hl E. rewrite (rd_ok _ _ (vat z i)) by (rewrite E; apply map_nth_error, nth_error_vat; auto). cbn [bind].
  rewrite (rd_some _ _ 0%Qc) by lia. reflexivity.
Qed.
Lemma scaleScalar_ok x a : scaleScalar (map Some x) a = Ok (map Some (tab (length x) (fun i => vat x i * a)%Qc)).
Proof.
  unfold scaleScalar. rewrite map_length. apply fill_loop; [apply map_length|].
  intros i w Hi Hl E. rewrite (rd_ok _ _ (vat x i)) by (rewrite E; apply map_nth_error, nth_error_vat; auto). reflexivity.
Qed.

Lemma mv_ext n A x y i : (forall j, j < n -> x j = y j) -> mv n A x i = mv n A y i.
Proof. intros H. unfold mv. apply sumf_ext. intros j Hj. rewrite H by auto. reflexivity. Qed.
Lemma mv_diff1 n A x y i : i < n -> (forall j, j < n -> j <> i -> x j = y j) ->
  (mv n A x i - mv n A y i = A i i * (x i - y i))%Qc.
Proof.
  intros Hi H. unfold mv. rewrite <- sumf_minus. rewrite (sumf_single n _ i); [ring|auto|].
  intros j Hj Hne. rewrite H by auto. ring.
Qed.

(** * Sweeps are determined by their equations; solutions are fixed *)
Lemma gs_sweep_unique f n A b x y z : (forall i, i < n -> A i i <> 0%Qc) -> gs_sweep f n A b x y -> gs_sweep f n A b x z -> y = z.
Proof.
  intros Hd (Ly & Hy) (Lz & Hz).
  assert (E : forall i, i < n ->
     (forall j, j < n -> (if f then j < i else i < j) -> vat y j = vat z j) -> vat y i = vat z i).
  { intros i Hi H. specialize (Hy i Hi). specialize (Hz i Hi).
    assert (M : (mv n A (fun j => if (if f then j <=? i else i <=? j) then vat y j else vat x j) i -
             mv n A (fun j => if (if f then j <=? i else i <=? j) then vat z j else vat x j) i
             = A i i * (vat y i - vat z i))%Qc).
    { rewrite mv_diff1; auto.
      - replace (if f then i <=? i else i <=? i) with true by (rewrite Nat.leb_refl; destruct f; auto). reflexivity.
      - intros j Hj Hne. destruct f.
        + destruct (Nat.leb_spec j i); auto. apply H; auto. lia.
        + destruct (Nat.leb_spec i j); auto. apply H; auto. lia. }
    rewrite Hy, Hz in M. apply (qc_cancel (A i i)); auto.
    assert (A i i * vat y i = (A i i * (vat y i - vat z i)) + A i i * vat z i)%Qc as -> by ring.
    rewrite <- M. ring. }
  apply vec_ext; [congruence|]. rewrite Ly. intros i Hi.
  destruct f.
  - revert Hi. induction i as [i IH] using lt_wf_ind. intros Hi. apply E; auto.
  - remember (n - i) as d eqn:Ed. revert i Hi Ed. induction d as [d IH] using lt_wf_ind. intros i Hi Ed.
    apply E; auto. intros j Hj Hij. apply (IH (n - j)); auto. lia.
Qed.

Lemma gs_sweep_self f n A b x : length x = n -> (forall i, i < n -> mv n A (vat x) i = vat b i) -> gs_sweep f n A b x x.
Proof.
  intros L H. split; auto. intros i Hi. rewrite <- H by auto. apply mv_ext. intros j _.
  destruct (if f then j <=? i else i <=? j); auto.
Qed.

Lemma gs_fixed f n A b : (forall i, i < n -> A i i <> 0%Qc) ->
  forall k x z, steps (gs_sweep f n A b) k x z -> length x = n -> (forall i, i < n -> mv n A (vat x) i = vat b i) -> z = x.
Proof.
  intros Hd k x z H. induction H as [x|k x y z H1 H2 IH]; intros L E; auto.
  assert (y = x) by (apply (gs_sweep_unique f n A b x); auto; apply gs_sweep_self; auto). subst. auto.
Qed.

(** * The loops *)
Lemma for_steps (R : list Qc -> list Qc -> Prop) (P : list Qc -> Prop) (body : buf Qc -> res (buf Qc)) :
  (forall y, P y -> exists y', body (map Some y) = Ok (map Some y') /\ R y y' /\ P y') ->
  forall k i y, P y -> exists z, for_n k i (fun _ => body) (map Some y) = Ok (map Some z) /\ steps R k y z /\ P z.
Proof.
  intros H. induction k as [|k IH]; intros i y Hy; cbn [for_n].
  - exists y. split; auto. split; auto. constructor.
  - destruct (H y Hy) as (y' & E & HR & Hy'). rewrite E. cbn [bind]. destruct (IH (S i) y' Hy') as (z & Ez & Hz & HP).
    exists z. split; auto. split; auto. econstructor; eauto.
Qed.

Section GSCSR.
  Variables (n : nat) (A : csr) (D b : list Qc).
  Hypothesis wf : wf_csr n n A.
  Hypothesis HD : D = tab n (fun i => matrix A i i).
  Hypothesis Hd0 : forall i, i < n -> matrix A i i <> 0%Qc.
  Hypothesis Hb : length b = n.

  Lemma gs_row_ok i y : i < n -> length y = n -> exists v,
    gs_row A D b i (map Some y) = Ok (map Some (upd y i v)) /\
    mv n (matrix A) (vat (upd y i v)) i = vat b i.
  Proof using wf HD Hd0 Hb.
    intros Hi Hy. unfold gs_row. rewrite (aget_nth b i 0%Qc) by lia. cbn [bind]. fold (vat b i).
    destruct wf as [_ wfr].
    rewrite (for_row_list n n _ _ _ wfr i _ (fun p t => v <- rd (map Some y) (fst p) ;; Ok (t - snd p * v)%Qc)) by
      (auto; intros jj j d s _ E1 E2; rewrite (aget_ok _ _ _ E1), (aget_ok _ _ _ E2); reflexivity).
    rewrite (row_sub_loop _ (map Some y) (vat y)).
    2: { intros p Hp. apply map_nth_error, nth_error_vat. rewrite Hy. apply (row_cols n n _ _ _ wfr _ _ Hp). }
    cbn [bind]. rewrite HD, (aget_nth _ _ 0%Qc) by (rewrite tab_length; auto). cbn [bind].
    rewrite nth_tab by auto. rewrite (rd_some _ _ 0%Qc) by lia. cbn [bind]. fold (vat y i).
    rewrite qdiv_ok by auto. cbn [bind]. rewrite wr_some by lia. eexists. split; [reflexivity|].
    rewrite (ent_dot _ n (vat y)) by apply (row_cols n n _ _ _ wfr).
    match goal with |- context[upd y i ?v] => set (w := v) end.
    assert (M := mv_diff1 n (matrix A) (vat (upd y i w)) (vat y) i Hi).
    assert (E : (mv n (matrix A) (vat (upd y i w)) i - mv n (matrix A) (vat y) i = matrix A i i * (vat (upd y i w) i - vat y i))%Qc).
    { apply M. intros j Hj Hne. rewrite vat_upd by lia. apply Nat.eqb_neq in Hne. rewrite Hne. auto. }
    rewrite (vat_upd y i w i) in E by lia. rewrite Nat.eqb_refl in E.
    assert (mv n (matrix A) (vat (upd y i w)) i = mv n (matrix A) (vat y) i + matrix A i i * (w - vat y i))%Qc as ->.
    { rewrite <- E. ring. }
    unfold w. unfold mv, matrix. field. apply Hd0. auto.
  Qed.

  Lemma gs_fwd_ok x : length x = n -> exists y,
    for_range 0 n (gs_row A D b) (map Some x) = Ok (map Some y) /\ gs_sweep true n (matrix A) b x y.
  Proof using wf HD Hd0 Hb.
    intros Hx.
    loop_inv (fun j y => exists z, y = map Some z /\ length z = n /\
      (forall k, j <= k < n -> vat z k = vat x k) /\
      (forall k, k < j -> mv n (matrix A) (fun l => if l <=? k then vat z l else vat x l) k = vat b k)) st E HI.
    3: { intros j y Hj (z & -> & Lz & Hk & Hr).
         destruct (gs_row_ok j z) as (v & Ev & Hv); [lia|auto|]. eexists. split; [exact Ev|].
         exists (upd z j v). split; auto. split; [rewrite upd_length; auto|]. split.
         - intros k Hk'. rewrite vat_upd by lia. destruct (Nat.eqb_spec k j); [lia|]. apply Hk. lia.
         - intros k Hk'. destruct (Nat.eq_dec k j) as [->|Hne].
           + rewrite <- Hv. apply mv_ext. intros l Hl. destruct (Nat.leb_spec l j); auto.
             rewrite vat_upd by lia. destruct (Nat.eqb_spec l j); [lia|]. symmetry. apply Hk. lia.
           + rewrite <- (Hr k) by lia. apply mv_ext. intros l Hl. destruct (Nat.leb_spec l k); auto.
             rewrite vat_upd by lia. destruct (Nat.eqb_spec l j); [lia|]. auto. }
    - lia.
    - exists x. split; auto. split; auto. split; auto. intros; lia.
    - destruct HI as (z & -> & Lz & _ & Hr). exists z. split; auto. split; auto.
  Qed.

  Lemma gs_bwd_ok x : length x = n -> exists y,
    for_back n (gs_row A D b) (map Some x) = Ok (map Some y) /\ gs_sweep false n (matrix A) b x y.
  Proof using wf HD Hd0 Hb.
    intros Hx.
    destruct (for_back_inv (fun j y => exists z, y = map Some z /\ length z = n /\
      (forall k, k < j -> vat z k = vat x k) /\
      (forall k, j <= k < n -> mv n (matrix A) (fun l => if k <=? l then vat z l else vat x l) k = vat b k))
      (gs_row A D b) n (map Some x)) as (st & E & HI).
    - exists x. split; auto. split; auto. split; auto. intros; lia.
    - intros j y Hj (z & -> & Lz & Hk & Hr).
      destruct (gs_row_ok j z) as (v & Ev & Hv); [lia|auto|]. eexists. split; [exact Ev|].
      exists (upd z j v). split; auto. split; [rewrite upd_length; auto|]. split.
      + intros k Hk'. rewrite vat_upd by lia. destruct (Nat.eqb_spec k j); [lia|]. apply Hk. lia.
      + intros k Hk'. destruct (Nat.eq_dec k j) as [->|Hne].
        * rewrite <- Hv. apply mv_ext. intros l Hl. destruct (Nat.leb_spec j l); auto.
          rewrite vat_upd by lia. destruct (Nat.eqb_spec l j); [lia|]. symmetry. apply Hk. lia.
        * rewrite <- (Hr k) by lia. apply mv_ext. intros l Hl. destruct (Nat.leb_spec k l); auto.
          rewrite vat_upd by lia. destruct (Nat.eqb_spec l j); [lia|]. auto.
    - destruct HI as (z & -> & Lz & _ & Hr). exists z. split; auto. split; auto. intros i Hi. apply Hr. lia.
  Qed.

  Lemma gs_csr_ok y preS postS pre post p : length y = n -> exists G z,
    gs_init (OpCSR A) D preS postS pre post = Ok G /\ gs_eval G b y p = Ok z /\
    steps (gs_sweep (if p then post else pre) n (matrix A) b) (if p then postS else preS) y z.
  Proof using wf HD Hd0 Hb.
    intros Hy. eexists.
    assert (HH : forall s : bool, forall y, length y = n -> exists y',
      (if s then for_range 0 (c_nrows A) else for_back (c_nrows A)) (gs_row A D b) (map Some y) = Ok (map Some y') /\
      gs_sweep s n (matrix A) b y y' /\ length y' = n).
    { intros s x Hx. rewrite (csr_nrows n n A wf). destruct s.
      - destruct (gs_fwd_ok x Hx) as (y' & E & H). exists y'. split; auto. split; auto. apply H.
      - destruct (gs_bwd_ok x Hx) as (y' & E & H). exists y'. split; auto. split; auto. apply H. }
    destruct (for_steps _ (fun y => length y = n)
      (fun y => (if (if p then post else pre) then for_range 0 (c_nrows A) else for_back (c_nrows A)) (gs_row A D b) y)
      (HH (if p then post else pre)) (if p then postS else preS) 0 y Hy) as (z & E & Hz & _).
    exists z. split; [reflexivity|]. split; auto.
    unfold gs_eval. cbn [gs_A gs_postSteps gs_preSteps gs_post gs_pre gs_D]. unfold for_range at 1. rewrite Nat.sub_0_r.
    rewrite E. cbn [bind]. apply all_init_some.
  Qed.
End GSCSR.

(** * TimeStepper operators *)
Section GSTS.
  Variables (n : nat) (T : tstep).
  Hypothesis wfS : wf_csr n n (ts_S T).
  Hypothesis wfM : wf_csr n n (ts_M T).
  Notation TM := (mlin (ts_facS T) (matrix (ts_S T)) (ts_facM T) (matrix (ts_M T))).

  Lemma mv_mlin a A b B x i : mv n (mlin a A b B) x i = (a * mv n A x i + b * mv n B x i)%Qc.
  Proof. unfold mv, mlin. rewrite <- !sumf_scal, <- sumf_plus. apply sumf_ext. intros. ring. Qed.

  Lemma qc_eqb a b : Qc_eq_bool a b = true <-> a = b.
  Proof. split; [apply Qc_eq_bool_correct|]. intros ->. unfold Qc_eq_bool. destruct (Qc_eq_dec b b); congruence. Qed.

  Lemma ts_matvec_ok x y : length x = n -> length y = n ->
    ts_matvec T x y = Ok (map Some (tab n (mv n TM (vat x)))).
  Proof using wfS wfM.
    intros Hx Hy. unfold ts_matvec, csr_matvec, csr_matvec_no_overwrite.
    assert (Z : length (alloc (A := Qc) (c_nrows (ts_M T))) = n) by (unfold alloc; rewrite repeat_length; apply (csr_nrows n n _ wfM)).
    destruct (Qc_eq_bool (ts_facS T) 0) eqn:E0.
    - apply qc_eqb in E0. rewrite (spmv_ok n n _ wfM) by auto. cbn [bind].
      destruct (Qc_eq_bool (ts_facM T) 1) eqn:E1.
      + apply qc_eqb in E1. do 2 f_equal. apply tab_ext. intros i Hi. rewrite mv_mlin, E0, E1. ring.
      + rewrite scaleScalar_ok, tab_length. do 2 f_equal. apply tab_ext. intros i Hi. rewrite vat_tab by auto. rewrite mv_mlin, E0. ring.
    - rewrite (spmv_ok n n _ wfS) by auto. cbn [bind].
      assert (E1 : (if Qc_eq_bool (ts_facS T) 1 then Ok (map Some (tab n (mv n (matrix (ts_S T)) (vat x))))
         else scaleScalar (map Some (tab n (mv n (matrix (ts_S T)) (vat x)))) (ts_facS T)) =
         Ok (map Some (tab n (fun i => ts_facS T * mv n (matrix (ts_S T)) (vat x) i)%Qc))).
      { destruct (Qc_eq_bool (ts_facS T) 1) eqn:E1.
        - apply qc_eqb in E1. do 2 f_equal. apply tab_ext. intros i Hi. rewrite E1. ring.
        - rewrite scaleScalar_ok, tab_length. do 2 f_equal. apply tab_ext. intros i Hi. rewrite vat_tab by auto. ring. }
      rewrite E1. cbn [bind]. destruct (Qc_eq_bool (ts_facM T) 1) eqn:E2.
      + apply qc_eqb in E2. rewrite (spmv_add_ok n n _ wfM) by (auto; apply tab_length). do 2 f_equal. apply tab_ext.
        intros i Hi. rewrite vat_tab by auto. rewrite mv_mlin, E2. ring.
      + rewrite (spmv_ok n n _ wfM) by auto. cbn [bind]. rewrite assign3_own_ok by (rewrite !tab_length; auto). rewrite tab_length.
        do 2 f_equal. apply tab_ext. intros i Hi. rewrite !vat_tab by auto. rewrite mv_mlin. ring.
  Qed.

  Lemma ts_residual_ok x b y : length x = n -> length b = n -> length y = n ->
    ts_residual T x b y false = Ok (map Some (resid n TM b x)).
  Proof using wfS wfM.
    intros Hx Hb Hy. unfold ts_residual. rewrite ts_matvec_ok by auto. cbn [bind].
    rewrite assign3_own_ok by (rewrite tab_length; auto). rewrite tab_length. do 2 f_equal.
    apply tab_ext. intros i Hi. rewrite vat_tab by auto. ring.
  Qed.

  Variables (D b : list Qc).
  Hypothesis HD : D = tab n (fun i => TM i i).
  Hypothesis Hd0 : forall i, i < n -> TM i i <> 0%Qc.
  Hypothesis Hb : length b = n.
  Hypothesis Eip : c_indptr (ts_M T) = c_indptr (ts_S T).
  Hypothesis Eind : c_indices (ts_M T) = c_indices (ts_S T).
  Hypothesis Hs : sorted_csr n (ts_S T).

  Lemma split_sweep f x r : length x = n ->
    the_solution n (split_of f TM D 1) (resid n TM b x) r ->
    gs_sweep f n TM b x (tab n (fun i => vat x i + vat r i)%Qc).
  Proof using HD.
    clear - HD. intros Hx Hr. split; [apply tab_length|]. intros i Hi.
    assert (E : mv n (split_of f TM D 1) (vat r) i = (vat b i - mv n TM (vat x) i)%Qc).
    { transitivity (vat (resid n TM b x) i); [apply (proj2 (Hr r)); auto|]. unfold resid. rewrite vat_tab by auto. reflexivity. }
    assert (F : mv n (split_of f TM D 1) (vat r) i = mv n TM (fun j => if (if f then j <=? i else i <=? j) then vat r j else 0%Qc) i).
    { unfold mv. apply sumf_ext. intros j Hj. subst D. destruct f; cbn [split_of].
      - unfold lower_split. destruct (Nat.ltb_spec j i), (Nat.eqb_spec j i), (Nat.leb_spec j i); try lia; subst; try ring.
        rewrite vat_tab by auto. field. exact qc_1_0.
      - unfold upper_split. destruct (Nat.ltb_spec i j), (Nat.eqb_spec j i), (Nat.leb_spec i j); try lia; subst; try ring.
        rewrite vat_tab by auto. field. exact qc_1_0. }
    transitivity (mv n TM (vat x) i + mv n TM (fun j => if (if f then j <=? i else i <=? j) then vat r j else 0%Qc) i)%Qc.
    - unfold mv. rewrite <- sumf_plus. apply sumf_ext. intros j Hj. rewrite vat_tab by auto.
      destruct (if f then j <=? i else i <=? j); ring.
    - rewrite <- F, E. ring.
  Qed.

  Lemma gs_ts_ok y preS postS pre post p : length y = n -> exists G z,
    gs_init (OpTS T) D preS postS pre post = Ok G /\ gs_eval G b y p = Ok z /\
    steps (gs_sweep (if (if p then post else pre) then post else pre) n TM b) (if p then postS else preS) y z.
  Proof using All.
    intros Hy.
    assert (Einit : sor_init (OpTS T) D 1 pre post = Ok (SOR (OpTS T) D None 1 pre post false)).
    { unfold sor_init. rewrite (csr_nrows n n _ wfM), (csr_nrows n n _ wfS), Eip, Nat.eqb_refl. reflexivity. }
    unfold gs_init. rewrite Einit. cbn [bind]. eexists.
    set (P := SOR (OpTS T) D None 1 pre post false).
    assert (HDn : length D = n) by (rewrite HD; apply tab_length).
    assert (LA : length (alloc (A := Qc) (length D)) = n) by (unfold alloc; rewrite repeat_length; auto).
    assert (HH : forall s : bool, forall y, length y = n -> exists y',
      (fun y => yl <- all_init y ;;
             t <- op_residual (OpTS T) yl b (alloc (length D)) false ;;
             tl <- all_init t ;;
             P <- Ok P ;;
             let P := if s then sor_setPost P else sor_setPre P in
             t2 <- sor_matvec P tl (alloc (length D)) ;;
             update y t2) (map Some y) = Ok (map Some y') /\
      gs_sweep (if s then post else pre) n TM b y y' /\ length y' = n).
    { intros s x Hx. cbn beta. rewrite all_init_some. cbn [bind op_residual]. rewrite ts_residual_ok by auto. cbn [bind].
      rewrite all_init_some. cbn [bind].
      assert (EP : (if s then sor_setPost P else sor_setPre P) = SOR (OpTS T) D None 1 pre post (if s then post else pre)) by (destruct s; reflexivity).
      cbv zeta. rewrite EP.
      destruct (sor_ts_ok n D 1 HDn ltac:(intros i Hi; rewrite HD, vat_tab by auto; auto) qc_1_0 T (resid n TM b x) (alloc (length D)) pre post (if s then post else pre))
        as (r & Er & Hr); auto; [apply tab_length|].
      rewrite Er. cbn [bind]. assert (Lr : length r = n) by (apply (Hr r); auto).
      rewrite update_ok by lia. rewrite Hx. eexists. split; [reflexivity|]. split; [|apply tab_length].
      apply split_sweep; auto. }
    destruct (for_steps _ (fun y => length y = n) _ (HH (if p then post else pre)) (if p then postS else preS) 0 y Hy) as (z & E & Hz & _).
    exists z. split; [reflexivity|]. split.
    - unfold gs_eval. cbn [gs_A gs_postSteps gs_preSteps gs_post gs_pre gs_D gs_prec]. unfold for_range. rewrite Nat.sub_0_r.
      fold P. etransitivity; [exact (f_equal (fun r => bind r (fun x => all_init x)) E)|]. cbn [bind]. apply all_init_some.
    - exact Hz.
  Qed.
End GSTS.
