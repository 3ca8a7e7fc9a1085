From Coq Require Import Sorted Qcabs.
From Verif Require Import Util Lin SparsitySpec CSRModel CSRSpec.

(** * Loops over rows as loops over lists *)
Lemma for_n_list {A S} (L : list A) (f : nat -> S -> res S) (g : A -> S -> res S) : forall n lo s,
  lo + n <= length L ->
  (forall jj x s, lo <= jj < lo + n -> nth_error L jj = Some x -> f jj s = g x s) ->
  for_n n lo f s = for_list (firstn n (skipn lo L)) g s.
Proof.
  induction n as [|n IH]; intros lo s Hl H; [reflexivity|].
  destruct (nth_error_lt L lo) as (x & Ex); [lia|].
  destruct (cut_at _ _ _ Ex) as (_ & -> & _). cbn [for_n firstn for_list].
  rewrite (H lo x) by (auto; lia). destruct (g x s) as [s'|e]; cbn [bind]; auto.
  apply IH; [lia|]. intros jj y s0 Hjj. apply H; lia.
Qed.

Lemma for_range_list {A S} (L : list A) (f : nat -> S -> res S) (g : A -> S -> res S) lo hi s :
  hi <= length L ->
  (forall jj x s, lo <= jj < hi -> nth_error L jj = Some x -> f jj s = g x s) ->
  for_range lo hi f s = for_list (slice L lo hi) g s.
Proof.
  intros Hl H. unfold for_range, slice. destruct (Nat.le_gt_cases lo hi).
  - apply for_n_list; [lia|]. intros jj x s0 Hjj. apply H; lia.
  - replace (hi - lo) with 0 by lia. reflexivity.
Qed.

Lemma for_n_ext {S} (f g : nat -> S -> res S) n : forall i s,
  (forall k s, i <= k < i + n -> f k s = g k s) -> for_n n i f s = for_n n i g s.
Proof.
  induction n as [|n IH]; intros i s H; [reflexivity|]. cbn [for_n]. rewrite H by lia.
  destruct (g i s); cbn [bind]; auto. apply IH. intros; apply H; lia.
Qed.
Lemma for_range_ext {S} (f g : nat -> S -> res S) lo hi s :
  (forall k s, lo <= k < hi -> f k s = g k s) -> for_range lo hi f s = for_range lo hi g s.
Proof. intros H. apply for_n_ext. intros; apply H; lia. Qed.

Lemma for_list_ext {A S} (l : list A) (f g : A -> S -> res S) : forall s,
  (forall x s, In x l -> f x s = g x s) -> for_list l f s = for_list l g s.
Proof.
  induction l as [|x l IH]; intros s H; [reflexivity|]. cbn [for_list]. rewrite H by (left; auto).
  destruct (g x s); cbn [bind]; auto. apply IH. intros; apply H; right; auto.
Qed.

Lemma for_list_pure {A S} (l : list A) (g : A -> S -> S) : forall s,
  for_list l (fun x s => Ok (g x s)) s = Ok (fold_left (fun s x => g x s) l s).
Proof. induction l as [|x l IH]; intros s; [reflexivity|]. cbn [for_list bind fold_left]. apply IH. Qed.

Section Wf.
  Variables (n m : nat) (ip ind : list nat) (dat : list Qc).
  Hypothesis wf : wf_rows n m ip ind dat.

  Lemma wf_ip i : i <= n -> aget ip i = Ok (nth i ip 0).
  Proof using wf. intros H. apply aget_nth. destruct wf as (-> & _). lia. Qed.

  Lemma wf_mono i : forall j, i <= j -> j <= n -> nth i ip 0 <= nth j ip 0.
  Proof using wf.
    destruct wf as (_ & Hm & _). induction 1 as [|j Hj IH]; intros Hn; auto.
    specialize (Hm j ltac:(lia)). specialize (IH ltac:(lia)). lia.
  Qed.

  Lemma combine_len : length (combine ind dat) = length ind.
  Proof using wf. destruct wf as (_ & _ & _ & Hd & _). rewrite combine_length. lia. Qed.

  Lemma wf_hi i : i < n -> nth (S i) ip 0 <= length (combine ind dat).
  Proof using wf.
    intros H. rewrite combine_len. destruct wf as (_ & _ & Hl & _).
    pose proof (wf_mono (S i) n ltac:(lia) ltac:(lia)). lia.
  Qed.

  Lemma nth_error_combine jj j d : nth_error (combine ind dat) jj = Some (j, d) ->
    nth_error ind jj = Some j /\ nth_error dat jj = Some d.
  Proof using Type.
    clear wf. revert dat jj; induction ind as [|a l IH]; intros [|b dat'] [|jj]; cbn; intros E; try discriminate.
    - inversion E; auto.
    - auto.
  Qed.

  Lemma for_row_list {S} i (f : nat -> S -> res S) (g : nat * Qc -> S -> res S) s :
    i < n ->
    (forall jj j d s, nth i ip 0 <= jj < nth (Datatypes.S i) ip 0 ->
       nth_error ind jj = Some j -> nth_error dat jj = Some d -> f jj s = g (j, d) s) ->
    for_row ip i f s = for_list (rowlist ip ind dat i) g s.
  Proof using wf.
    intros Hi H. unfold for_row. rewrite wf_ip by lia. cbn [bind]. rewrite wf_ip by lia. cbn [bind].
    rewrite Nat.add_1_r. apply for_range_list; [apply wf_hi; auto|].
    intros jj [j d] s0 Hjj E. apply nth_error_combine in E as [E1 E2]. apply H; auto.
  Qed.

  Lemma row_cols i p : In p (rowlist ip ind dat i) -> fst p < m.
  Proof using wf.
    intros H. unfold rowlist, slice in H.
    assert (Hin : In p (combine ind dat)).
    { rewrite <- (firstn_skipn (nth i ip 0) (combine ind dat)). apply in_or_app; right.
      rewrite <- (firstn_skipn (nth (S i) ip 0 - nth i ip 0)). apply in_or_app; left. auto. }
    destruct p as [j d]. apply in_combine_l in Hin. destruct wf as (_ & _ & _ & _ & Hj). auto.
  Qed.

  Lemma rowlist_length i : i < n -> length (rowlist ip ind dat i) = nth (S i) ip 0 - nth i ip 0.
  Proof using wf.
    intros Hi. unfold rowlist, slice. rewrite firstn_length, skipn_length.
    pose proof (wf_hi i Hi). lia.
  Qed.

  Lemma rowlist_nth i k : i < n -> k < nth (S i) ip 0 - nth i ip 0 ->
    nth_error (rowlist ip ind dat i) k = Some (nth (nth i ip 0 + k) ind 0, nth (nth i ip 0 + k) dat 0%Qc).
  Proof using wf.
    intros Hi Hk. unfold rowlist, slice.
    assert (Hlt : nth i ip 0 + k < length (combine ind dat)) by (pose proof (wf_hi i Hi); lia).
    assert (forall (A : Type) (l : list A) a b c, c < b -> nth_error (firstn b (skipn a l)) c = nth_error l (a + c)) as HH.
    { intros A l a b c Hc. rewrite <- (firstn_skipn a l) at 2.
      destruct (Nat.le_gt_cases a (length l)).
      - rewrite nth_error_app2 by (rewrite firstn_length; lia). rewrite firstn_length.
        replace (a + c - Nat.min a (length l)) with c by lia.
        rewrite <- (firstn_skipn b (skipn a l)) at 2.
        destruct (Nat.lt_ge_cases c (length (firstn b (skipn a l)))).
        + rewrite nth_error_app1 by auto. reflexivity.
        + rewrite firstn_length in H0.
          rewrite nth_error_app2 by (rewrite firstn_length; lia).
          assert (nth_error (firstn b (skipn a l)) c = None) as -> by (apply nth_error_None; rewrite firstn_length; lia).
          symmetry. apply nth_error_None. rewrite skipn_length, firstn_length. lia.
      - rewrite (skipn_all2 l) by lia. rewrite firstn_nil. symmetry.
        rewrite app_nil_r. destruct c; cbn; apply nth_error_None; rewrite firstn_length; lia. }
    rewrite HH by auto. destruct (nth_error_lt _ _ Hlt) as ([j d] & E). rewrite E.
    apply nth_error_combine in E as [E1 E2]. erewrite !nth_error_nth by eauto. reflexivity.
  Qed.
End Wf.

(** * Entries and sums *)
Section Ent.
  Local Open Scope Qc_scope.

  Lemma ent_nil j : ent [] j = 0.
  Proof. reflexivity. Qed.

  Lemma ent_cons p row j : ent (p :: row) j = (if (fst p =? j)%nat then snd p else 0) + ent row j.
  Proof. unfold ent. cbn [filter]. destruct (fst p =? j)%nat; cbn [map suml]; ring. Qed.

  Lemma ent_app a b j : ent (a ++ b) j = ent a j + ent b j.
  Proof. induction a as [|p a IH]; cbn [app]; rewrite ?ent_nil, ?ent_cons; [ring|]. rewrite IH. ring. Qed.

  Lemma ent_absent row j : (forall p, In p row -> fst p <> j) -> ent row j = 0.
  Proof.
    induction row as [|p row IH]; intros H; [reflexivity|]. rewrite ent_cons, IH.
    - specialize (H p (or_introl eq_refl)). apply Nat.eqb_neq in H. rewrite H. ring.
    - intros q Hq; apply H; right; auto.
  Qed.

  Lemma ent_dot row m f : (forall p, In p row -> (fst p < m)%nat) ->
    suml (map (fun p => snd p * f (fst p)) row) = sumf m (fun j => ent row j * f j).
  Proof.
    induction row as [|p row IH]; intros H; cbn [map suml].
    - rewrite sumf_zero; auto. intros; rewrite ent_nil; ring.
    - rewrite IH by (intros q Hq; apply H; right; auto).
      rewrite (sumf_ext m (fun j => ent (p :: row) j * f j)
        (fun j => (if (j =? fst p)%nat then snd p * f j else 0) + ent row j * f j)).
      + rewrite sumf_plus, (sumf_delta m (fun j => snd p * f j)); auto. apply H; left; auto.
      + intros j _. rewrite ent_cons, Nat.eqb_sym. destruct (j =? fst p)%nat; ring.
  Qed.

  (** permutations and duplicates *)
  Lemma ent_nodup row j d : NoDup (map fst row) -> In (j, d) row -> ent row j = d.
  Proof.
    induction row as [|p row IH]; intros Hn Hin; [destruct Hin|]. cbn [map] in Hn. inversion Hn as [|? ? H1 H2]; subst.
    rewrite ent_cons. destruct Hin as [->|Hin].
    - cbn [fst snd] in *. rewrite Nat.eqb_refl, ent_absent; [ring|].
      intros q Hq E. apply H1. rewrite <- E. apply in_map; auto.
    - rewrite IH by auto. destruct (Nat.eqb_spec (fst p) j) as [E|]; [|ring].
      exfalso. apply H1. rewrite E. change j with (fst (j, d)). apply in_map; auto.
  Qed.
End Ent.

(** * Row kernels *)
Lemma row_dot_loop (row : list (nat * Qc)) (x : list Qc) : forall t,
  (forall p, In p row -> fst p < length x) ->
  for_list row (fun p t => xj <- aget x (fst p) ;; Ok (t + snd p * xj)%Qc) t
  = Ok (t + suml (map (fun p => snd p * vat x (fst p)) row))%Qc.
Proof.
  induction row as [|p row IH]; intros t H; cbn [for_list map suml].
  - f_equal. ring.
  - rewrite (aget_nth _ _ 0%Qc) by (apply H; left; auto). cbn [bind]. rewrite IH by (intros q Hq; apply H; right; auto).
    f_equal. unfold vat. ring.
Qed.

Lemma row_res_loop (row : list (nat * Qc)) (x : list Qc) : forall t,
  (forall p, In p row -> fst p < length x) ->
  for_list row (fun p t => xj <- aget x (fst p) ;; Ok (t - snd p * xj)%Qc) t
  = Ok (t - suml (map (fun p => snd p * vat x (fst p)) row))%Qc.
Proof.
  induction row as [|p row IH]; intros t H; cbn [for_list map suml].
  - f_equal. ring.
  - rewrite (aget_nth _ _ 0%Qc) by (apply H; left; auto). cbn [bind]. rewrite IH by (intros q Hq; apply H; right; auto).
    f_equal. unfold vat. ring.
Qed.

Lemma row_scatter_loop (row : list (nat * Qc)) (t : Qc) : forall yl,
  (forall p, In p row -> fst p < length yl) ->
  exists yl', for_list row (fun p y => addto y (fst p) (snd p * t)%Qc) (map Some yl) = Ok (map Some yl') /\
    length yl' = length yl /\ forall k, vat yl' k = (vat yl k + ent row k * t)%Qc.
Proof.
  induction row as [|p row IH]; intros yl H; cbn [for_list].
  - exists yl. split; [reflexivity|]. split; [reflexivity|]. intros k. rewrite ent_nil. ring.
  - assert (Hp : fst p < length yl) by (apply H; left; auto).
    rewrite addto_ok by auto. cbn [bind].
    destruct (IH (upd yl (fst p) (vat yl (fst p) + snd p * t)%Qc)) as (yl' & E & Hl & Hv).
    { intros q Hq. rewrite upd_length. apply H; right; auto. }
    rewrite E. exists yl'. split; [reflexivity|]. rewrite upd_length in Hl. split; [auto|].
    intros k. rewrite Hv, vat_upd, ent_cons by auto. rewrite (Nat.eqb_sym (fst p) k).
    destruct (Nat.eqb_spec k (fst p)) as [->|]; ring.
Qed.

Lemma zero_loop (y : buf Qc) : for_range 0 (length y) (fun i y => wr y i 0%Qc) y = Ok (map Some (tab (length y) (fun _ => 0%Qc))).
Proof. apply fill_loop; auto. Qed.

(** * spmv *)
Section Kernels.
  Variables (n m : nat) (A : csr).
  Hypothesis wf : wf_csr n m A.

  Lemma csr_nrows : c_nrows A = n.
  Proof using wf. destruct wf as [_ (H & _)]. unfold c_nrows. lia. Qed.

  Let wfr : wf_rows n m (c_indptr A) (c_indices A) (c_data A) := proj2 wf.

  Lemma row_value x i : i < n -> length x = m ->
    for_row (c_indptr A) i (fun jj temp =>
       j <- aget (c_indices A) jj ;; d <- aget (c_data A) jj ;; xj <- aget x j ;; Ok (temp + d * xj)%Qc) 0%Qc
    = Ok (mv m (matrix A) (vat x) i).
  Proof using wf.
    intros Hi Hx.
    rewrite (for_row_list n m _ _ _ wfr i _ (fun p t => xj <- aget x (fst p) ;; Ok (t + snd p * xj)%Qc)) by
      (auto; intros jj j d s _ E1 E2; rewrite (aget_ok _ _ _ E1), (aget_ok _ _ _ E2); reflexivity).
    rewrite row_dot_loop.
    - rewrite (ent_dot _ m (vat x)) by apply (row_cols n m _ _ _ wfr). f_equal. unfold mv, matrix. ring.
    - intros p Hp. rewrite Hx. apply (row_cols n m _ _ _ wfr _ _ Hp).
  Qed.

  Lemma spmv_ok c x y : length x = m -> length y = n ->
    spmv c A x y true false = Ok (map Some (tab n (mv m (matrix A) (vat x)))).
  Proof using wf.
    intros Hx Hy. unfold spmv. replace (c || negb false) with true by (destruct c; reflexivity). cbn iota.
    rewrite csr_nrows. apply fill_loop; auto.
    intros i y0 Hi Hl _. rewrite row_value by auto. reflexivity.
  Qed.

  Lemma spmv_add_ok c x y : length x = m -> length y = n ->
    spmv c A x (map Some y) false false = Ok (map Some (tab n (fun i => vat y i + mv m (matrix A) (vat x) i)%Qc)).
  Proof using wf.
    intros Hx Hy. unfold spmv. replace (c || negb false) with true by (destruct c; reflexivity). cbn iota.
    rewrite csr_nrows. apply fill_loop; [rewrite map_length; auto|].
    intros i y0 Hi Hl E. rewrite row_value by auto. cbn [bind]. unfold addto.
    rewrite (rd_ok _ _ (vat y i)); [reflexivity|].
    rewrite E. erewrite map_nth_error; [reflexivity|]. apply nth_error_vat. lia.
  Qed.

  Lemma spmv_trans_loop x yl : length x = n -> length yl = m ->
    for_range 0 n (fun i y => temp <- aget x i ;;
      for_row (c_indptr A) i (fun jj y => j <- aget (c_indices A) jj ;; d <- aget (c_data A) jj ;; addto y j (d * temp)%Qc) y)
      (map Some yl)
    = Ok (map Some (tab m (fun j => vat yl j + mv n (mt (matrix A)) (vat x) j)%Qc)).
  Proof using wf.
    intros Hx Hy.
    loop_inv (fun i (y : buf Qc) => exists yl', y = map Some yl' /\ length yl' = m /\
       forall j, vat yl' j = (vat yl j + sumf i (fun i' => matrix A i' j * vat x i'))%Qc) st E HI.
    3: { intros i s0 Hi (yl' & -> & Hl & Hv). rewrite (aget_nth _ _ 0%Qc) by lia. cbn [bind]. fold (vat x i).
         rewrite (for_row_list n m _ _ _ wfr i _ (fun p y => addto y (fst p) (snd p * vat x i)%Qc)) by
           (try lia; intros jj j d s _ E1 E2; rewrite (aget_ok _ _ _ E1), (aget_ok _ _ _ E2); reflexivity).
         destruct (row_scatter_loop (rowlist (c_indptr A) (c_indices A) (c_data A) i) (vat x i) yl') as (yl2 & E2 & Hl2 & Hv2).
         { intros p Hp. rewrite Hl. apply (row_cols n m _ _ _ wfr _ _ Hp). }
         rewrite E2. eexists; split; [reflexivity|]. exists yl2. split; [reflexivity|]. split; [lia|].
         intros j. rewrite Hv2, Hv. cbn [sumf]. unfold matrix. ring. }
    - lia.
    - exists yl. split; [reflexivity|]. split; [auto|]. intros j. cbn [sumf]. ring.
    - rewrite E. destruct HI as (yl' & -> & Hl & Hv). do 2 f_equal.
      apply eq_tab with (d := 0%Qc); auto. intros j Hj. fold (vat yl' j). rewrite Hv. reflexivity.
  Qed.

  Lemma spmv_trans_ok x y : length x = n -> length y = m ->
    spmv false A x y true true = Ok (map Some (tab m (mv n (mt (matrix A)) (vat x)))).
  Proof using wf.
    intros Hx Hy. unfold spmv. cbn [orb negb]. rewrite zero_loop. cbn [bind]. rewrite csr_nrows, Hy.
    rewrite spmv_trans_loop by (auto; apply tab_length). do 2 f_equal. apply tab_ext.
    intros j Hj. rewrite vat_tab by auto. ring.
  Qed.

  Lemma spmv_trans_add_ok x y : length x = n -> length y = m ->
    spmv false A x (map Some y) false true = Ok (map Some (tab m (fun j => vat y j + mv n (mt (matrix A)) (vat x) j)%Qc)).
  Proof using wf.
    intros Hx Hy. unfold spmv. cbn [orb negb bind]. rewrite csr_nrows. apply spmv_trans_loop; auto.
  Qed.

  Lemma spres_ok x b y : length x = m -> length b = n -> length y = n ->
    spres A x b y = Ok (map Some (tab n (fun i => vat b i - mv m (matrix A) (vat x) i)%Qc)).
  Proof using wf.
    intros Hx Hb Hy. unfold spres. rewrite csr_nrows. apply fill_loop; auto.
    intros i y0 Hi Hl _. rewrite (aget_nth _ _ 0%Qc) by lia. cbn [bind].
    rewrite (for_row_list n m _ _ _ wfr i _ (fun p t => xj <- aget x (fst p) ;; Ok (t - snd p * xj)%Qc)) by
      (auto; intros jj j d s _ E1 E2; rewrite (aget_ok _ _ _ E1), (aget_ok _ _ _ E2); reflexivity).
    rewrite row_res_loop.
    - cbn [bind]. rewrite (ent_dot _ m (vat x)) by apply (row_cols n m _ _ _ wfr). reflexivity.
    - intros p Hp. rewrite Hx. apply (row_cols n m _ _ _ wfr _ _ Hp).
  Qed.
End Kernels.

Lemma assign_ok y x : length y = length x -> assign y x = Ok (map Some x).
Proof.
  intros H. unfold assign. rewrite (fill_loop _ _ _ (vat x)) by
    (auto; intros i y0 Hi _ _; rewrite (aget_nth _ _ 0%Qc) by auto; reflexivity).
  unfold vat. rewrite <- list_eq_tab. reflexivity.
Qed.

Lemma csr_kernels_ok : forall n m (A : csr) cplx (x : list Qc), wf_csr n m A -> length x = m ->
    (forall y : buf Qc, length y = n ->
       csr_matvec cplx A x y = Ok (map Some (tab n (mv m (matrix A) (vat x))))) /\
    (forall y : list Qc, length y = n ->
       csr_matvec_no_overwrite cplx A x (map Some y)
       = Ok (map Some (tab n (fun i => vat y i + mv m (matrix A) (vat x) i)%Qc))) /\
    (forall (b : list Qc) (y : buf Qc), length b = n -> length y = n ->
       csr_residual A x b y false = Ok (map Some (tab n (fun i => vat b i - mv m (matrix A) (vat x) i)%Qc)) /\
       csr_residual A x b y true = Ok (map Some b)).
Proof.
  intros n m A c x wf Hx. split; [|split].
  - intros y Hy. apply spmv_ok; auto.
  - intros y Hy. apply spmv_add_ok; auto.
  - intros b y Hb Hy. split.
    + apply spres_ok; auto.
    + apply assign_ok. lia.
Qed.

Lemma csr_trans_kernels_ok : forall n m (A : csr) (x : list Qc), wf_csr n m A -> length x = n ->
    (forall y : buf Qc, length y = m ->
       csr_matvecTrans false A x y = Ok (map Some (tab m (mv n (mt (matrix A)) (vat x))))) /\
    (forall y : list Qc, length y = m ->
       csr_matvecTrans_no_overwrite false A x (map Some y)
       = Ok (map Some (tab m (fun j => vat y j + mv n (mt (matrix A)) (vat x) j)%Qc))).
Proof.
  intros n m A x wf Hx. split; intros y Hy; [apply spmv_trans_ok|apply spmv_trans_add_ok]; auto.
Qed.

Lemma complex_trans_wrong : exists (A : csr) (x : list Qc), wf_csr 2 2 A /\ length x = 2 /\
    forall y : buf Qc, length y = 2 ->
      csr_matvecTrans true A x y <> Ok (map Some (tab 2 (mv 2 (mt (matrix A)) (vat x)))).
Proof.
  exists (CSR 2 [0; 1; 1] [1] [1%Qc]), [1%Qc; 0%Qc].
  assert (wf : wf_csr 2 2 (CSR 2 [0; 1; 1] [1] [1%Qc])).
  { split; [reflexivity|]. split; [reflexivity|]. split.
    - intros [|[|i]] H; cbn; lia.
    - split; [cbn; lia|]. split; [reflexivity|]. intros j [<-|[]]; lia. }
  split; [exact wf|]. split; [reflexivity|]. intros y Hy.
  unfold csr_matvecTrans.
  change (spmv true (CSR 2 [0; 1; 1] [1] [1%Qc]) [1%Qc; 0%Qc] y true true)
    with (csr_matvec true (CSR 2 [0; 1; 1] [1] [1%Qc]) [1%Qc; 0%Qc] y).
  unfold csr_matvec. rewrite (spmv_ok 2 2 _ wf) by auto.
  intros E. apply (f_equal show_buf) in E. vm_compute in E. discriminate.
Qed.
