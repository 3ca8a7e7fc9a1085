(** Every class of operators. *)
From Verif Require Import Util Lin CSRModel CSRSpec CSRProofs DenseModel DenseSpec DenseProofs OpsProofs OpsProofs4 SmootherModel SmootherProofs3 CompModel CompSpec CompProofs CompProofs2.
Local Open Scope Qc_scope.

(** ** Leaves *)
Lemma csr_performs lens n m A (tr a : bool) : wf_csr n m A ->
  performs lens [] (if tr then m else n) (if tr then n else m) (if tr then mt (matrix A) else matrix A) a (l_mv (csr_op A) tr a).
Proof.
  intros wf. cbn [l_mv csr_op]. apply performs_leaf. intros xs yb ys Lx Ly Hy.
  destruct tr.
  - destruct (csr_trans_kernels_ok n m A xs wf Lx) as (H1 & H2). destruct a; cbn [negb].
    + destruct (Hy eq_refl) as (-> & L). apply H2, L.
    + etransitivity; [apply H1, Ly|]. f_equal. apply some_tab. intros; ring.
  - destruct (csr_kernels_ok n m A false xs wf Lx) as (H1 & H2 & _). destruct a; cbn [negb].
    + destruct (Hy eq_refl) as (-> & L). apply H2, L.
    + etransitivity; [apply H1, Ly|]. f_equal. apply some_tab. intros; ring.
Qed.
Lemma sss_performs lens n A (tr a : bool) : wf_sss n A ->
  performs lens [] n n (if tr then mt (sym_matrix A) else sym_matrix A) a (l_mv (sss_op A) tr a).
Proof.
  intros wf. apply performs_ext with (A := sym_matrix A) (f := l_mv (sss_op A) tr a); [|intros i j Hi Hj; destruct tr; [|reflexivity]|reflexivity].
  - cbn [l_mv sss_op plain]. apply performs_leaf. intros xs yb ys Lx Ly Hy. destruct (sss_thm n A wf) as (H1 & H2 & _). destruct a.
    + destruct (Hy eq_refl) as (-> & L). apply H2; auto.
    + etransitivity; [apply H1; auto|]. f_equal. apply some_tab. intros; ring.
  - unfold mt. unfold sym_matrix. destruct (Nat.eqb_spec i j), (Nat.eqb_spec j i); subst; try congruence. all: ring.
Qed.
Lemma dense_performs lens A n m (tr a : bool) : wf_dense n m A -> (tr && a = true -> n = m) ->
  performs lens [] (if tr then m else n) (if tr then n else m) (if tr then mt (dmat A) else dmat A) a (l_mv (dense_op A) tr a).
Proof.
  intros wf Hs. cbn [l_mv dense_op plain]. apply performs_leaf. intros xs yb ys Lx Ly Hy. destruct tr.
  - destruct (gemvT_thm n m A xs wf Lx) as (H1 & H2). destruct a.
    + destruct (Hy eq_refl) as (-> & L). etransitivity; [apply H2; auto; discriminate|]. f_equal. apply some_tab. intros; ring.
    + etransitivity; [apply H1, Ly|]. f_equal. apply some_tab. intros; ring.
  - destruct (gemv_thm n m A xs wf Lx) as (H1 & H2). destruct a.
    + destruct (Hy eq_refl) as (-> & L). etransitivity; [apply H2; auto; discriminate|]. f_equal. apply some_tab. intros; ring.
    + etransitivity; [apply H1, Ly|]. f_equal. apply some_tab. intros; ring.
Qed.
Lemma mv_diag n (d : nat -> Qc) x i : (i < n)%nat -> mv n (fun i j => if (i =? j)%nat then d i else 0) x i = d i * x i.
Proof.
  intros Hi. unfold mv. rewrite (sumf_single n _ i Hi).
  - rewrite Nat.eqb_refl. reflexivity.
  - intros j Hj Hn. destruct (Nat.eqb_spec i j); [congruence|ring].
Qed.
Lemma diag_performs lens d a :
  performs lens [] (length d) (length d) (fun i j => if (i =? j)%nat then vat d i else 0) a (l_mv (diag_op d) false a).
Proof.
  cbn [l_mv diag_op plain]. apply performs_ext with (A := fun i j => if (i =? j)%nat then vat d i else 0) (f := kernel (fun xs ys => if a then diag_matvec_no_overwrite d xs ys else diag_matvec d xs ys)); [|reflexivity|reflexivity].
  apply performs_leaf. intros xs yb ys Lx Ly Hy. destruct a.
  - destruct (Hy eq_refl) as (-> & L). etransitivity; [apply diag_matvec_add_ok; auto|]. f_equal. apply some_tab. intros i Hi. rewrite mv_diag by auto. ring.
  - etransitivity; [apply diag_matvec_ok; auto|]. f_equal. apply some_tab. intros i Hi. rewrite mv_diag by auto. ring.
Qed.
Lemma null_performs lens n m a : performs lens [] n m (fun _ _ => 0) a (l_mv (null_op n m) false a).
Proof.
  cbn [l_mv null_op plain]. destruct a.
  - apply (performs_skip lens [] n m).
  - apply performs_ext with (A := fun _ _ => 0) (f := kernel (fun _ ys => for_range 0 n (fun i ys => wr ys i 0) ys)); [|reflexivity|reflexivity].
    apply performs_leaf. intros xs yb ys Lx Ly _.
    apply fill_loop; [auto|]. intros i y Hi Hl E. unfold mv. rewrite sumf_zero by (intros; ring). rewrite Qcplus_0_l. reflexivity.
Qed.
Lemma identity_performs lens n c a : performs lens [] n n (fun i j => if (i =? j)%nat then c else 0) a (l_mv (identity_op n c) false a).
Proof.
  cbn [l_mv identity_op plain].
  apply performs_ext with (A := fun i j => if (i =? j)%nat then c else 0)
    (f := kernel (fun xs ys => for_range 0 n (fun i ys => v <- aget xs i ;; (if a then addto ys i (c * v) else wr ys i (c * v))) ys)); [|reflexivity|reflexivity].
  apply performs_leaf. intros xs yb ys Lx Ly Hy.
  apply fill_loop; [auto|]. intros i y Hi Hl E. rewrite (mv_diag n (fun _ => c)) by auto.
  rewrite (aget_nth xs i 0) by lia. cbn [bind]. change (nth i xs 0) with (vat xs i). destruct a.
  - destruct (Hy eq_refl) as (-> & L). unfold addto, rd. rewrite E, (map_nth_error Some i ys (nth_error_vat ys i ltac:(lia))). cbn [bind]. reflexivity.
  - rewrite Qcplus_0_l. reflexivity.
Qed.

(** ** Nodes *)
Lemma is_true a b : is a b = true -> a = b.
Proof. unfold is. intros H. apply Qc_eq_bool_correct, H. Qed.
Lemma is_false a b : is a b = false -> a <> b.
Proof. unfold is, Qc_eq_bool. destruct (Qc_eq_dec a b); [discriminate|auto]. Qed.
Lemma is_eq a b : is a b = true <-> a = b.
Proof. split; [apply is_true|]. intros ->. unfold is, Qc_eq_bool. destruct (Qc_eq_dec b b); auto. Qed.

Lemma of_tr {A} (tr : bool) (P : bool -> A) : P tr = if tr then P true else P false.
Proof. destruct tr; reflexivity. Qed.

Section node.
  Context (lens : nat -> nat).
  (** o is an operator of the given size and with the given products *)
  Definition represents (T : list nat) (n m : nat) (A : mat) (av : bool -> bool -> bool) (o : lop) : Prop :=
    l_rows o = n /\ l_cols o = m /\ forall tr a, av tr a = true ->
      performs lens T (if tr then m else n) (if tr then n else m) (if tr then mt A else A) a (l_mv o tr a).

  Definition part (o : lop) (z : view) (fac : Qc) (tr : bool) (x y : view) (h : heap) : res heap :=
    if Qc_eq_bool fac 1 then l_mv o tr true x y h
    else if Qc_eq_bool fac 0 then Ok h
    else h <- l_mv o tr false x z h ;; v_assign3 y 1 z fac h.

  Lemma if_mt (tr : bool) (A : mat) i j : (if tr then mt A else A) i j = if tr then A j i else A i j.
  Proof. destruct tr; reflexivity. Qed.

  Lemma part_performs T0 T n m A av o z fac (tr : bool) : represents T0 n m A av o -> incl T0 T -> ~ In z T0 -> In z T -> (n <= lens z)%nat ->
    (if is fac 1 then av tr true else if is fac 0 then true else av tr false && (negb tr || (n =? m)%nat)) = true ->
    performs lens T (if tr then m else n) (if tr then n else m) (fun i j => fac * (if tr then mt A else A) i j) true (part o (View z 0 n) fac tr).
  Proof using Type.
    intros (Hn & Hm & Hp) Hi Nz Iz Lz Ha. unfold part. fold (is fac 1) (is fac 0). destruct (is fac 1) eqn:E1; [|destruct (is fac 0) eqn:E0].
    - apply is_true in E1. subst fac. eapply performs_ext; [eapply performs_weaken; [apply Hp, Ha|auto]| |reflexivity]. intros. cbv beta. ring.
    - apply is_true in E0. subst fac. eapply performs_ext; [apply performs_skip| |reflexivity]. intros. cbv beta. ring.
    - apply andb_prop in Ha. destruct Ha as (Ha & Hs).
      apply (performs_axpy lens T T0); auto. cbn [v_len]. destruct tr; [|reflexivity]. cbn [negb orb] in Hs. apply Nat.eqb_eq in Hs. auto.
  Qed.

  Lemma step_represents T M K n m AM AK avM avK facS facM z TM TK : represents TM n m AM avM M -> represents TK n m AK avK K ->
    ~ In z (TM ++ TK) -> (n <= lens z)%nat -> T = z :: TM ++ TK ->
    exists o, new_timestepper M K facS facM z = Ok o /\
      represents T n m (fun i j => facM * AM i j + facS * AK i j)
        (fun tr a => let part av fac := if is fac 1 then av tr true else if is fac 0 then true else av tr false && (negb tr || (n =? m)%nat) in
           if a then part avK facS && part avM facM
           else if is facS 0 then negb tr && avM false false
           else avK tr false && (if is facM 1 then avM tr true else avM tr false && (negb tr || (n =? m)%nat))) o.
  Proof using Type.
    intros RM RK Nz Lz ->. pose proof RM as (Mn & Mm & PM). pose proof RK as (Kn & Km & PK).
    assert (IM : incl TM (z :: TM ++ TK)) by (intros u Hu; right; apply in_or_app; auto).
    assert (IK : incl TK (z :: TM ++ TK)) by (intros u Hu; right; apply in_or_app; auto).
    assert (NM : ~ In z TM) by (intros H; apply Nz, in_or_app; auto).
    assert (NK : ~ In z TK) by (intros H; apply Nz, in_or_app; auto).
    assert (Iz : In z (z :: TM ++ TK)) by (left; auto).
    unfold new_timestepper. rewrite Mm, Km, Nat.eqb_refl. cbn [guard]. rewrite bind_Ok, Mn, Kn, Nat.eqb_refl. cbn [guard]. rewrite bind_Ok.
    eexists. split; [reflexivity|]. split; [reflexivity|]. split; [reflexivity|]. intros tr a Ha. cbn [l_mv plain].
    destruct a.
    - apply andb_prop in Ha. destruct Ha as (HK & HM).
      eapply performs_ext with (f := fun x y h => h <- part K (View z 0 n) facS tr x y h ;; part M (View z 0 n) facM tr x y h);
        [eapply performs_seq; [eapply part_performs; eauto|eapply part_performs; eauto]| |].
      + intros i j _ _. cbv beta. destruct tr; unfold mt; ring.
      + reflexivity.
    - destruct (is facS 0) eqn:E0.
      + apply andb_prop in Ha. destruct Ha as (Ht & Ha). destruct tr; [discriminate|]. apply is_true in E0. subst facS. cbn [Qc_eq_bool].
        destruct (is facM 1) eqn:E1; unfold is in E1; rewrite E1.
        * apply is_true in E1. subst facM. eapply performs_ext; [eapply performs_weaken; [exact (PM false false Ha)|auto]| |].
          -- intros. cbv beta iota. ring.
          -- intros x y h _ _. change (Qc_eq_bool 0 0) with true. cbv iota. destruct (l_mv M false false x y h); reflexivity.
        * eapply performs_ext; [exact (performs_scale _ _ _ _ _ _ facM (performs_weaken _ _ _ _ _ _ _ _ (PM false false Ha) IM))| |].
          -- intros. cbv beta iota. ring.
          -- intros x y h _ _. change (Qc_eq_bool 0 0) with true. cbv iota. reflexivity.
      + apply andb_prop in Ha. destruct Ha as (HK & HM).
        assert (P1 : performs lens (z :: TM ++ TK) (if tr then m else n) (if tr then n else m) (fun i j => facS * (if tr then mt AK else AK) i j) false
                  (fun x y h => h <- l_mv K tr false x y h ;; if Qc_eq_bool facS 1 then Ok h else v_scale y facS h)).
        { fold (is facS 1). destruct (is facS 1) eqn:E1.
          - apply is_true in E1. subst facS. eapply performs_ext; [eapply performs_weaken; [exact (PK tr false HK)|auto]| |].
            + intros. cbv beta. ring.
            + intros x y h _ _. destruct (l_mv K tr false x y h); reflexivity.
          - apply performs_scale. eapply performs_weaken; [exact (PK tr false HK)|auto]. }
        assert (P2 : performs lens (z :: TM ++ TK) (if tr then m else n) (if tr then n else m) (fun i j => facM * (if tr then mt AM else AM) i j) true
                  (fun x y h => if Qc_eq_bool facM 1 then l_mv M tr true x y h else h <- l_mv M tr false x (View z 0 n) h ;; v_assign3 y 1 (View z 0 n) facM h)).
        { fold (is facM 1). destruct (is facM 1) eqn:E1.
          - apply is_true in E1. subst facM. eapply performs_ext; [eapply performs_weaken; [exact (PM tr true HM)|auto]| |reflexivity]. intros. cbv beta. ring.
          - apply andb_prop in HM. destruct HM as (HM & Hs). apply (performs_axpy lens _ TM); auto. cbn [v_len].
            destruct tr; [|reflexivity]. cbn [negb orb] in Hs. apply Nat.eqb_eq in Hs. auto. }
        eapply performs_ext; [eapply performs_seq; [exact P1|exact P2]| |].
        * intros i j _ _. cbv beta. destruct tr; unfold mt; ring.
        * intros x y h _ _. unfold is in E0. rewrite E0. destruct tr; destruct (l_mv K _ false x y h) as [h1|e]; cbn [bind]; reflexivity.
  Qed.

  Lemma multiply_represents T A n m M av f : represents T n m M av A ->
    represents T n m (fun i j => f * M i j) (fun tr a => if a && is f 0 then true else av tr a) (multiply_op A f).
  Proof using Type.
    intros (Hn & Hm & P). split; [exact Hn|]. split; [exact Hm|]. intros tr a Ha. cbn [l_mv multiply_op plain].
    destruct a; cbn [andb] in Ha.
    - destruct (is f 0) eqn:E0; unfold is in E0; rewrite E0.
      + apply is_true in E0. subst f. eapply performs_ext; [apply performs_skip| |reflexivity]. intros i j _ _. destruct tr; unfold mt; ring.
      + eapply performs_ext; [apply performs_scaled_add; [apply is_false, E0|exact (P tr true Ha)]| |reflexivity]. intros i j _ _. destruct tr; unfold mt; ring.
    - eapply performs_ext; [exact (performs_scale _ _ _ _ _ _ f (P tr false Ha))| |].
      + intros i j _ _. destruct tr; unfold mt; ring.
      + intros x y h Hx Hy. destruct tr; [reflexivity|]. unfold call. rewrite Hm, Hx, Nat.eqb_refl. cbn [guard]. rewrite bind_Ok, Hn, Hy, Nat.eqb_refl. cbn [guard].
        rewrite bind_Ok. reflexivity.
  Qed.

  Lemma product_represents T TA TB A B n k m MA MB avA avB t : represents TA n k MA avA A -> represents TB k m MB avB B ->
    ~ In t (TA ++ TB) -> (k <= lens t)%nat -> T = t :: TA ++ TB ->
    exists o, new_product A B t = Ok o /\
      represents T n m (mm k MA MB) (fun tr a => if tr then avA true false && avB true a else avB false false && avA false a) o.
  Proof using Type.
    intros (An & Am & PA) (Bn & Bm & PB) Nt Lt ->.
    assert (IA : incl TA (t :: TA ++ TB)) by (intros u Hu; right; apply in_or_app; auto).
    assert (IB : incl TB (t :: TA ++ TB)) by (intros u Hu; right; apply in_or_app; auto).
    assert (NA : ~ In t TA) by (intros H; apply Nt, in_or_app; auto).
    assert (NB : ~ In t TB) by (intros H; apply Nt, in_or_app; auto).
    assert (It : In t (t :: TA ++ TB)) by (left; auto).
    unfold new_product. rewrite Am, Bn, Nat.eqb_refl. cbn [guard]. rewrite bind_Ok.
    eexists. split; [reflexivity|]. split; [exact An|]. split; [exact Bm|]. intros tr a Ha. cbn [l_mv]. destruct tr.
    - apply andb_prop in Ha. destruct Ha as (HA & HB).
      eapply performs_ext; [eapply (performs_compose lens _ TA k n (mt MA) (l_mv A true false) (View t 0 k)) with (T3 := TB); eauto; [apply (PA true false HA)|apply (PB true a HB)]| |reflexivity].
      intros i j _ _. unfold mm, mt. apply sumf_ext. intros. ring.
    - apply andb_prop in Ha. destruct Ha as (HB & HA).
      eapply performs_ext; [eapply (performs_compose lens _ TB k m MB (l_mv B false false) (View t 0 k)) with (T3 := TA); eauto; [apply (PB false false HB)|apply (PA false a HA)]| |reflexivity].
      reflexivity.
  Qed.

  Lemma transpose_represents T A n m M av : represents T n m M av A ->
    represents T m n (mt M) (fun tr a => negb tr && av true a) (transpose_op A).
  Proof using Type.
    intros (An & Am & P). split; [exact Am|]. split; [exact An|]. intros tr a Ha. destruct tr; [discriminate|]. cbn [negb andb] in Ha.
    cbn [l_mv transpose_op plain]. eapply performs_ext; [exact (P true a Ha)| |]; reflexivity.
  Qed.
End node.
