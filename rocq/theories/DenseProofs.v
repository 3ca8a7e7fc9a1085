From Verif Require Import Util Lin SparsitySpec CSRModel CSRSpec CSRProofs TriModel TriSpec TriProofs TriProofs2 OpsProofs DenseModel DenseSpec.

Lemma ix_ok N K i k : i < N -> k < K -> ix N K i k = Ok (i * K + k).
Proof. intros H H'. unfold ix. destruct (Nat.ltb_spec i N), (Nat.ltb_spec k K); try lia. reflexivity. Qed.
Lemma ix_lt N K i k : i < N -> k < K -> i * K + k < N * K.
Proof. nia. Qed.
Lemma ix_inj K i k i' k' : k < K -> k' < K -> i * K + k = i' * K + k' -> i = i' /\ k = k'.
Proof. intros. assert (i = i') by nia. nia. Qed.
Lemma ix_onto N K p : p < N * K -> exists i k, i < N /\ k < K /\ p = i * K + k.
Proof.
  intros H. assert (K <> 0) by nia. exists (p / K), (p mod K). pose proof (Nat.div_mod p K H0).
  pose proof (Nat.mod_upper_bound p K H0). split; [apply Nat.div_lt_upper_bound; nia|]. split; lia.
Qed.

Lemma dget_ok n m A i j : wf_dense n m A -> i < n -> j < m -> dget A i j = Ok (dmat A i j).
Proof.
  intros (<- & <- & Hl) Hi Hj. unfold dget. rewrite ix_ok by auto. cbn [bind]. apply aget_nth.
  rewrite Hl. apply ix_lt; auto.
Qed.

Lemma eqb0 (b : Qc) : Qc_eq_bool b 0 = true <-> b = 0%Qc.
Proof.
  split; [apply Qc_eq_bool_correct|]. intros ->. reflexivity.
Qed.
Lemma eqb0_false (b : Qc) : b <> 0%Qc -> Qc_eq_bool b 0 = false.
Proof. intros H. destruct (Qc_eq_bool b 0) eqn:E; auto. apply eqb0 in E. contradiction. Qed.

Lemma dot_loop (lim : nat) (f g : nat -> Qc) (body : nat -> Qc -> res Qc) t :
  (forall j s, j < lim -> body j s = Ok (s + f j * g j)%Qc) ->
  for_range 0 lim body t = Ok (t + sumf lim (fun j => f j * g j))%Qc.
Proof.
  intros H. loop_inv (fun j s => s = (t + sumf j (fun j => f j * g j))%Qc) st E HI.
  3: { intros j s Hj ->. eexists; split; [apply H; lia|]. cbn [sumf]. ring. }
  - lia.
  - cbn [sumf]. ring.
  - rewrite E, HI. auto.
Qed.

Section Gemv.
  Variables (n m : nat) (A : dense).
  Hypothesis wf : wf_dense n m A.

  Lemma gemv_zero x (y : buf Qc) : length x = m -> length y = n ->
    gemv A x y 0%Qc = Ok (map Some (tab n (mv m (dmat A) (vat x)))).
  Proof.
    intros Hx Hy. unfold gemv. pose proof wf as (-> & -> & _).
    apply fill_loop; auto. intros i y0 Hi Hl _.
    rewrite (dot_loop m (dmat A i) (vat x)).
    - cbn [bind]. rewrite (proj2 (eqb0 0)) by auto. f_equal. unfold mv. ring.
    - intros j s Hj. rewrite (dget_ok n m) by auto. cbn [bind]. rewrite (aget_nth x j 0%Qc) by lia. reflexivity.
  Qed.

  Lemma gemv_beta x y beta : beta <> 0%Qc -> length x = m -> length y = n ->
    gemv A x (map Some y) beta = Ok (map Some (tab n (fun i => beta * vat y i + mv m (dmat A) (vat x) i)%Qc)).
  Proof.
    intros Hb Hx Hy. unfold gemv. pose proof wf as (-> & -> & _).
    apply fill_loop; [rewrite map_length; auto|]. intros i y0 Hi Hl He.
    rewrite (dot_loop m (dmat A i) (vat x)).
    - cbn [bind]. rewrite eqb0_false by auto. unfold rd. rewrite He, (map_nth_error Some i y (nth_error_vat y i ltac:(lia))). cbn [bind].
      f_equal. unfold mv. ring.
    - intros j s Hj. rewrite (dget_ok n m) by auto. cbn [bind]. rewrite (aget_nth x j 0%Qc) by lia. reflexivity.
  Qed.

  Lemma scale_first_ok beta y : length y = n ->
    scale_first n beta (map Some y) = Ok (map Some (tab n (fun i => beta * vat y i)%Qc)).
  Proof.
    intros Hy. unfold scale_first. apply fill_loop; [rewrite map_length; auto|]. intros i y0 Hi Hl He.
    unfold rd. rewrite He, (map_nth_error Some i y (nth_error_vat y i ltac:(lia))). cbn [bind]. f_equal. ring.
  Qed.

  (** the accumulation loop of gemvF *)
  Lemma gemvF_loop x y : length x = m -> length y = n ->
    for_range 0 m (fun j y =>
      for_range 0 n (fun i y =>
        a <- dget A i j ;; xj <- aget x j ;; addto y i (a * xj)%Qc) y) (map Some y)
    = Ok (map Some (tab n (fun i => vat y i + mv m (dmat A) (vat x) i)%Qc)).
  Proof.
    intros Hx Hy.
    loop_inv (fun j b => b = map Some (tab n (fun i => vat y i + sumf j (fun l => dmat A i l * vat x l))%Qc)) st E HI.
    3: { intros j b Hj ->. eexists; split; [|reflexivity]. apply fill_loop; [rewrite map_length, tab_length; auto|].
         intros i y0 Hi Hl He. rewrite (dget_ok n m) by (auto; lia). cbn [bind].
         rewrite (aget_nth x j 0%Qc) by lia. cbn [bind]. unfold addto, rd. rewrite He.
         erewrite map_nth_error by (rewrite nth_error_tab by auto; reflexivity). cbn [bind].
         f_equal. cbn [sumf]. unfold vat. ring. }
    - lia.
    - f_equal. apply (eq_tab _ _ _ 0%Qc); auto. intros i Hi. cbn [sumf]. fold (vat y i). ring.
    - rewrite E, HI. reflexivity.
  Qed.

  Lemma gemvF_zero x y : length x = m -> length y = n ->
    gemvF A x (map Some y) 0%Qc = Ok (map Some (tab n (fun i => vat y i + mv m (dmat A) (vat x) i)%Qc)).
  Proof.
    intros Hx Hy. unfold gemvF. rewrite (proj2 (eqb0 0)) by auto. cbn [bind].
    pose proof wf as (-> & -> & _). apply gemvF_loop; auto.
  Qed.

  Lemma gemvF_beta x y beta : beta <> 0%Qc -> length x = m -> length y = n ->
    gemvF A x (map Some y) beta = Ok (map Some (tab n (fun i => beta * vat y i + mv m (dmat A) (vat x) i)%Qc)).
  Proof.
    intros Hb Hx Hy. unfold gemvF. rewrite eqb0_false by auto.
    pose proof wf as (-> & -> & _). rewrite scale_first_ok by auto. cbn [bind].
    rewrite gemvF_loop by (auto; apply tab_length). do 2 f_equal. apply tab_ext. intros i Hi. rewrite vat_tab by auto. auto.
  Qed.

  (** the accumulation loop of gemvT *)
  Lemma acc_loop (y : list Qc) i (lim : nat) (f g : nat -> Qc) (body : nat -> buf Qc -> res (buf Qc)) : i < length y ->
    (forall j s, j < lim -> body j s = addto s i (f j * g j)%Qc) ->
    for_range 0 lim body (map Some y) = Ok (map Some (upd y i (vat y i + sumf lim (fun j => f j * g j)))%Qc).
  Proof.
    intros Hi H. loop_inv (fun j s => s = map Some (upd y i (vat y i + sumf j (fun j => f j * g j)))%Qc) st E HI.
    3: { intros j s Hj ->. eexists; split; [rewrite H by lia; apply addto_ok; rewrite upd_length; auto|].
         rewrite upd_upd, vat_upd, Nat.eqb_refl by auto. cbn [sumf]. do 2 f_equal. ring. }
    - lia.
    - cbn [sumf]. rewrite upd_same; auto. rewrite nth_error_vat by auto. f_equal. ring.
    - rewrite E, HI. auto.
  Qed.

  Lemma gemvT_loop x y : length x = n -> length y = m ->
    for_range 0 m (fun i y =>
      for_range 0 n (fun j y =>
        a <- dget A j i ;; xj <- aget x j ;; addto y i (a * xj)%Qc) y) (map Some y)
    = Ok (map Some (tab m (fun i => vat y i + mv n (mt (dmat A)) (vat x) i)%Qc)).
  Proof.
    intros Hx Hy.
    loop_inv (fun i b => exists yl, b = map Some yl /\ length yl = m /\
      forall k, k < m -> vat yl k = (vat y k + (if k <? i then mv n (mt (dmat A)) (vat x) k else 0))%Qc) st E HI.
    3: { intros i b Hi (yl & -> & Hl & Hv). eexists; split.
         - apply (acc_loop yl i n (fun j => dmat A j i) (vat x)); [lia|].
           intros j s Hj. rewrite (dget_ok n m) by (auto; lia). cbn [bind].
           rewrite (aget_nth x j 0%Qc) by lia. reflexivity.
         - eexists. split; [reflexivity|]. split; [rewrite upd_length; auto|].
           intros k Hk. rewrite vat_upd by lia. rewrite !Hv by lia.
           destruct (Nat.eqb_spec k i), (Nat.ltb_spec k (S i)), (Nat.ltb_spec i i), (Nat.ltb_spec k i); try lia; subst; auto.
           unfold mv, mt. ring. }
    - lia.
    - exists y. split; auto. split; auto. intros k Hk. cbn. ring.
    - destruct HI as (yl & -> & Hl & Hv). rewrite E. do 2 f_equal. apply (eq_tab _ _ _ 0%Qc); auto.
      intros i Hi. fold (vat yl i). rewrite Hv by auto. destruct (Nat.ltb_spec i m); [auto|lia].
  Qed.

  Lemma gemvT_zero x (y : buf Qc) : length x = n -> length y = m ->
    gemvT A x y 0%Qc = Ok (map Some (tab m (mv n (mt (dmat A)) (vat x)))).
  Proof.
    intros Hx Hy. unfold gemvT. rewrite (proj2 (eqb0 0)) by auto. rewrite set0_ok. cbn [bind].
    pose proof wf as (-> & -> & _). rewrite Hy, gemvT_loop by (auto; apply tab_length).
    do 2 f_equal. apply tab_ext. intros i Hi. rewrite vat_tab by auto. ring.
  Qed.

  Lemma gemvT_beta x y beta : n = m -> beta <> 0%Qc -> length x = n -> length y = m ->
    gemvT A x (map Some y) beta = Ok (map Some (tab m (fun i => beta * vat y i + mv n (mt (dmat A)) (vat x) i)%Qc)).
  Proof.
    intros Hs Hb Hx Hy. unfold gemvT. rewrite eqb0_false by auto.
    pose proof wf as (-> & -> & _). rewrite scale_first_ok by lia. cbn [bind].
    rewrite gemvT_loop by (auto; rewrite tab_length; auto). do 2 f_equal. apply tab_ext.
    intros i Hi. rewrite vat_tab by lia. auto.
  Qed.
End Gemv.

(** beta different from 0 and 1 with n < m: the entries from n on are not scaled;
    with n > m the code writes behind the end of y. *)
Lemma gemvT_not_square :
  (exists A x y beta, wf_dense 1 2 A /\ length x = 1 /\ length y = 2 /\ beta <> 0%Qc /\
     exists z, gemvT A x (map Some y) beta = Ok (map Some z) /\
       vat z 1 <> (beta * vat y 1 + mv 1 (mt (dmat A)) (vat x) 1)%Qc) /\
  (exists A x y beta, wf_dense 2 1 A /\ length x = 2 /\ length y = 1 /\ beta <> 0%Qc /\
     gemvT A x (map Some y) beta = Err EOob).
Proof.
  split.
  - exists (Dense 1 2 [qz 1; qz 1]), [qz 1], [qz 1; qz 1], (qz 2). repeat split; auto; try (intros H; discriminate H).
    exists [qz 3; qz 2]. split; [vm_compute; reflexivity|]. intros H. apply (f_equal this) in H. vm_compute in H. discriminate.
  - exists (Dense 2 1 [qz 1; qz 1]), [qz 1; qz 1], [qz 1], (qz 2). repeat split; auto; try (intros H; discriminate H).
Qed.

Lemma gemvF_default_wrong :
  exists A x y, wf_dense 1 1 A /\ length x = 1 /\ length y = 1 /\
    exists z, gemvF A x (map Some y) 0%Qc = Ok (map Some z) /\ vat z 0 <> mv 1 (dmat A) (vat x) 0.
Proof.
  exists (Dense 1 1 [qz 2]), [qz 3], [qz 5]. repeat split; auto.
  exists [qz 11]. split; [vm_compute; reflexivity|]. intros H. apply (f_equal this) in H. vm_compute in H. discriminate.
Qed.

(** * matmat and matvec_multi *)
Lemma addto_row (N K i : nat) (v : nat -> Qc) (c : list Qc) (body : nat -> buf Qc -> res (buf Qc)) :
  i < N -> length c = N * K ->
  (forall k C, k < K -> body k C = addto C (i * K + k) (v k)) ->
  exists c', for_range 0 K body (map Some c) = Ok (map Some c') /\ length c' = N * K /\
    forall i' k', i' < N -> k' < K -> vat c' (i' * K + k') = (vat c (i' * K + k') + (if (i' =? i)%nat then v k' else 0))%Qc.
Proof.
  intros Hi Hl Hb.
  loop_inv (fun k C => exists c', C = map Some c' /\ length c' = N * K /\
    forall i' k', i' < N -> k' < K -> vat c' (i' * K + k')
      = (vat c (i' * K + k') + (if (i' =? i) && (k' <? k) then v k' else 0))%Qc) st E HI.
  3: { intros k C Hk (c' & -> & Hl' & Hv). pose proof (ix_lt N K i k Hi ltac:(lia)).
       eexists; split; [rewrite Hb by lia; apply addto_ok; lia|].
       eexists. split; [reflexivity|]. split; [rewrite upd_length; auto|].
       intros i' k' Hi' Hk'. rewrite vat_upd by lia.
       destruct (Nat.eqb_spec (i' * K + k') (i * K + k)) as [Ex|Ex].
       - apply ix_inj in Ex as [-> ->]; try lia. rewrite Hv by lia. rewrite Nat.eqb_refl.
         destruct (Nat.ltb_spec k k), (Nat.ltb_spec k (S k)); try lia. cbn [andb]. ring.
       - rewrite Hv by lia. destruct (Nat.eqb_spec i' i), (Nat.ltb_spec k' k), (Nat.ltb_spec k' (S k)); try lia; cbn [andb]; auto.
         all: exfalso; apply Ex; assert (k' = k) by lia; subst; reflexivity. }
  - lia.
  - exists c. split; auto. split; auto. intros. rewrite andb_false_r. ring.
  - destruct HI as (c' & -> & Hl' & Hv). exists c'. split; auto. split; auto.
    intros i' k' Hi' Hk'. rewrite Hv by auto. destruct (Nat.ltb_spec k' K); [|lia]. rewrite andb_true_r. auto.
Qed.

Lemma matmat_ok n m p A B (C : buf Qc) : wf_dense n m A -> wf_dense m p B -> length C = n * p ->
  exists c, matmat A B C = Ok (map Some c) /\ length c = n * p /\
    forall i k, i < n -> k < p -> vat c (i * p + k) = mm m (dmat A) (dmat B) i k.
Proof.
  intros wA wB HC. unfold matmat. rewrite set0_ok, HC. cbn [bind].
  pose proof wA as (-> & _). pose proof wB as (-> & -> & _).
  loop_inv (fun i C => exists c, C = map Some c /\ length c = n * p /\
    forall i' k, i' < n -> k < p -> vat c (i' * p + k) = if i' <? i then mm m (dmat A) (dmat B) i' k else 0%Qc) st E HI.
  3: { intros i C0 Hi (c & -> & Hl & Hv).
       loop_inv (fun j C => exists c', C = map Some c' /\ length c' = n * p /\
         forall i' k, i' < n -> k < p -> vat c' (i' * p + k)
           = (vat c (i' * p + k) + (if (i' =? i)%nat then sumf j (fun l => dmat A i l * dmat B l k) else 0))%Qc) st E HI.
       3: { intros j C1 Hj (c1 & -> & Hl1 & Hv1).
            destruct (addto_row n p i (fun k => dmat A i j * dmat B j k)%Qc c1
              (fun k C => q <- ix n p i k ;; a <- dget A i j ;; b <- dget B j k ;; addto C q (a * b)%Qc)) as (c2 & E2 & Hl2 & Hv2); auto; try lia.
            - intros k C' Hk. rewrite ix_ok by lia. cbn [bind]. rewrite (dget_ok n m) by (auto; lia). cbn [bind].
              rewrite (dget_ok m p) by (auto; lia). reflexivity.
            - exists (map Some c2). split; auto. exists c2. split; auto. split; auto.
              intros i' k Hi' Hk. rewrite Hv2, Hv1 by auto. cbn [sumf]. destruct (Nat.eqb_spec i' i); ring. }
       - lia.
       - exists c. split; auto. split; auto. intros i' k _ _. cbn [sumf]. destruct (Nat.eqb_spec i' i); ring.
       - destruct HI as (c' & -> & Hl' & Hv'). exists (map Some c'). split; auto. exists c'. split; auto. split; auto.
         intros i' k Hi' Hk. rewrite Hv', Hv by auto.
         destruct (Nat.eqb_spec i' i), (Nat.ltb_spec i' i), (Nat.ltb_spec i' (S i)); try lia; subst; unfold mm; ring. }
  - lia.
  - eexists. split; [reflexivity|]. split; [apply tab_length|]. intros i' k Hi' Hk.
    rewrite vat_tab by (apply ix_lt; auto). reflexivity.
  - destruct HI as (c & -> & Hl & Hv). exists c. split; auto. split; auto. intros i k Hi Hk. rewrite Hv by auto.
    destruct (Nat.ltb_spec i n); [auto|lia].
Qed.

Lemma multi_ok n m nv A x (y : buf Qc) : wf_dense n m A -> length x = m * nv -> length y = n * nv ->
  exists c, dense_matvec_multi A nv x y = Ok (map Some c) /\ length c = n * nv /\
    forall i k, i < n -> k < nv -> vat c (i * nv + k) = mv m (dmat A) (fun j => vat x (j * nv + k)) i.
Proof.
  intros wA Hx Hy. unfold dense_matvec_multi. rewrite set0_ok, Hy. cbn [bind].
  pose proof wA as (-> & -> & _).
  match goal with |- context [for_range 0 n ?f ?s] =>
    destruct (for_range_inv (fun i (st : buf Qc * buf Qc) => length (snd st) = nv /\ exists c, fst st = map Some c /\ length c = n * nv /\
      forall i' k, i' < n -> k < nv -> vat c (i' * nv + k) = if i' <? i then mv m (dmat A) (fun j => vat x (j * nv + k)) i' else 0%Qc)
      f 0 n s) as ([y1 t1] & E & HI) end.
  - lia.
  - split; [apply alloc_length|]. eexists. split; [reflexivity|]. split; [apply tab_length|]. intros i' k Hi' Hk.
    rewrite vat_tab by (apply ix_lt; auto). reflexivity.
  - intros i [y0 temp] Hi [Ht (c & Ec & Hl & Hv)]. cbn [fst snd] in *. subst y0. rewrite set0_ok, Ht. cbn [bind].
    assert (Hacc : for_range 0 m (fun j temp => for_range 0 nv (fun k temp =>
        a <- dget A i j ;; p <- ix m nv j k ;; xv <- aget x p ;; addto temp k (a * xv)%Qc) temp)
        (map Some (tab nv (fun _ => 0%Qc))) = Ok (map Some (tab nv (fun k => mv m (dmat A) (fun j => vat x (j * nv + k)%nat) i)))).
    { loop_inv (fun j b => b = map Some (tab nv (fun k => sumf j (fun l => dmat A i l * vat x (l * nv + k)%nat))%Qc)) st E HI.
      3: { intros j b Hj ->. eexists; split; [|reflexivity]. apply fill_loop; [rewrite map_length, tab_length; auto|].
           intros k t0 Hk Htl He. rewrite (dget_ok n m) by (auto; lia). cbn [bind]. rewrite ix_ok by lia. cbn [bind].
           rewrite (aget_nth x _ 0%Qc) by (rewrite Hx; apply ix_lt; lia). cbn [bind]. unfold addto, rd. rewrite He.
           erewrite map_nth_error by (rewrite nth_error_tab by auto; reflexivity). cbn [bind].
           f_equal. }
      - lia.
      - reflexivity.
      - rewrite E, HI. reflexivity. }
    rewrite Hacc. cbn [bind].
    set (w := tab nv (fun k => mv m (dmat A) (fun j => vat x (j * nv + k)%nat) i)).
    loop_inv (fun k y => exists c', y = map Some c' /\ length c' = n * nv /\
      forall i' k', i' < n -> k' < nv -> vat c' (i' * nv + k')
       = if (i' =? i) && (k' <? k) then vat w k' else vat c (i' * nv + k')) st E HI.
    3: { intros k y0 Hk (c' & -> & Hl' & Hv'). rewrite (rd_some _ _ 0%Qc) by (unfold w; rewrite tab_length; lia).
         cbn [bind]. rewrite ix_ok by lia. cbn [bind]. pose proof (ix_lt n nv i k ltac:(lia) ltac:(lia)).
         rewrite wr_some by lia. eexists; split; [reflexivity|]. eexists; split; [reflexivity|].
         split; [rewrite upd_length; auto|]. intros i' k' Hi' Hk'. rewrite vat_upd by lia.
         destruct (Nat.eqb_spec (i' * nv + k') (i * nv + k)) as [Ex|Ex].
         - apply ix_inj in Ex as [-> ->]; try lia. rewrite Nat.eqb_refl.
           destruct (Nat.ltb_spec k (S k)); [reflexivity|lia].
         - rewrite Hv' by auto. destruct (Nat.eqb_spec i' i), (Nat.ltb_spec k' k), (Nat.ltb_spec k' (S k)); try lia; cbn [andb]; auto.
           all: exfalso; apply Ex; assert (k' = k) by lia; subst; reflexivity. }
    + lia.
    + exists c. split; auto. split; auto. intros. rewrite andb_false_r. auto.
    + rewrite E. cbn [bind]. eexists. split; [reflexivity|]. cbn [fst snd]. split; [rewrite map_length; apply tab_length|].
      destruct HI as (c' & -> & Hl' & Hv'). exists c'. split; auto. split; auto. intros i' k Hi' Hk. rewrite Hv' by auto.
      destruct (Nat.ltb_spec k nv) as [_|]; [|lia]. rewrite andb_true_r.
      destruct (Nat.eqb_spec i' i), (Nat.ltb_spec i' (S i)); try lia; subst.
      * unfold w. rewrite vat_tab by auto. reflexivity.
      * rewrite Hv by auto. destruct (Nat.ltb_spec i' i); [reflexivity|lia].
      * rewrite Hv by auto. destruct (Nat.ltb_spec i' i); [lia|reflexivity].
  - rewrite E. cbn [bind]. destruct HI as [_ (c & Ec & Hl & Hv)]. cbn [fst] in Ec. subst y1. exists c. split; auto. split; auto.
    intros i k Hi Hk. rewrite Hv by auto. destruct (Nat.ltb_spec i n); [auto|lia].
Qed.

(** * Diagonal operators *)
Lemma diag_matvec_ok data x (y : buf Qc) : length x = length data -> length y = length data ->
  diag_matvec data x y = Ok (map Some (tab (length data) (fun i => vat data i * vat x i)%Qc)).
Proof.
  intros Hx Hy. unfold diag_matvec. rewrite set0_ok. cbn [bind].
  apply fill_loop; [rewrite map_length, tab_length; auto|]. intros i y0 Hi Hl _.
  rewrite (aget_nth data i 0%Qc) by auto. cbn [bind]. rewrite (aget_nth x i 0%Qc) by lia. reflexivity.
Qed.
Lemma diag_matvec_add_ok data x y : length x = length data -> length y = length data ->
  diag_matvec_no_overwrite data x (map Some y) = Ok (map Some (tab (length data) (fun i => vat y i + vat data i * vat x i)%Qc)).
Proof.
  intros Hx Hy. unfold diag_matvec_no_overwrite.
  apply fill_loop; [rewrite map_length; auto|]. intros i y0 Hi Hl He.
  rewrite (aget_nth data i 0%Qc) by auto. cbn [bind]. rewrite (aget_nth x i 0%Qc) by lia. cbn [bind].
  unfold addto, rd. rewrite He, (map_nth_error Some i y (nth_error_vat y i ltac:(lia))). reflexivity.
Qed.

Lemma jacobi_solve_ok n A b (x : buf Qc) : wf_csr n n A -> nodup_csr n A ->
  (forall i, i < n -> matrix A i i <> 0%Qc) -> length b = n -> length x = n ->
  exists z, jacobi_solve A b x = Ok (map Some z) /\ length z = n /\
    forall i, i < n -> (matrix A i i * vat z i = vat b i)%Qc.
Proof.
  intros wf nd Hd Hb Hx. unfold jacobi_solve. rewrite (csr_get_diagonal_ok n n A wf nd). cbn [bind].
  rewrite tab_length.
  assert (for_range 0 n (fun i inv => v <- aget (tab n (fun i => matrix A i i)) i ;; w <- qdiv 1 v ;; aset inv i w) (tab n (fun i => matrix A i i))
    = Ok (tab n (fun i => 1 / matrix A i i)%Qc)) as ->.
  { loop_inv (fun i l => length l = n /\ forall k, k < i -> vat l k = (1 / matrix A k k)%Qc) st E HI.
    3: { intros i l Hi [Hl Hv]. rewrite (aget_nth _ i 0%Qc) by (rewrite tab_length; lia). cbn [bind].
         rewrite nth_tab by lia. rewrite qdiv_ok by (apply Hd; lia). cbn [bind]. rewrite aset_ok by lia.
         eexists; split; [reflexivity|]. split; [rewrite upd_length; auto|]. intros k Hk. rewrite vat_upd by lia.
         destruct (Nat.eqb_spec k i); subst; auto. apply Hv; lia. }
    - lia.
    - split; [apply tab_length|]. intros; lia.
    - destruct HI as [Hl Hv]. rewrite E. f_equal. apply (eq_tab _ _ _ 0%Qc); auto. }
  cbn [bind]. rewrite diag_matvec_ok by (rewrite tab_length; auto). rewrite tab_length.
  eexists; split; [reflexivity|]. split; [apply tab_length|]. intros i Hi. rewrite !vat_tab by auto.
  field. auto.
Qed.

(** * Statements *)
Lemma gemv_thm : forall n m A x, wf_dense n m A -> length x = m ->
  (forall y : buf Qc, length y = n -> gemv A x y 0%Qc = Ok (map Some (tab n (mv m (dmat A) (vat x))))) /\
  (forall y beta, length y = n -> beta <> 0%Qc ->
     gemv A x (map Some y) beta = Ok (map Some (tab n (fun i => beta * vat y i + mv m (dmat A) (vat x) i)%Qc))).
Proof. intros. split; intros; [apply gemv_zero|apply gemv_beta]; auto. Qed.

Lemma gemvT_thm : forall n m A x, wf_dense n m A -> length x = n ->
  (forall y : buf Qc, length y = m -> gemvT A x y 0%Qc = Ok (map Some (tab m (mv n (mt (dmat A)) (vat x))))) /\
  (forall y beta, n = m -> length y = m -> beta <> 0%Qc ->
     gemvT A x (map Some y) beta = Ok (map Some (tab m (fun i => beta * vat y i + mv n (mt (dmat A)) (vat x) i)%Qc))).
Proof. intros. split; intros; [apply gemvT_zero|apply gemvT_beta]; auto. Qed.

Lemma gemvF_thm : forall n m A x y beta, wf_dense n m A -> length x = m -> length y = n -> beta <> 0%Qc ->
  gemvF A x (map Some y) beta = Ok (map Some (tab n (fun i => beta * vat y i + mv m (dmat A) (vat x) i)%Qc)).
Proof. intros. apply gemvF_beta; auto. Qed.

Lemma gemvF_wrong : forall n m A x y, wf_dense n m A -> length x = m -> length y = n ->
  exists z, gemvF A x (map Some y) 0%Qc = Ok (map Some z) /\
    forall i, i < n -> vat y i <> 0%Qc -> vat z i <> mv m (dmat A) (vat x) i.
Proof.
  intros n m A x y wf Hx Hy. eexists. split; [apply (gemvF_zero n m); auto|].
  intros i Hi H E. apply H. rewrite vat_tab in E by auto.
  replace (vat y i) with (vat y i + mv m (dmat A) (vat x) i - mv m (dmat A) (vat x) i)%Qc by ring. rewrite E. ring.
Qed.

Lemma dense_trans_add_oob : forall n m A x y, wf_dense n m A -> m < n -> length x = n -> length y = m ->
  dense_matvecTrans_no_overwrite A x (map Some y) = Err EOob.
Proof.
  intros n m A x y (Hn & Hm & _) Hlt Hx Hy. unfold dense_matvecTrans_no_overwrite, gemvT.
  rewrite eqb0_false by apply qc_1_0. rewrite Hn. unfold scale_first.
  replace n with (m + S (n - m - 1)) by lia.
  assert (forall k d lo l, lo + d = length l ->
      for_n (d + S k) lo (fun i y => o <- rd y i ;; wr y i (o * 1)%Qc) (map Some l) = Err EOob) as G.
  { intros k. induction d as [|d IH]; intros lo l0 H0; cbn [plus for_n].
    - unfold rd. rewrite (proj2 (nth_error_None _ _)) by (rewrite map_length; lia). reflexivity.
    - rewrite (rd_some _ _ 0%Qc) by lia. cbn [bind]. rewrite wr_some by lia. cbn [bind]. apply IH. rewrite upd_length. lia. }
  unfold for_range. rewrite Nat.sub_0_r, G by lia. reflexivity.
Qed.
