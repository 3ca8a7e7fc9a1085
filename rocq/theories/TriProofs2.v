(** Proofs about the substitution kernels and the LU / Cholesky solve phases. *)
From Coq Require Import Permutation.
From Verif Require Import Util Lin SparsitySpec CSRModel CSRSpec CSRProofs TriModel TriSpec TriProofs.
Set Default Proof Using "Type".

Lemma slice_tail {A} (L : list A) lo hi x r : slice L lo hi = x :: r -> slice L (lo + 1) hi = r.
Proof.
  unfold slice. intros E. destruct (nth_error L lo) as [c|] eqn:Ec.
  - destruct (cut_at _ _ _ Ec) as (_ & Es & _). rewrite Es in E.
    destruct (hi - lo) as [|k] eqn:Ek; cbn [firstn] in E; [discriminate|].
    inversion E; subst. rewrite Nat.add_1_r. f_equal. lia.
  - apply nth_error_None in Ec. rewrite (skipn_all2 L) in E by lia. rewrite firstn_nil in E. discriminate.
Qed.

Lemma slice_init {A} (L : list A) lo hi x r : hi <= length L -> slice L lo hi = r ++ [x] -> slice L lo (hi - 1) = r.
Proof.
  unfold slice. intros Hh E.
  assert (Hlen : length (firstn (hi - lo) (skipn lo L)) = S (length r)) by (rewrite E, app_length; cbn; lia).
  rewrite firstn_length, skipn_length in Hlen.
  replace (hi - 1 - lo) with (Nat.min (length r) (hi - lo)) by lia.
  rewrite <- firstn_firstn, E. apply firstn_at.
Qed.

(** * Columns *)
Section Cols.
  Variables (n : nat) (ip ind : list nat) (dat : list Qc).

  Lemma col_loop (lo hi j : nat) col yl :
    hi <= length (combine ind dat) -> slice (combine ind dat) lo hi = col -> j < length yl ->
    (forall p, In p col -> fst p < length yl /\ fst p <> j) ->
    exists yl', for_range lo hi (fun i y =>
        k <- aget ind i ;; d <- aget dat i ;; yj <- rd y j ;; addto y k (d * yj)%Qc) (map Some yl) = Ok (map Some yl') /\
      length yl' = length yl /\ forall k, vat yl' k = (vat yl k + ent col k * vat yl j)%Qc.
  Proof.
    intros Hhi Hs Hj Hc.
    rewrite (for_range_list (combine ind dat) _ (fun p y => yj <- rd y j ;; addto y (fst p) (snd p * yj)%Qc)); auto.
    - rewrite Hs. apply scatter_self; auto.
    - intros jj [k d] s Hjj E. apply nth_error_combine in E as [E1 E2].
      rewrite (aget_ok _ _ _ E1). cbn [bind]. rewrite (aget_ok _ _ _ E2). reflexivity.
  Qed.

  (** Position of the first / last entry of a column. *)
  Lemma col_first j j' d rest : wf_rows n n ip ind dat -> j < n -> rowlist ip ind dat j = (j', d) :: rest ->
    nth j ip 0 < nth (S j) ip 0 /\ nth_error ind (nth j ip 0) = Some j' /\ nth_error dat (nth j ip 0) = Some d.
  Proof.
    intros wf Hj E. pose proof (rowlist_length n n _ _ _ wf j Hj) as HL. rewrite E in HL. cbn [length] in HL.
    split; [lia|].
    unfold rowlist, slice in E. destruct (nth_error (combine ind dat) (nth j ip 0)) as [c|] eqn:Ec.
    - destruct (cut_at _ _ _ Ec) as (_ & Es & _). rewrite Es in E.
      destruct (nth (S j) ip 0 - nth j ip 0); cbn [firstn] in E; [discriminate|]. inversion E; subst.
      apply nth_error_combine; auto.
    - apply nth_error_None in Ec. rewrite (skipn_all2 (combine ind dat)) in E by lia. rewrite firstn_nil in E. discriminate.
  Qed.

  Lemma row_at i k p : wf_rows n n ip ind dat -> i < n -> nth_error (rowlist ip ind dat i) k = Some p ->
    nth i ip 0 + k < nth (S i) ip 0 /\
    nth_error ind (nth i ip 0 + k) = Some (fst p) /\ nth_error dat (nth i ip 0 + k) = Some (snd p).
  Proof.
    intros wf Hi E. assert (Hk : k < length (rowlist ip ind dat i)) by (apply nth_error_Some; congruence).
    rewrite (rowlist_length n n _ _ _ wf i Hi) in Hk. split; [lia|].
    rewrite (rowlist_nth n n _ _ _ wf i k Hi Hk) in E. inversion E; subst. cbn [fst snd].
    pose proof (wf_hi n n _ _ _ wf i Hi) as Hh. rewrite (combine_len n n _ _ _ wf) in Hh.
    pose proof wf as (_ & _ & _ & Hd & _).
    split; apply nth_error_nth'; lia.
  Qed.

  Lemma col_last j d rest : wf_rows n n ip ind dat -> j < n -> rowlist ip ind dat j = rest ++ [(j, d)] ->
    1 <= nth (S j) ip 0 /\ nth j ip 0 <= nth (S j) ip 0 - 1 /\ nth_error dat (nth (S j) ip 0 - 1) = Some d.
  Proof.
    intros wf Hj E. pose proof (rowlist_length n n _ _ _ wf j Hj) as HL. rewrite E, app_length in HL. cbn [length] in HL.
    destruct (row_at j (length rest) (j, d) wf Hj) as (H1 & _ & H2).
    { rewrite E, nth_error_app2, Nat.sub_diag by lia. reflexivity. }
    cbn [snd] in H2. split; [lia|]. split; [lia|]. rewrite <- H2. f_equal. lia.
  Qed.

  Lemma lower_cols_tri : lower_cols n ip ind dat -> lowertri n (colmat ip ind dat).
  Proof.
    intros [_ H]. unfold colmat. split.
    - intros i j Hi Hj. destruct (H j) as (d & rest & -> & _ & Hr); [lia|]. apply ent_absent.
      intros p [<-|Hp]; cbn [fst]; [lia|]. specialize (Hr p Hp). lia.
    - intros i Hi. destruct (H i) as (d & rest & -> & Hd & Hr); [lia|]. rewrite ent_cons. cbn [fst snd].
      rewrite Nat.eqb_refl, ent_absent; [|intros p Hp; specialize (Hr p Hp); lia].
      replace (d + 0)%Qc with d by ring. auto.
  Qed.

  Lemma upper_cols_tri : upper_cols n ip ind dat -> uppertri n (colmat ip ind dat).
  Proof.
    intros [_ H]. unfold colmat. split.
    - intros i j Hi Hj. destruct (H j) as (d & rest & -> & _ & Hr); [lia|]. apply ent_absent.
      intros p Hp. apply in_app_or in Hp as [Hp|[<-|[]]]; cbn [fst]; [specialize (Hr p Hp)|]; lia.
    - intros i Hi. destruct (H i) as (d & rest & -> & Hd & Hr); [lia|]. rewrite ent_app, ent_cons. cbn [fst snd].
      rewrite Nat.eqb_refl, ent_absent, ent_nil; [|intros p Hp; specialize (Hr p Hp); lia].
      replace (0 + (d + 0))%Qc with d by ring. auto.
  Qed.

  Lemma with_diag_lower M dg : lowertri n M -> (forall i, i < n -> dg i <> 0%Qc) -> lowertri n (with_diag M dg).
  Proof.
    intros [H1 H2] Hd. unfold with_diag. split.
    - intros i j Hi Hj. destruct (Nat.eqb_spec i j); [lia|]. auto.
    - intros i Hi. rewrite Nat.eqb_refl. auto.
  Qed.

  Definition unit_or (unit : bool) : mat :=
    if unit then with_diag (colmat ip ind dat) (fun _ => 1%Qc) else colmat ip ind dat.

  Lemma qc_1_0 : 1%Qc <> 0%Qc.
  Proof. intros H. discriminate H. Qed.
  Lemma qinv_nz (x : Qc) : x <> 0%Qc -> (/ x)%Qc <> 0%Qc.
  Proof.
    intros H E. apply qc_1_0. rewrite <- (Qcmult_inv_r x H), E. ring.
  Qed.

  Lemma forward_solve_csc_ok unit b y0 : lower_cols n ip ind dat -> length b = n -> length y0 = n ->
    exists y, forward_solve_csc ip ind dat b (map Some y0) unit = Ok (map Some y) /\
      the_solution n (unit_or unit) (tab n (fun i => vat b i - vat y0 i)%Qc) y.
  Proof.
    intros HL Hb Hy. unfold forward_solve_csc. rewrite Hb.
    apply forward_gen; auto.
    { unfold unit_or. destruct unit; [apply with_diag_lower|]; auto using lower_cols_tri.
      intros i Hi. apply qc_1_0. }
    intros j yl Hj Hl. destruct HL as [wf HL]. destruct (HL j Hj) as (d & rest & Er & Hd & Hr).
    destruct (col_first j j d rest wf Hj Er) as (Hlt & _ & Ed).
    rewrite (wf_ip n n _ _ _ wf j) by lia. cbn [bind]. rewrite Nat.add_1_r, (wf_ip n n _ _ _ wf (S j)) by lia. cbn [bind].
    rewrite (aget_nth b j 0%Qc) by lia. cbn [bind]. rewrite (rd_some _ _ 0%Qc) by lia. cbn [bind].
    set (v := if unit then (vat b j - vat yl j)%Qc else ((vat b j - vat yl j) / d)%Qc).
    assert ((if unit then Ok (nth j b 0 - nth j yl 0)%Qc
      else d0 <- aget dat (nth j ip 0);; qdiv (nth j b 0 - nth j yl 0)%Qc d0) = Ok v) as ->.
    { unfold v. destruct unit; [reflexivity|]. rewrite (aget_ok _ _ _ Ed). cbn [bind]. rewrite qdiv_ok by auto. reflexivity. }
    cbn [bind]. rewrite wr_some by lia. cbn [bind].
    destruct (col_loop (nth j ip 0 + 1) (nth (S j) ip 0) j rest (upd yl j v)) as (yl' & E & Hl' & Hv).
    - apply (wf_hi n n _ _ _ wf); auto.
    - apply (slice_tail _ _ _ (j, d)). exact Er.
    - rewrite upd_length; lia.
    - intros p Hp. rewrite upd_length, Hl. split; [|specialize (Hr p Hp); lia].
      apply (row_cols n n _ _ _ wf j). rewrite Er. right; auto.
    - exists yl'. rewrite E. split; auto. rewrite upd_length in Hl'. split; [lia|].
      assert (Hvj : vat yl' j = v).
      { rewrite Hv, !vat_upd by lia. rewrite Nat.eqb_refl, ent_absent; [ring|].
        intros p Hp. specialize (Hr p Hp). lia. }
      split.
      + rewrite Hvj. unfold v, unit_or, with_diag, colmat. destruct unit.
        * rewrite Nat.eqb_refl. ring.
        * rewrite Er, ent_cons. cbn [fst snd]. rewrite Nat.eqb_refl, ent_absent; [field; auto|].
          intros p Hp. specialize (Hr p Hp). lia.
      + intros k Hk Hne. rewrite Hvj, Hv, !vat_upd by lia. rewrite Nat.eqb_refl.
        destruct (Nat.eqb_spec k j); [lia|].
        assert (Hm : unit_or unit k j = ent ((j, d) :: rest) k).
        { unfold unit_or, with_diag, colmat. destruct unit; rewrite Er; [destruct (Nat.eqb_spec k j); [lia|]|]; auto. }
        rewrite Hm, ent_cons. cbn [fst]. destruct (Nat.eqb_spec j k); [lia|].
        destruct (Nat.ltb_spec j k); [ring|].
        rewrite ent_absent; [ring|]. intros p Hp. specialize (Hr p Hp). lia.
  Qed.

  Lemma backward_solve_csc_ok b y0 : upper_cols n ip ind dat -> length b = n -> length y0 = n ->
    exists y, backward_solve_csc ip ind dat b (map Some y0) = Ok (map Some y) /\
      the_solution n (colmat ip ind dat) (tab n (fun i => vat b i - vat y0 i)%Qc) y.
  Proof.
    intros HL Hb Hy. unfold backward_solve_csc. rewrite Hb.
    apply backward_gen; auto using upper_cols_tri.
    intros j yl Hj Hl. destruct HL as [wf HL]. destruct (HL j Hj) as (d & rest & Er & Hd & Hr).
    destruct (col_last j d rest wf Hj Er) as (Hge & Hle & Ed).
    rewrite (wf_ip n n _ _ _ wf j) by lia. cbn [bind]. rewrite Nat.add_1_r, (wf_ip n n _ _ _ wf (S j)) by lia. cbn [bind].
    destruct (Nat.leb_spec 1 (nth (S j) ip 0)) as [_|]; [|lia]. cbn [guard bind].
    rewrite (aget_nth b j 0%Qc) by lia. cbn [bind]. rewrite (rd_some _ _ 0%Qc) by lia. cbn [bind].
    rewrite (aget_ok _ _ _ Ed). cbn [bind]. rewrite qdiv_ok by auto. cbn [bind].
    set (v := ((nth j b 0 - nth j yl 0) / d)%Qc).
    rewrite wr_some by lia. cbn [bind].
    destruct (col_loop (nth j ip 0) (nth (S j) ip 0 - 1) j rest (upd yl j v)) as (yl' & E & Hl' & Hv).
    - pose proof (wf_hi n n _ _ _ wf j Hj). lia.
    - apply (slice_init _ _ _ (j, d)); [apply (wf_hi n n _ _ _ wf); auto|]. exact Er.
    - rewrite upd_length; lia.
    - intros p Hp. rewrite upd_length, Hl. split; [|specialize (Hr p Hp); lia].
      apply (row_cols n n _ _ _ wf j). rewrite Er. apply in_or_app. left; auto.
    - exists yl'. rewrite E. split; auto. rewrite upd_length in Hl'. split; [lia|].
      assert (Hvj : vat yl' j = v).
      { rewrite Hv, !vat_upd by lia. rewrite Nat.eqb_refl, ent_absent; [ring|].
        intros p Hp. specialize (Hr p Hp). lia. }
      split.
      + rewrite Hvj. unfold v, colmat.
        rewrite Er, ent_app, ent_cons, ent_nil. cbn [fst snd]. rewrite Nat.eqb_refl, ent_absent; [unfold vat; field; auto|].
          intros p Hp. specialize (Hr p Hp). lia.
      + intros k Hk Hne. rewrite Hvj, Hv, !vat_upd by lia. rewrite Nat.eqb_refl.
        destruct (Nat.eqb_spec k j); [lia|].
        assert (Hm : colmat ip ind dat k j = ent (rest ++ [(j, d)]) k) by (unfold colmat; rewrite Er; auto).
        rewrite Hm, ent_app, ent_cons, ent_nil. cbn [fst]. destruct (Nat.eqb_spec j k); [lia|].
        destruct (Nat.ltb_spec k j); [ring|].
        rewrite ent_absent; [ring|]. intros p Hp. specialize (Hr p Hp). lia.
  Qed.

  (** * Diagonal kept separately *)
  Lemma strict_above_tri diag : strict_above n ip ind dat -> (forall i, i < n -> vat diag i <> 0%Qc) ->
    lowertri n (with_diag (colmat ip ind dat) (vat diag)) /\ uppertri n (with_diag (rowmat ip ind dat) (vat diag)).
  Proof.
    intros [_ H] Hd. unfold with_diag, colmat, rowmat. split; split.
    - intros i j Hi Hj. destruct (Nat.eqb_spec i j); [lia|]. apply ent_absent.
      intros p Hp. specialize (H j p ltac:(lia) Hp). lia.
    - intros i Hi. rewrite Nat.eqb_refl. auto.
    - intros i j Hi Hj. destruct (Nat.eqb_spec i j); [lia|]. apply ent_absent.
      intros p Hp. specialize (H i p ltac:(lia) Hp). lia.
    - intros i Hi. rewrite Nat.eqb_refl. auto.
  Qed.

  (** [diag] as stored: the diagonal or, for the noInverse variants, its reciprocals *)
  Definition stored_diag (inverse : bool) (diag : list Qc) (i : nat) : Qc :=
    if inverse then (/ vat diag i)%Qc else vat diag i.

  Lemma forward_solve_sss_ok inverse unit diag b y0 :
    strict_above n ip ind dat -> length diag = n -> (forall i, i < n -> vat diag i <> 0%Qc) ->
    length b = n -> length y0 = n ->
    exists y, forward_solve_sss_gen inverse ip ind dat diag b (map Some y0) unit = Ok (map Some y) /\
      the_solution n (with_diag (colmat ip ind dat) (if unit then fun _ => 1%Qc else stored_diag inverse diag))
        (tab n (fun i => vat b i - vat y0 i)%Qc) y.
  Proof.
    intros HL Hdl Hd Hb Hy. unfold forward_solve_sss_gen. rewrite Hb.
    set (dg := if unit then fun _ => 1%Qc else stored_diag inverse diag).
    assert (Hdg : forall i, i < n -> dg i <> 0%Qc).
    { intros i Hi. unfold dg, stored_diag. destruct unit; [apply qc_1_0|]. destruct inverse; auto.
      apply qinv_nz, (Hd i Hi). }
    apply forward_gen; auto.
    { destruct (strict_above_tri diag HL Hd) as [[H1 _] _]. unfold with_diag in *. split.
      - intros i j Hi Hj. specialize (H1 i j Hi Hj). destruct (Nat.eqb_spec i j); [lia|auto].
      - intros i Hi. rewrite Nat.eqb_refl. auto. }
    intros j yl Hj Hl. destruct HL as [wf HL].
    rewrite (aget_nth b j 0%Qc) by lia. cbn [bind]. rewrite (rd_some _ _ 0%Qc) by lia. cbn [bind].
    set (v := ((vat b j - vat yl j) / dg j)%Qc).
    assert ((if unit then Ok (nth j b 0 - nth j yl 0)%Qc
      else d <- aget diag j;; (if inverse then Ok ((nth j b 0 - nth j yl 0) * d)%Qc else qdiv (nth j b 0 - nth j yl 0)%Qc d)) = Ok v) as ->.
    { unfold v, dg, stored_diag. destruct unit.
      - f_equal. unfold vat. field; apply qc_1_0.
      - rewrite (aget_nth _ _ 0%Qc) by lia. cbn [bind]. destruct inverse.
        + f_equal. unfold vat. field. split; [apply (Hd j Hj)|apply qc_1_0].
        + rewrite qdiv_ok by (apply (Hd j Hj)). reflexivity. }
    cbn [bind]. rewrite wr_some by lia. cbn [bind]. unfold for_row.
    rewrite (wf_ip n n _ _ _ wf j) by lia. cbn [bind]. rewrite Nat.add_1_r, (wf_ip n n _ _ _ wf (S j)) by lia. cbn [bind].
    destruct (col_loop (nth j ip 0) (nth (S j) ip 0) j (rowlist ip ind dat j) (upd yl j v)) as (yl' & E & Hl' & Hv).
    - apply (wf_hi n n _ _ _ wf); auto.
    - reflexivity.
    - rewrite upd_length; lia.
    - intros p Hp. rewrite upd_length, Hl. split; [|specialize (HL j p Hj Hp); lia].
      apply (row_cols n n _ _ _ wf j); auto.
    - exists yl'. rewrite E. split; auto. rewrite upd_length in Hl'. split; [lia|].
      assert (Hvj : vat yl' j = v).
      { rewrite Hv, !vat_upd by lia. rewrite Nat.eqb_refl, ent_absent; [ring|].
        intros p Hp. specialize (HL j p Hj Hp). lia. }
      unfold with_diag, colmat. split.
      + rewrite Hvj, Nat.eqb_refl. unfold v. field. auto.
      + intros k Hk Hne. rewrite Hvj, Hv, !vat_upd by lia. rewrite Nat.eqb_refl.
        destruct (Nat.eqb_spec k j); [lia|].
        destruct (Nat.ltb_spec j k); [ring|].
        rewrite ent_absent; [ring|]. intros p Hp. specialize (HL j p Hj Hp). lia.
  Qed.

  (** temp -= data[jj]*y[indices[jj]] over the entries of a row *)
  Lemma row_sub_loop (row : list (nat * Qc)) (y : buf Qc) (u : nat -> Qc) : forall t,
    (forall p, In p row -> nth_error y (fst p) = Some (Some (u (fst p)))) ->
    for_list row (fun p t => yk <- rd y (fst p) ;; Ok (t - snd p * yk)%Qc) t
    = Ok (t - suml (map (fun p => snd p * u (fst p)) row))%Qc.
  Proof.
    induction row as [|p row IH]; intros t H; cbn [for_list map suml].
    - f_equal. ring.
    - rewrite (rd_ok _ _ (u (fst p))) by (apply H; left; auto). cbn [bind].
      rewrite IH by (intros q Hq; apply H; right; auto). f_equal. ring.
  Qed.

  Lemma ent_dot_ge row i u : (forall p, In p row -> i < fst p < n) ->
    suml (map (fun p => snd p * u (fst p)) row)%Qc = sum_ge n (S i) (fun l => ent row l * u l)%Qc.
  Proof.
    intros H. rewrite (ent_dot row n u) by (intros p Hp; apply H; auto).
    apply sumf_ext. intros l Hl. destruct (Nat.leb_spec (S i) l); auto.
    rewrite ent_absent; [ring|]. intros p Hp. specialize (H p Hp). lia.
  Qed.

  Lemma backward_solve_sss_ok inverse diag b (y : buf Qc) :
    strict_above n ip ind dat -> length diag = n -> (forall i, i < n -> vat diag i <> 0%Qc) ->
    length b = n -> length y = n ->
    exists x, backward_solve_sss_gen inverse ip ind dat diag b y = Ok (map Some x) /\
      the_solution n (with_diag (rowmat ip ind dat) (stored_diag inverse diag)) b x.
  Proof.
    intros HL Hdl Hd Hb Hy. unfold backward_solve_sss_gen. rewrite Hb.
    set (dg := stored_diag inverse diag).
    assert (Hdg : forall i, i < n -> dg i <> 0%Qc).
    { intros i Hi. unfold dg, stored_diag. destruct inverse; auto.
      apply qinv_nz, (Hd i Hi). }
    apply backward_row_gen; auto.
    { destruct (strict_above_tri diag HL Hd) as [_ [H1 _]]. unfold with_diag in *. split.
      - intros i j Hi Hj. specialize (H1 i j Hi Hj). destruct (Nat.eqb_spec i j); [lia|auto].
      - intros i Hi. rewrite Nat.eqb_refl. auto. }
    intros i u yb Hi Hl Hu _. destruct HL as [wf HL].
    rewrite (aget_nth b i 0%Qc) by lia. cbn [bind].
    rewrite (for_row_list n n _ _ _ wf i _ (fun p t => yk <- rd yb (fst p) ;; Ok (t - snd p * yk)%Qc)); auto.
    2: { intros jj j d s Hjj E1 E2. rewrite (aget_ok _ _ _ E2). cbn [bind]. rewrite (aget_ok _ _ _ E1). reflexivity. }
    rewrite (row_sub_loop _ yb u).
    2: { intros p Hp. apply Hu. split; [apply (HL i p Hi Hp)|apply (row_cols n n _ _ _ wf i); auto]. }
    cbn [bind]. rewrite (aget_nth diag i 0%Qc) by lia. cbn [bind].
    rewrite (ent_dot_ge _ i) by (intros p Hp; split; [apply (HL i p Hi Hp)|apply (row_cols n n _ _ _ wf i); auto]).
    set (t := (nth i b 0 - _)%Qc). exists (t / dg i)%Qc. split.
    - unfold dg, stored_diag. destruct inverse; cbn [bind].
      + f_equal. unfold vat. field. split; [apply (Hd i Hi)|apply qc_1_0].
      + rewrite qdiv_ok by (apply (Hd i Hi)). reflexivity.
    - unfold with_diag, rowmat. rewrite Nat.eqb_refl. replace (dg i * (t / dg i))%Qc with t by (field; auto).
      unfold t, vat. f_equal. apply sum_ge_ext. intros l Hli. destruct (Nat.eqb_spec i l); [lia|auto].
  Qed.
End Cols.
