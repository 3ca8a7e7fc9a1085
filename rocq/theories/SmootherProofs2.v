(** SOR on CSR and TimeStepper operators; SSOR and its symmetry. *)
From Coq Require Import Sorted.
From Verif Require Import Util Lin SparsitySpec CSRModel CSRSpec CSRProofs TriModel TriSpec TriProofs TriProofs2 TriProofs3
  SmootherModel SmootherSpec SmootherProofs.
Set Default Proof Using "Type".

(** * Rows of a combination of two matrices with one pattern *)
Lemma ent_sum row j : ent row j = suml (map (fun p => if fst p =? j then snd p else 0%Qc) row).
Proof. induction row as [|p row IH]; [reflexivity|]. rewrite ent_cons. cbn [map suml]. rewrite IH. reflexivity. Qed.

Lemma rowlist_tab n ip ind dat i : wf_rows n n ip ind dat -> i < n ->
  rowlist ip ind dat i = tab (nth (S i) ip 0 - nth i ip 0) (fun k => (nth (nth i ip 0 + k) ind 0, vat dat (nth i ip 0 + k))).
Proof.
  intros wf Hi. apply eq_tab with (d := (0, 0%Qc)); [apply (rowlist_length n n _ _ _ wf i Hi)|].
  intros k Hk. erewrite nth_error_nth; [reflexivity|]. rewrite (rowlist_nth n n _ _ _ wf i k Hi Hk). reflexivity.
Qed.

Definition lincomb (n : nat) (a : Qc) (u : list Qc) (b : Qc) (v : list Qc) : list Qc :=
  tab n (fun j => a * vat u j + b * vat v j)%Qc.

Section Combined.
  Variables (n : nat) (ip ind : list nat) (dS dM : list Qc) (a b : Qc).
  Hypothesis wfS : wf_rows n n ip ind dS.
  Hypothesis wfM : wf_rows n n ip ind dM.
  Notation dat := (lincomb (length ind) a dS b dM).

  Lemma wf_comb : wf_rows n n ip ind dat.
  Proof using wfS.
    destruct wfS as (H1 & H2 & H3 & H4 & H5). split; [auto|]. split; [auto|]. split; [auto|]. split; [apply tab_length|auto].
  Qed.

  Lemma comb_fst i : i < n -> map fst (rowlist ip ind dat i) = map fst (rowlist ip ind dS i).
  Proof using wfS.
    intros Hi. rewrite (rowlist_tab n _ _ _ i wf_comb Hi), (rowlist_tab n _ _ _ i wfS Hi).
    unfold tab. rewrite !map_map. reflexivity.
  Qed.

  Lemma comb_ent i j : i < n -> rowmat ip ind dat i j = mlin a (rowmat ip ind dS) b (rowmat ip ind dM) i j.
  Proof using wfS wfM.
    intros Hi. unfold rowmat, mlin. rewrite !ent_sum.
    rewrite (rowlist_tab n _ _ _ i wf_comb Hi), (rowlist_tab n _ _ _ i wfS Hi), (rowlist_tab n _ _ _ i wfM Hi).
    unfold tab. rewrite !map_map. cbn [fst snd]. rewrite <- !suml_map_scal, <- suml_map_plus. f_equal. apply map_ext_in.
    intros k Hk. apply in_seq in Hk. destruct (_ =? j); [|ring].
    pose proof wfS as (L1 & L2 & L3 & L4 & _).
    assert (nth (S i) ip 0 <= nth n ip 0) by (apply (wf_mono n n _ _ _ wfS); lia).
    unfold lincomb. rewrite vat_tab by lia. reflexivity.
  Qed.
End Combined.

(** * SOR *)
Section Apply.
  Variables (n : nat) (D : list Qc) (omega : Qc).
  Hypothesis HD : length D = n.
  Hypothesis Hd0 : forall i, i < n -> vat D i <> 0%Qc.
  Hypothesis Hom : omega <> 0%Qc.

  Lemma sor_csr_ok A x y0 pre post fwd : wf_csr n n A -> sorted_csr n A -> length x = n -> length y0 = n ->
    exists r, sor_matvec (SOR (OpCSR A) D None omega pre post fwd) x y0 = Ok (map Some r) /\
      the_solution n (split_of fwd (matrix A) D omega) x r.
  Proof using HD Hd0 Hom.
    intros [_ wf] Hs Hx Hy. unfold sor_matvec. cbn [sor_A sor_fwd sor_D sor_omega]. rewrite set0_ok. cbn [bind]. rewrite Hy.
    assert (Hc : forall j, j < length (c_indices A) -> aget (c_data A) j = Ok (vat (c_data A) j)).
    { intros j Hj. apply aget_nth. destruct wf as (_ & _ & _ & H4 & _). lia. }
    destruct fwd; cbn [split_of].
    - apply (forward_ok n _ _ _ _ D omega wf Hs Hc HD Hd0 Hom); [rewrite map_length, tab_length; auto|].
      intros i y Hi _. apply aget_nth. lia.
    - apply (backward_ok n _ _ _ _ D omega wf Hs Hc HD Hd0 Hom); [rewrite map_length, tab_length; auto|].
      intros i y Hi _. apply aget_nth. lia.
  Qed.

  Lemma sor_ts_ok T x y0 pre post fwd : wf_csr n n (ts_S T) -> wf_csr n n (ts_M T) ->
    c_indptr (ts_M T) = c_indptr (ts_S T) -> c_indices (ts_M T) = c_indices (ts_S T) ->
    sorted_csr n (ts_S T) -> length x = n -> length y0 = n ->
    exists r, sor_matvec (SOR (OpTS T) D None omega pre post fwd) x y0 = Ok (map Some r) /\
      the_solution n (split_of fwd (mlin (ts_facS T) (matrix (ts_S T)) (ts_facM T) (matrix (ts_M T))) D omega) x r.
  Proof using HD Hd0 Hom.
    intros [_ wfS] [_ wfM] E1 E2 Hs Hx Hy. unfold sor_matvec. cbn [sor_A sor_fwd sor_D sor_omega]. rewrite set0_ok. cbn [bind]. rewrite Hy.
    destruct T as [M S fS fM]. cbn [ts_M ts_S ts_facS ts_facM] in *. rewrite E1, E2 in wfM.
    pose proof (wf_comb n _ _ _ (c_data M) fS fM wfS) as wf.
    set (dat := lincomb (length (c_indices S)) fS (c_data S) fM (c_data M)) in *.
    match goal with |- context[(if fwd then _ else _) _ _ ?c _ _ _ _] => set (coef := c) end.
    assert (Hc : forall j, j < length (c_indices S) -> coef j = Ok (vat dat j)).
    { intros j Hj. unfold coef. destruct wfS as (_ & _ & _ & H4 & _). destruct wfM as (_ & _ & _ & H5 & _).
      rewrite (aget_nth (c_data S) j 0%Qc), (aget_nth (c_data M) j 0%Qc) by lia. cbn [bind]. unfold dat, lincomb. rewrite vat_tab by auto. reflexivity. }
    assert (Hs' : forall i, i < n -> StronglySorted lt (map fst (rowlist (c_indptr S) (c_indices S) dat i))).
    { intros i Hi. unfold dat. rewrite (comb_fst n _ _ _ _ _ _ wfS i Hi). apply Hs. auto. }
    assert (Hm : forall i j, i < n -> j < n -> rowmat (c_indptr S) (c_indices S) dat i j = mlin fS (matrix S) fM (matrix M) i j).
    { intros i j Hi Hj. unfold dat. rewrite (comb_ent n _ _ _ _ _ _ wfS wfM i j Hi). unfold mlin, matrix, rowmat. rewrite E1, E2. reflexivity. }
    destruct fwd; cbn [split_of].
    - destruct (forward_ok n _ _ _ _ D omega wf Hs' Hc HD Hd0 Hom (fun i _ => aget x i) x (map Some (tab n (fun _ => 0%Qc)))) as (r & Er & Hr).
      { rewrite map_length, tab_length. auto. }
      { intros i y Hi _. apply aget_nth. lia. }
      exists r. split; auto. revert Hr. apply the_solution_ext; auto.
      intros i j Hi Hj. unfold lower_split. rewrite Hm by auto. reflexivity.
    - destruct (backward_ok n _ _ _ _ D omega wf Hs' Hc HD Hd0 Hom (fun i _ => aget x i) x (map Some (tab n (fun _ => 0%Qc)))) as (r & Er & Hr).
      { rewrite map_length, tab_length. auto. }
      { intros i y Hi _. apply aget_nth. lia. }
      exists r. split; auto. revert Hr. apply the_solution_ext; auto.
      intros i j Hi Hj. unfold upper_split. rewrite Hm by auto. reflexivity.
  Qed.

  (** * SSOR *)
  Lemma ssor_ok A x y0 : wf_csr n n A -> sorted_csr n A -> length x = n -> length y0 = n ->
    exists u v, ssor_matvec A D omega x y0 = Ok (map Some (tab n (fun i => ((1 + 1) - omega) * vat v i)%Qc)) /\
      the_solution n (lower_split (matrix A) D omega) x u /\
      the_solution n (upper_split (matrix A) D omega) (tab n (fun i => vat D i / omega * vat u i)%Qc) v.
  Proof using HD Hd0 Hom.
    intros [_ wf] Hs Hx Hy. unfold ssor_matvec. rewrite set0_ok. cbn [bind]. rewrite Hy.
    assert (Hc : forall j, j < length (c_indices A) -> aget (c_data A) j = Ok (vat (c_data A) j)).
    { intros j Hj. apply aget_nth. destruct wf as (_ & _ & _ & H4 & _). lia. }
    destruct (forward_ok n _ _ _ _ D omega wf Hs Hc HD Hd0 Hom (fun i _ => aget x i) x (map Some (tab n (fun _ => 0%Qc)))) as (u & Eu & Hu).
    { rewrite map_length, tab_length. auto. }
    { intros i y Hi _. apply aget_nth. lia. }
    rewrite Eu. cbn [bind]. assert (Lu : length u = n) by (apply (Hu u); auto).
    rewrite HD, (fill_loop n _ _ (fun i => vat D i / omega * vat u i)%Qc).
    2: { rewrite map_length. auto. }
    2: { intros i y Hi Hl E. rewrite (rd_ok _ _ (vat u i)).
         - cbn [bind]. rewrite (aget_nth _ _ 0%Qc) by lia. cbn [bind]. rewrite qdiv_ok by auto. cbn [bind]. fold (vat D i).
           f_equal. ring.
         - rewrite E. apply map_nth_error, nth_error_vat. lia. }
    cbn [bind].
    destruct (backward_ok n _ _ _ _ D omega wf Hs Hc HD Hd0 Hom (fun i y => rd y i)
       (tab n (fun i => vat D i / omega * vat u i)%Qc) (map Some (tab n (fun i => vat D i / omega * vat u i)%Qc))) as (v & Ev & Hv).
    { rewrite map_length, tab_length. auto. }
    { intros i y Hi E. apply rd_ok. rewrite E, vat_tab by auto.
      apply map_nth_error. apply (nth_error_tab n (fun i => vat D i / omega * vat u i)%Qc). auto. }
    rewrite Ev. cbn [bind]. assert (Lv : length v = n) by (apply (Hv v); auto).
    exists u, v. split; [|split; auto].
    apply fill_loop; [rewrite map_length; auto|].
    intros i y Hi Hl E. rewrite (rd_ok _ _ (vat v i)).
    - cbn [bind]. f_equal. ring.
    - rewrite E. apply map_nth_error, nth_error_vat. lia.
  Qed.

  Lemma split_adjoint A x y : symmetric n A ->
    dotf n y (mv n (upper_split A D omega) x) = dotf n (mv n (lower_split A D omega) y) x.
  Proof using All.
    intros HA. rewrite mv_adjoint. unfold dotf. apply sumf_ext. intros i Hi. f_equal. unfold mv. apply sumf_ext. intros j Hj.
    f_equal. unfold mt, upper_split, lower_split. rewrite (Nat.eqb_sym i j). destruct (j <? i); [apply HA; auto|].
    destruct (Nat.eqb_spec j i); subst; auto.
  Qed.

  Lemma ssor_sym A x1 u1 v1 x2 u2 v2 : symmetric n A ->
    the_solution n (lower_split A D omega) x1 u1 ->
    the_solution n (upper_split A D omega) (tab n (fun i => vat D i / omega * vat u1 i)%Qc) v1 ->
    the_solution n (lower_split A D omega) x2 u2 ->
    the_solution n (upper_split A D omega) (tab n (fun i => vat D i / omega * vat u2 i)%Qc) v2 ->
    dotf n (vat x2) (vat v1) = dotf n (vat v2) (vat x1).
  Proof using All.
    intros HA S1 T1 S2 T2.
    assert (I : forall M c z, the_solution n M c z -> forall i, i < n -> mv n M (vat z) i = vat c i).
    { intros M c z H. apply (H z). auto. }
    assert (E : forall xa ua va xb ub vb,
      the_solution n (lower_split A D omega) xa ua ->
      the_solution n (upper_split A D omega) (tab n (fun i => vat D i / omega * vat ua i)%Qc) va ->
      the_solution n (lower_split A D omega) xb ub ->
      the_solution n (upper_split A D omega) (tab n (fun i => vat D i / omega * vat ub i)%Qc) vb ->
      dotf n (vat xb) (vat va) = dotf n (vat ub) (fun i => vat D i / omega * vat ua i)%Qc).
    { intros xa ua va xb ub vb Sa Ta Sb Tb.
      transitivity (dotf n (mv n (lower_split A D omega) (vat ub)) (vat va)).
      { apply sumf_ext. intros i Hi. rewrite (I _ _ _ Sb) by auto. reflexivity. }
      rewrite <- split_adjoint by auto. apply sumf_ext. intros i Hi. rewrite (I _ _ _ Ta) by auto. rewrite vat_tab by auto. reflexivity. }
    rewrite (E x1 u1 v1 x2 u2 v2) by auto. rewrite (dotf_comm n (vat v2) (vat x1)), (E x2 u2 v2 x1 u1 v1) by auto.
    apply sumf_ext. intros i Hi. ring.
  Qed.
End Apply.

(** * Symmetric storage *)
Lemma sor_sss_fails A D omega pre post x y0 : wf_sss (length D) A -> 0 < length D -> length x = length D -> length y0 = length D ->
  exists P, sor_init (OpSSS A) D omega pre post = Ok P /\
    sor_matvec (sor_setPre P) x y0 = Err EUninit /\ sor_matvec (sor_setPost P) x y0 = Err EUninit.
Proof.
  intros (wf & _ & Hlow) Hpos Hx Hy. eexists. split; [reflexivity|].
  assert (H : forall fwd, sor_matvec (SOR (OpSSS A) D None omega pre post fwd) x y0 = Err EUninit).
  { intros fwd. unfold sor_matvec. cbn [sor_A sor_fwd sor_D sor_omega sor_diag]. rewrite set0_ok. cbn [bind].
    destruct (length D) as [|m] eqn:EL; [lia|]. destruct fwd.
    - unfold for_range at 1. rewrite Nat.sub_0_r. cbn [for_n]. rewrite (aget_nth x 0 0%Qc) by lia. cbn [bind].
      rewrite (for_row_list (S m) (S m) _ _ _ wf 0 _ (fun p t => v <- rd (map Some (tab (length y0) (fun _ => 0%Qc))) (fst p) ;; Ok (t - snd p * v)%Qc)).
      + destruct (rowlist (s_indptr A) (s_indices A) (s_data A) 0) as [|p row] eqn:Er; [reflexivity|].
        exfalso. specialize (Hlow 0 p). rewrite Er in Hlow. specialize (Hlow ltac:(lia) (or_introl eq_refl)). lia.
      + lia.
      + intros jj j d s _ E1 E2. rewrite (aget_ok _ _ _ E1), (aget_ok _ _ _ E2). reflexivity.
    - rewrite set0_ok. cbn [bind]. unfold for_back, for_range_down. rewrite Nat.sub_0_r. cbn [for_down].
      replace (S m - 1) with m by lia. rewrite (aget_nth x m 0%Qc) by lia. cbn [bind].
      rewrite (rd_some _ _ 0%Qc) by (rewrite tab_length, map_length, tab_length; lia). reflexivity. }
  split; apply H.
Qed.
