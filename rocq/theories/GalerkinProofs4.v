(** Proofs about the products R*A*R.T: the three routines. *)
From Coq Require Import Sorted.
From Verif Require Import Util Lin SparsitySpec CSRModel CSRSpec CSRProofs Rows SSSProofs OpsProofs OpsProofs3 OpsProofs4 AssemblyModel AssemblySpec AssemblyProofs AssemblyProofs2 RestrictionProofs NonlocalProofs3 NonlocalProofs5
  GalerkinModel GalerkinSpec GalerkinProofs GalerkinProofs2 GalerkinProofs3.
Set Default Proof Using "Type".
Local Open Scope nat_scope.

Lemma added_ext n M M' Ac B : (forall i j, i < n -> j < n -> M i j = M' i j) -> added n M Ac B -> added n M' Ac B.
Proof.
  intros H (H1 & H2 & H3). split; [exact H1|]. split; [exact H2|]. intros i j Hi Hj. destruct (H3 i j Hi Hj) as [K1 K2]. split; [|exact K2].
  intros K. rewrite K1, H by auto. reflexivity.
Qed.
Lemma galerkin_diag_sym nf R d i j : galerkin nf R (dmat d) i j = galerkin nf R (dmat d) j i.
Proof. rewrite !galerkin_diag. apply sumf_ext. intros c _. ring. Qed.

Lemma multiply_thm nc nf R A Ac : wf_csr nc nf R -> sorted_csr nc R -> op_ok nf A -> op_ok nc Ac ->
  (forall A' Ac', A = SCsr A' -> Ac = SSym Ac' -> False) ->
  exists B, multiply R A Ac = Ok B /\ added nc (galerkin nf (matrix R) (op_matrix A)) Ac B.
Proof.
  intros WR SR OA OC Hmix. unfold multiply. destruct A as [A|A]; cbn [o_indptr o_indices o_data op_matrix op_ok] in *.
  - destruct Ac as [Ac|Ac]; [|exfalso; apply (Hmix A Ac); reflexivity].
    apply product_csr_csr; [|exact OC]. intros i j Hi Hj. apply (getEntry_ok nc nf R _ _ _ WR SR); auto; [apply (proj2 (proj1 OA))|apply (proj2 OA)].
  - destruct OA as [WA SA]. pose proof WA as (WAr & WAd & _).
    assert (HE : forall i j, i < nc -> j < nc -> getEntry (c_indptr R) (c_indices R) (c_data R) (s_indptr A) (s_indices A) (s_data A) i j = Ok (galerkin nf (matrix R) (lower A) i j)).
    { intros i j Hi Hj. apply (getEntry_ok nc nf R _ _ _ WR SR); auto. }
    assert (HD : forall i j, i < nc -> j < nc -> getEntryFromD (c_indptr R) (c_indices R) (c_data R) (s_diag A) i j = Ok (galerkin nf (matrix R) (dmat (s_diag A)) i j)).
    { intros i j Hi Hj. apply (getEntryFromD_ok nc nf R WR SR); auto. }
    destruct Ac as [Ac|Ac].
    + destruct (product_sss_csr nc false _ _ _ _ HE A HD ltac:(discriminate) Ac OC) as (B & E & Hadd). exists B. split; [exact E|]. eapply added_ext; [|exact Hadd].
      intros i j _ _. rewrite galerkin_sym. reflexivity.
    + destruct (product_sss_sss nc false _ _ _ _ HE A HD ltac:(discriminate) Ac OC) as (B & E & Hadd); [intros; apply galerkin_diag_sym|]. exists B. split; [exact E|].
      eapply added_ext; [|exact Hadd]. intros i j _ _. rewrite galerkin_sym. destruct (i =? j); ring.
Qed.

(** A in CSR format, Ac in symmetric format: the diagonal of Ac is left as it was. *)
Lemma multiply_mixed nc nf R A Ac : wf_csr nc nf R -> sorted_csr nc R -> op_ok nf (SCsr A) -> op_ok nc (SSym Ac) ->
  exists B, multiply R (SCsr A) (SSym Ac) = Ok (SSym B) /\ op_ok nc (SSym B) /\ s_diag B = s_diag Ac /\
    forall i j, i < nc -> j < i -> holds (SSym Ac) i j -> sym_matrix B i j = (sym_matrix Ac i j + galerkin nf (matrix R) (matrix A) i j)%Qc.
Proof.
  intros WR SR OA OC. unfold multiply. cbn [o_indptr o_indices o_data op_ok] in *.
  destruct (product_csr_sss nc false (getEntry (c_indptr R) (c_indices R) (c_data R) (c_indptr A) (c_indices A) (c_data A)) (galerkin nf (matrix R) (matrix A))
    (getEntryFromD (c_indptr R) (c_indices R) (c_data R))) with (A := A) (Ac := Ac) as (B & E & H1 & _ & H2 & H3).
  - intros i j Hi Hj. apply (getEntry_ok nc nf R _ _ _ WR SR); auto; [apply (proj2 (proj1 OA))|apply (proj2 OA)].
  - exact OC.
  - exists B. split; [exact E|]. split; [exact H1|]. split; [exact H2|]. intros i j Hi Hj Hh. apply (H3 i j Hi Hj). exact Hh.
Qed.

Lemma multiply_restr_thm nc nf R A Ac : restr_ok nc nf R -> op_ok nf A -> op_ok nc Ac ->
  (forall A' Ac', A = SCsr A' -> Ac = SSym Ac' -> False) -> (forall A' Ac', A = SSym A' -> Ac = SCsr Ac' -> False) ->
  exists B, multiply_restr R A Ac = Ok B /\ added nc (galerkin nf (restr_matrix R) (op_matrix A)) Ac B.
Proof.
  intros RO OA OC Hm1 Hm2. pose proof RO as (Hn & _). unfold multiply_restr. destruct A as [A|A]; cbn [o_indptr o_indices o_data op_matrix op_ok] in *.
  - destruct Ac as [Ac|Ac]; [|exfalso; apply (Hm1 A Ac); reflexivity].
    apply product_csr_csr; [|exact OC]. intros i j Hi Hj. apply (getEntry_restr_ok nc nf R _ _ _ RO); auto; [apply (proj2 (proj1 OA))|apply (proj2 OA)].
  - destruct OA as [WA SA]. pose proof WA as (WAr & WAd & _).
    destruct Ac as [Ac|Ac]; [exfalso; apply (Hm2 A Ac); reflexivity|].
    assert (HE : forall i j, i < nc -> j < nc -> getEntry_restr (r_indptr R) (r_indices R) (s_indptr A) (s_indices A) (s_data A) i j = Ok (galerkin nf (restr_matrix R) (lower A) i j)).
    { intros i j Hi Hj. apply (getEntry_restr_ok nc nf R _ _ _ RO); auto. }
    set (dd := fun i j => (galerkin nf (restr_matrix R) (dmat (s_diag A)) i j - (if i =? j then vat (s_diag A) i else 0))%Qc).
    assert (HD : forall i j, i < nc -> j < nc -> getEntryFromD_restr (r_indptr R) (r_indices R) (s_diag A) i j = Ok (dd i j)).
    { intros i j Hi Hj. apply (getEntryFromD_restr_ok nc nf R RO); auto. }
    destruct (product_sss_sss nc true _ _ _ dd HE A HD ltac:(lia) Ac OC) as (B & E & Hadd).
    { intros i j _ _. unfold dd. rewrite (galerkin_diag_sym nf _ _ i j), (Nat.eqb_sym j i). destruct (Nat.eqb_spec i j) as [->|]; reflexivity. }
    exists B. split; [exact E|]. eapply added_ext; [|exact Hadd]. intros i j _ _. rewrite galerkin_sym. unfold dd. destruct (i =? j); ring.
Qed.
(** A in symmetric format, Ac in CSR format: the diagonal of A is missing. *)
Lemma multiply_restr_mixed nc nf R A Ac : restr_ok nc nf R -> op_ok nf (SSym A) -> op_ok nc (SCsr Ac) ->
  exists B, multiply_restr R (SSym A) (SCsr Ac) = Ok B /\
    added nc (fun i j => galerkin nf (restr_matrix R) (sym_matrix A) i j - (if (i =? j)%nat then vat (s_diag A) i else 0))%Qc (SCsr Ac) B.
Proof.
  intros RO OA OC. pose proof RO as (Hn & _). unfold multiply_restr. cbn [o_indptr o_indices o_data op_ok] in *.
  destruct OA as [WA SA]. pose proof WA as (WAr & WAd & _).
  assert (HE : forall i j, i < nc -> j < nc -> getEntry_restr (r_indptr R) (r_indices R) (s_indptr A) (s_indices A) (s_data A) i j = Ok (galerkin nf (restr_matrix R) (lower A) i j)).
  { intros i j Hi Hj. apply (getEntry_restr_ok nc nf R _ _ _ RO); auto. }
  set (dd := fun i j => (galerkin nf (restr_matrix R) (dmat (s_diag A)) i j - (if i =? j then vat (s_diag A) i else 0))%Qc).
  assert (HD : forall i j, i < nc -> j < nc -> getEntryFromD_restr (r_indptr R) (r_indices R) (s_diag A) i j = Ok (dd i j)).
  { intros i j Hi Hj. apply (getEntryFromD_restr_ok nc nf R RO); auto. }
  destruct (product_sss_csr nc true _ _ _ dd HE A HD ltac:(lia) Ac OC) as (B & E & Hadd).
  exists B. split; [exact E|]. eapply added_ext; [|exact Hadd]. intros i j _ _. rewrite galerkin_sym. unfold dd. ring.
Qed.

(** * The product with the prolongation *)
Definition outer (P : csr) (k l : nat) (a : Qc) (swap : bool) : list (nat * nat * Qc) :=
  flat_map (fun p => map (fun q => if swap then (fst q, fst p, snd p * a * snd q)%Qc else (fst p, fst q, snd p * a * snd q)%Qc)
    (rowlist (c_indptr P) (c_indices P) (c_data P) l)) (rowlist (c_indptr P) (c_indices P) (c_data P) k).

Section Prolong.
  Variables (nc nf : nat) (P : csr).
  Hypothesis WP : wf_csr nf nc P.
  Notation row k := (rowlist (c_indptr P) (c_indices P) (c_data P) k).

  Lemma add_outer_events k l a swap Ac : k < nf -> l < nf -> add_outer P k l a swap Ac = for_list (outer P k l a swap) (do_add o_addToEntry) Ac.
  Proof using WP.
    intros Hk Hl. unfold add_outer, outer. rewrite for_list_flat.
    apply (for_row_list nf nc _ _ _ (proj2 WP) k); [exact Hk|]. intros ii i p s _ Ei Ep. rewrite (aget_ok _ _ _ Ei), (aget_ok _ _ _ Ep). cbn [bind fst snd].
    rewrite for_list_map. apply (for_row_list nf nc _ _ _ (proj2 WP) l); [exact Hl|]. intros jj j q s' _ Ej Eq. rewrite (aget_ok _ _ _ Ej), (aget_ok _ _ _ Eq). cbn [bind fst snd].
    destruct swap; reflexivity.
  Qed.
  Lemma outer_rows k l a swap x y v : In (x, y, v) (outer P k l a swap) -> x < nc.
  Proof using WP.
    unfold outer. intros H. apply in_flat_map in H. destruct H as (p & Hp & H). apply in_map_iff in H. destruct H as (q & E & Hq).
    pose proof (CSRProofs.row_cols nf nc _ _ _ (proj2 WP) k p Hp). pose proof (CSRProofs.row_cols nf nc _ _ _ (proj2 WP) l q Hq). destruct swap; injection E as <- _ _; assumption.
  Qed.
  Lemma outer_sum k l a swap i j : suml (map (at_entry i j) (outer P k l a swap)) =
    (if swap then matrix P k j * a * matrix P l i else matrix P k i * a * matrix P l j)%Qc.
  Proof using Type.
    unfold outer. rewrite suml_flat.
    assert (G : forall (r : list (nat * Qc)) c x, suml (map (fun q => if (fst q =? x)%nat then (c * snd q)%Qc else 0%Qc) r) = (c * ent r x)%Qc).
    { induction r as [|q r IH]; intros c x; cbn [map suml]; [rewrite ent_nil; ring|]. rewrite IH, ent_cons. destruct (fst q =? x)%nat; ring. }
    assert (In1 : forall p, suml (map (at_entry i j) (map (fun q => if swap then (fst q, fst p, snd p * a * snd q)%Qc else (fst p, fst q, snd p * a * snd q)%Qc) (row l)))
      = (if (fst p =? (if swap then j else i))%nat then (a * matrix P l (if swap then i else j)) * snd p else 0)%Qc).
    { intros p. rewrite map_map. destruct swap; cbn [at_entry].
      - destruct (Nat.eqb_spec (fst p) j) as [Ep|Ep].
        + rewrite (suml_ext _ (fun q => if (fst q =? i)%nat then (snd p * a * snd q)%Qc else 0%Qc)); [rewrite G; unfold matrix; ring|]. intros q _. destruct (fst q =? i); reflexivity.
        + apply suml_map_zero. intros q _. destruct (fst q =? i); reflexivity.
      - destruct (Nat.eqb_spec (fst p) i) as [Ep|Ep]; cbn [andb].
        + rewrite G. unfold matrix. ring.
        + apply suml_map_zero. intros q _. reflexivity. }
    rewrite (suml_ext _ _ _ (fun p _ => In1 p)). rewrite G. unfold matrix. destruct swap; ring.
  Qed.

  Definition mat_events (aip aind : list nat) (adat : list Qc) (swap : bool) : list (nat * nat * Qc) :=
    cat nf (fun k => flat_map (fun p => outer P k (fst p) (snd p) swap) (rowlist aip aind adat k)).
  Definition diag_events (d : list Qc) : list (nat * nat * Qc) := cat nf (fun k => outer P k k (vat d k) false).
  Lemma suml_cat (g : nat -> list (nat * nat * Qc)) (h : nat * nat * Qc -> Qc) n : suml (map h (cat n g)) = sumf n (fun k => suml (map h (g k))).
  Proof using Type. induction n as [|n IH]; [reflexivity|]. rewrite cat_S, map_app, suml_app, IH. reflexivity. Qed.
  Lemma in_cat (g : nat -> list (nat * nat * Qc)) n x : In x (cat n g) -> exists k, k < n /\ In x (g k).
  Proof using Type.
    induction n as [|n IH]; [intros []|]. rewrite cat_S, in_app_iff. intros [H|H]; [destruct (IH H) as (k & Hk & K); exists k; split; [lia|exact K]|exists n; split; [lia|exact H]].
  Qed.
  Lemma mat_events_sum aip aind adat swap i j : wf_rows nf nf aip aind adat -> suml (map (at_entry i j) (mat_events aip aind adat swap)) =
    galerkin nf (fun i k => matrix P k i) (fun k l => ent (rowlist aip aind adat k) l) (if swap then j else i) (if swap then i else j).
  Proof using Type.
    intros WA. unfold mat_events. rewrite suml_cat. unfold galerkin. apply sumf_ext. intros k Hk. rewrite suml_flat.
    rewrite (suml_ext _ (fun p => snd p * (matrix P k (if swap then j else i) * matrix P (fst p) (if swap then i else j)))%Qc).
    - rewrite (ent_dot _ nf (fun l => matrix P k (if swap then j else i) * matrix P l (if swap then i else j))%Qc) by (apply (CSRProofs.row_cols nf nf _ _ _ WA)).
      apply sumf_ext. intros l _. ring.
    - intros p _. rewrite outer_sum. destruct swap; ring.
  Qed.
  Lemma diag_events_sum d i j : suml (map (at_entry i j) (diag_events d)) = galerkin nf (fun i k => matrix P k i) (dmat d) i j.
  Proof using Type. unfold diag_events. rewrite suml_cat, galerkin_diag. apply sumf_ext. intros k _. rewrite outer_sum. reflexivity. Qed.

  Lemma add_entries_events A swap Ac : wf_rows nf nf (o_indptr A) (o_indices A) (o_data A) ->
    add_entries P A swap Ac = for_list (mat_events (o_indptr A) (o_indices A) (o_data A) swap) (do_add o_addToEntry) Ac.
  Proof using WP.
    intros WA. unfold add_entries, mat_events. assert (Li : length (o_indptr A) = nf + 1) by apply WA. replace (length (o_indptr A) - 1) with nf by lia.
    apply for_rows_flat. intros k s Hk. rewrite for_list_flat.
    apply (for_row_list nf nf _ _ _ WA k); [exact Hk|]. intros ll l a s' _ El Ea. rewrite (aget_ok _ _ _ El), (aget_ok _ _ _ Ea). cbn [bind fst snd].
    apply add_outer_events; [exact Hk|]. destruct WA as (_ & _ & _ & _ & C). apply C. apply nth_error_In in El. exact El.
  Qed.
  Definition all_adds (A : sop) : list (nat * nat * Qc) :=
    mat_events (o_indptr A) (o_indices A) (o_data A) false ++
    match A with SCsr _ => [] | SSym A => mat_events (s_indptr A) (s_indices A) (s_data A) true ++ diag_events (s_diag A) end.
  Lemma op_rows A : op_wf nf A -> wf_rows nf nf (o_indptr A) (o_indices A) (o_data A).
  Proof using Type. destruct A as [A|A]; intros H; apply H. Qed.
  Lemma multiply2_events A Ac : op_wf nf A -> multiply2 P A Ac = for_list (all_adds A) (do_add o_addToEntry) Ac.
  Proof using WP.
    intros OA. pose proof (op_rows A OA) as WA. unfold multiply2, all_adds. rewrite for_list_app, add_entries_events by exact WA.
    destruct (for_list (mat_events (o_indptr A) (o_indices A) (o_data A) false) (do_add o_addToEntry) Ac) as [Ac1|]; cbn [bind]; [|reflexivity].
    destruct A as [A|A]; [reflexivity|]. rewrite for_list_app, add_entries_events by exact WA. cbn [o_indptr o_indices o_data].
    destruct (for_list (mat_events (s_indptr A) (s_indices A) (s_data A) true) (do_add o_addToEntry) Ac1) as [Ac2|]; cbn [bind]; [|reflexivity].
    assert (Li : length (s_indptr A) = nf + 1) by apply WA. replace (length (s_indptr A) - 1) with nf by lia.
    unfold diag_events. apply for_rows_flat. intros k s Hk. destruct OA as (_ & Ld & _). rewrite (aget_nth (s_diag A) k 0%Qc) by lia. cbn [bind].
    apply add_outer_events; exact Hk.
  Qed.
  Lemma all_adds_rows A x y v : In (x, y, v) (all_adds A) -> x < nc.
  Proof using WP.
    assert (M : forall aip aind adat sw, In (x, y, v) (mat_events aip aind adat sw) -> x < nc).
    { intros aip aind adat sw H. apply in_cat in H. destruct H as (k & _ & H). apply in_flat_map in H. destruct H as (p & _ & H). apply outer_rows in H. exact H. }
    unfold all_adds. rewrite in_app_iff. intros [H|H]; [apply M in H; exact H|]. destruct A as [A|A]; [destruct H|].
    apply in_app_iff in H. destruct H as [H|H]; [apply M in H; exact H|]. apply in_cat in H. destruct H as (k & _ & H). apply outer_rows in H. exact H.
  Qed.
  Lemma all_adds_sum A i j : op_wf nf A -> suml (map (at_entry i j) (all_adds A)) = galerkin nf (fun i k => matrix P k i) (op_matrix A) i j.
  Proof using Type.
    intros OA. pose proof (op_rows A OA) as WA. unfold all_adds. rewrite map_app, suml_app, mat_events_sum by exact WA. destruct A as [A|A]; cbn [op_matrix o_indptr o_indices o_data] in *.
    - cbn [map suml]. unfold galerkin, matrix. ring.
    - rewrite map_app, suml_app, mat_events_sum, diag_events_sum, galerkin_sym by exact WA. unfold lower. ring.
  Qed.

  Lemma lift_csr (evs : list (nat * nat * Qc)) : forall A, for_list evs (do_add o_addToEntry) (SCsr A) = (B <- for_list evs (do_add csr_addToEntry) A ;; Ok (SCsr B)).
  Proof using Type.
    induction evs as [|[[a b] v] evs IH]; intros A; [reflexivity|]. cbn [for_list do_add o_addToEntry]. destruct (csr_addToEntry A a b v); cbn [bind]; [apply IH|reflexivity].
  Qed.
  Lemma lift_sss (evs : list (nat * nat * Qc)) : forall A, for_list evs (do_add o_addToEntry) (SSym A) = (B <- for_list evs (do_add sss_addToEntry) A ;; Ok (SSym B)).
  Proof using Type.
    induction evs as [|[[a b] v] evs IH]; intros A; [reflexivity|]. cbn [for_list do_add o_addToEntry]. destruct (sss_addToEntry A a b v); cbn [bind]; [apply IH|reflexivity].
  Qed.

  Lemma galerkin_symmetric R M i j : symmetric nf M -> galerkin nf R M i j = galerkin nf R M j i.
  Proof using Type.
    intros H. rewrite <- (galerkin_transpose nf R M j i). unfold galerkin. apply sumf_ext. intros k Hk. apply sumf_ext. intros m Hm. rewrite (H k m Hk Hm). reflexivity.
  Qed.

  Lemma multiply2_thm A Ac : op_wf nf A -> op_ok nc Ac ->
    (forall A' Ac', A = SCsr A' -> Ac = SSym Ac' -> symmetric nf (matrix A')) ->
    exists B, multiply2 P A Ac = Ok B /\ added nc (galerkin nf (fun i k => matrix P k i) (op_matrix A)) Ac B.
  Proof using WP.
    intros OA OC Hsym. rewrite multiply2_events by exact OA. destruct Ac as [Ac|Ac]; destruct OC as [WC SC].
    - rewrite lift_csr. destruct (csr_adds_any nc nc (all_adds A) Ac WC SC (all_adds_rows A)) as (B & -> & WB & PB & MB & NB). cbn [bind]. eexists; split; [reflexivity|].
      split; [split; [exact WB|apply (same_pattern_sorted nc nc Ac); auto]|]. split.
      + destruct PB as (p1 & p2 & p3). repeat split; auto. destruct WB, WC. congruence.
      + intros i j Hi Hj. cbn [holds op_matrix]. split; intros H; [rewrite MB by assumption; rewrite all_adds_sum by exact OA; reflexivity|apply NB; assumption].
    - rewrite lift_sss. destruct (sss_adds_any nc (all_adds A) Ac WC SC (all_adds_rows A)) as (B & -> & WB & PB & MB & NB). cbn [bind]. eexists; split; [reflexivity|].
      split; [split; [exact WB|apply (same_sss_sorted nc Ac); auto]|]. split.
      + destruct PB as (p1 & p2 & p3). repeat split; auto.
      + assert (Sy : symmetric nf (op_matrix A)).
        { destruct A as [A|A]; cbn [op_matrix]; [apply (Hsym A Ac); reflexivity|]. intros i j _ _. unfold sym_matrix. rewrite (Nat.eqb_sym j i).
          destruct (Nat.eqb_spec i j) as [->|]; ring. }
        assert (Ss : forall X i j, sym_matrix X i j = sym_matrix X j i).
        { intros X i j. unfold sym_matrix. rewrite (Nat.eqb_sym j i). destruct (Nat.eqb_spec i j) as [->|]; ring. }
        assert (Low : forall i j, i < nc -> j <= i -> (holds (SSym Ac) i j -> sym_matrix B i j = sym_matrix Ac i j + galerkin nf (fun i k => matrix P k i) (op_matrix A) i j)%Qc /\
          (~ holds (SSym Ac) i j -> sym_matrix B i j = sym_matrix Ac i j)).
        { intros i j Hi Hj. assert (Hh : holds (SSym Ac) i j <-> held Ac i j).
          { cbn [holds]. unfold held. split; [intros [?|[?|[? _]]]; [left; assumption|right; assumption|lia]|intros [?|?]; [left; assumption|right; left; assumption]]. }
          rewrite Hh. split; intros H; [rewrite MB by assumption; rewrite all_adds_sum by exact OA; reflexivity|apply NB; assumption]. }
        intros i j Hi Hj. cbn [op_matrix]. destruct (Nat.le_gt_cases j i) as [Hle|Hgt]; [apply Low; assumption|].
        assert (Hh : holds (SSym Ac) i j <-> holds (SSym Ac) j i).
        { cbn [holds]. split; intros [?|[[? ?]|[? ?]]]; try lia; [right; left|right; right]; split; try lia; assumption. }
        rewrite Hh, (Ss B i j), (Ss Ac i j), (galerkin_symmetric _ _ i j Sy). apply Low; lia.
  Qed.
End Prolong.
