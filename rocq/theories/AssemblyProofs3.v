(** Sums over the triangle of a local matrix, and the patterns. *)
From Coq Require Import Sorted Permutation.
From Verif Require Import Util Lin SparsityModel SparsitySpec SparsityProofs2 CSRModel CSRSpec CSRProofs Rows SSSProofs OpsProofs OpsProofs2 OpsProofs4 TriProofs3 MeshModel MeshSpec LocalSpec MeshProofs RestrictionProofs
  ReorderModel ReorderSpec ReorderProofs ReorderProofs2 AssemblyModel AssemblySpec AssemblyProofs AssemblyProofs2.
Set Default Proof Using "Type".

(** ** Sums *)
Lemma suml_flat {A B} (h : B -> Qc) (g : A -> list B) l : suml (map h (flat_map g l)) = suml (map (fun x => suml (map h (g x))) l).
Proof. induction l as [|x l IH]; [reflexivity|]. cbn [flat_map map suml]. rewrite map_app, suml_app, IH. reflexivity. Qed.
Lemma suml_ext {A} (f g : A -> Qc) l : (forall x, In x l -> f x = g x) -> suml (map f l) = suml (map g l).
Proof. intros H. f_equal. apply map_ext_in. exact H. Qed.

Section Triangle.
  Local Open Scope Qc_scope.
  Lemma tail_sum n j g : (j <= n)%nat -> suml (map g (seq j (n - j))) = sumf n (fun k => if (j <=? k)%nat then g k else 0).
  Proof.
    intros Hj. rewrite (sumf_list n). replace n with (j + (n - j))%nat at 2 by lia. rewrite seq_app, map_app, suml_app. cbn [plus].
    rewrite (suml_map_zero (seq 0 j)).
    - rewrite Qcplus_0_l. apply suml_ext. intros k Hk. apply in_seq in Hk. destruct (Nat.leb_spec j k); [reflexivity|lia].
    - intros k Hk. apply in_seq in Hk. destruct (Nat.leb_spec j k); [lia|reflexivity].
  Qed.
  Lemma tri_sum n e f : (forall j, (j < n)%nat -> e j j = f j j) -> (forall j k, (j < k < n)%nat -> e j k = f j k + f k j) ->
    suml (map (fun j => suml (map (e j) (seq j (n - j)))) (seq 0 n)) = sumf n (fun j => sumf n (f j)).
  Proof.
    intros Hd Ho. rewrite <- (sumf_list n).
    transitivity (sumf n (fun j => sumf n (fun k => (if (j <=? k)%nat then f j k else 0) + (if (j <? k)%nat then f k j else 0)))).
    - apply sumf_ext. intros j Hj. rewrite tail_sum by lia. apply sumf_ext. intros k Hk.
      destruct (Nat.leb_spec j k), (Nat.ltb_spec j k); try lia; try ring.
      + apply Ho. lia.
      + assert (j = k) as <- by lia. rewrite Hd by auto. ring.
    - transitivity (sumf n (fun j => sumf n (fun k => if (j <=? k)%nat then f j k else 0)) + sumf n (fun j => sumf n (fun k => if (j <? k)%nat then f k j else 0))).
      + rewrite <- sumf_plus. apply sumf_ext. intros j Hj. apply sumf_plus.
      + rewrite (sumf_swap n n (fun j k => if (j <? k)%nat then f k j else 0)). rewrite <- sumf_plus. apply sumf_ext. intros j Hj.
        rewrite <- sumf_plus. apply sumf_ext. intros k Hk. destruct (Nat.leb_spec j k), (Nat.ltb_spec k j); try lia; ring.
  Qed.
  Lemma tri_events_sum {X} (h : X -> Qc) (ev : nat -> nat -> nat -> list X) f n i :
    (forall j, (j < n)%nat -> suml (map h (ev i j j)) = f j j) -> (forall j k, (j < k < n)%nat -> suml (map h (ev i j k)) = f j k + f k j) ->
    suml (map h (tri_events ev n i)) = sumf n (fun j => sumf n (f j)).
  Proof.
    intros Hd Ho. unfold tri_events. rewrite suml_flat. rewrite <- (tri_sum n (fun j k => suml (map h (ev i j k))) f); auto.
    apply suml_ext. intros j _. apply suml_flat.
  Qed.
  Lemma full_events_sum {X} (h : X -> Qc) (ev : nat -> nat -> nat -> list X) n n' i :
    suml (map h (full_events ev n n' i)) = sumf n (fun j => sumf n' (fun k => suml (map h (ev i j k)))).
  Proof.
    unfold full_events. rewrite suml_flat, (sumf_list n). apply suml_ext. intros j _. rewrite suml_flat, (sumf_list n'). reflexivity.
  Qed.

  Variables (dofs : list (list Z)) (dpe : nat) (loc : nat -> nat -> nat -> Qc).

  Lemma csr_sum cs I J : dofs_distinct dpe dofs -> (forall i j k, In i cs -> (j < dpe)%nat -> (k < dpe)%nat -> loc i j k = loc i k j) ->
    suml (map (at_entry I J) (flat_map (tri_events (events_csr dofs loc) dpe) cs)) = assembled dofs dofs dpe dpe cs loc I J.
  Proof.
    intros Hdis Hsym. unfold assembled. rewrite suml_flat. apply suml_ext. intros i Hi. apply tri_events_sum.
    - intros j Hj. unfold events_csr. set (a := dof dofs i j). destruct (Z.ltb_spec a 0); cbn [orb].
      + destruct (Z.eqb_spec a (Z.of_nat I)); [lia|]. reflexivity.
      + rewrite Z.eqb_refl. cbn [map suml at_entry].
        destruct (Nat.eqb_spec (Z.to_nat a) I), (Z.eqb_spec a (Z.of_nat I)), (Nat.eqb_spec (Z.to_nat a) J), (Z.eqb_spec a (Z.of_nat J)); try lia; cbn [andb]; ring.
    - intros j k Hjk. rewrite (Hsym i k j) by (auto; lia). unfold events_csr. set (v := loc i j k).
      pose proof (Hdis i j k ltac:(lia) ltac:(lia)) as D. set (a := dof dofs i j) in *. set (b := dof dofs i k) in *.
      destruct (Z.ltb_spec a 0); cbn [orb]; [|destruct (Z.ltb_spec b 0)].
      + destruct (Z.eqb_spec a (Z.of_nat I)), (Z.eqb_spec a (Z.of_nat J)); try lia. rewrite andb_false_r. cbn [andb map suml]. ring.
      + destruct (Z.eqb_spec b (Z.of_nat I)), (Z.eqb_spec b (Z.of_nat J)); try lia. rewrite andb_false_r. cbn [andb map suml]. ring.
      + destruct (Z.eqb_spec a b); [lia|]. cbn [map suml at_entry].
        destruct (Nat.eqb_spec (Z.to_nat a) I), (Z.eqb_spec a (Z.of_nat I)), (Nat.eqb_spec (Z.to_nat a) J), (Z.eqb_spec a (Z.of_nat J)); try lia;
        destruct (Nat.eqb_spec (Z.to_nat b) I), (Z.eqb_spec b (Z.of_nat I)), (Nat.eqb_spec (Z.to_nat b) J), (Z.eqb_spec b (Z.of_nat J)); try lia; cbn [andb]; ring.
  Qed.
  Lemma sss_sum cs I J : dofs_distinct dpe dofs -> (forall i j k, In i cs -> (j < dpe)%nat -> (k < dpe)%nat -> loc i j k = loc i k j) ->
    suml (map (at_sym I J) (flat_map (tri_events (events_sss dofs loc) dpe) cs)) = assembled dofs dofs dpe dpe cs loc I J.
  Proof.
    intros Hdis Hsym. unfold assembled. rewrite suml_flat. apply suml_ext. intros i Hi. apply tri_events_sum.
    - intros j Hj. unfold events_sss. set (a := dof dofs i j). destruct (Z.ltb_spec a 0); cbn [orb].
      + destruct (Z.eqb_spec a (Z.of_nat I)); [lia|]. reflexivity.
      + rewrite Z.ltb_irrefl. cbn [map suml at_sym].
        destruct (Nat.eqb_spec I (Z.to_nat a)), (Z.eqb_spec a (Z.of_nat I)), (Nat.eqb_spec J (Z.to_nat a)), (Z.eqb_spec a (Z.of_nat J)); try lia; cbn [andb orb]; ring.
    - intros j k Hjk. rewrite (Hsym i k j) by (auto; lia). unfold events_sss. set (v := loc i j k).
      pose proof (Hdis i j k ltac:(lia) ltac:(lia)) as D. set (a := dof dofs i j) in *. set (b := dof dofs i k) in *.
      destruct (Z.ltb_spec a 0); cbn [orb]; [|destruct (Z.ltb_spec b 0)].
      + destruct (Z.eqb_spec a (Z.of_nat I)), (Z.eqb_spec a (Z.of_nat J)); try lia. rewrite andb_false_r. cbn [andb map suml]. ring.
      + destruct (Z.eqb_spec b (Z.of_nat I)), (Z.eqb_spec b (Z.of_nat J)); try lia. rewrite andb_false_r. cbn [andb map suml]. ring.
      + assert (a <> b) by lia. destruct (a <? b)%Z; cbn [map suml at_sym];
        destruct (Nat.eqb_spec I (Z.to_nat a)), (Z.eqb_spec a (Z.of_nat I)), (Nat.eqb_spec J (Z.to_nat a)), (Z.eqb_spec a (Z.of_nat J)); try lia;
        destruct (Nat.eqb_spec I (Z.to_nat b)), (Z.eqb_spec b (Z.of_nat I)), (Nat.eqb_spec J (Z.to_nat b)), (Z.eqb_spec b (Z.of_nat J)); try lia; cbn [andb orb]; ring.
  Qed.
  Lemma rhs_sum cs g I : (forall i j k, In i cs -> (j < dpe)%nat -> (k < dpe)%nat -> loc i j k = loc i k j) ->
    suml (map (fun t => if (fst t =? I)%nat then snd t else 0) (flat_map (tri_events (events_rhs dofs loc g) dpe) cs)) = boundary_action dofs dpe cs loc g I.
  Proof.
    intros Hsym. unfold boundary_action. rewrite suml_flat. apply suml_ext. intros i Hi. apply tri_events_sum.
    - intros j Hj. unfold events_rhs. set (a := dof dofs i j). 
      destruct (Z.leb_spec 0 a), (Z.ltb_spec a 0), (Z.eqb_spec a (Z.of_nat I)); try lia; reflexivity.
    - intros j k Hjk. rewrite (Hsym i k j) by (auto; lia). unfold events_rhs. set (v := loc i j k).
      set (a := dof dofs i j) in *. set (b := dof dofs i k) in *.
      destruct (Z.leb_spec 0 a), (Z.ltb_spec a 0), (Z.leb_spec 0 b), (Z.ltb_spec b 0); try lia; cbn [andb map suml fst snd]; rewrite ?andb_false_r, ?andb_true_r; try ring.
      + destruct (Nat.eqb_spec (Z.to_nat a) I), (Z.eqb_spec a (Z.of_nat I)); try lia; ring.
      + destruct (Nat.eqb_spec (Z.to_nat b) I), (Z.eqb_spec b (Z.of_nat I)); try lia; ring.
      + destruct (Z.eqb_spec a (Z.of_nat I)), (Z.eqb_spec b (Z.of_nat I)); try lia; ring.
  Qed.
  Lemma nonsym_sum dofs' dpe' cs I J :
    suml (map (at_entry I J) (flat_map (full_events (events_nonsym dofs dofs' loc) dpe dpe') cs)) = assembled dofs dofs' dpe dpe' cs loc I J.
  Proof.
    unfold assembled. rewrite suml_flat. apply suml_ext. intros i Hi. rewrite full_events_sum. apply sumf_ext. intros j Hj. apply sumf_ext. intros k Hk.
    unfold events_nonsym. set (a := dof dofs i j). set (b := dof dofs' i k).
    destruct (Z.ltb_spec a 0); cbn [orb]; [|destruct (Z.ltb_spec b 0)]; cbn [map suml at_entry].
    - destruct (Z.eqb_spec a (Z.of_nat I)); [lia|reflexivity].
    - destruct (Z.eqb_spec b (Z.of_nat J)); [lia|]. rewrite andb_false_r. reflexivity.
    - destruct (Nat.eqb_spec (Z.to_nat a) I), (Z.eqb_spec a (Z.of_nat I)), (Nat.eqb_spec (Z.to_nat b) J), (Z.eqb_spec b (Z.of_nat J)); try lia; cbn [andb]; ring.
  Qed.
End Triangle.

(** ** Patterns *)
Definition pairs_of (skip : nat -> nat -> bool) (dofs dofs' : list (list Z)) (i j k : nat) : list (nat * nat) :=
  let a := dof dofs i j in let b := dof dofs' i k in
  if ((a <? 0) || (b <? 0))%Z then [] else if skip (Z.to_nat a) (Z.to_nat b) then [] else [(Z.to_nat a, Z.to_nat b)].
Definition cell_pairs skip dofs dofs' dpe dpe' (cs : list nat) : list (nat * nat) := flat_map (full_events (pairs_of skip dofs dofs') dpe dpe') cs.
Definition zpair (p : nat * nat) : nat * Z := (fst p, Z.of_nat (snd p)).

Lemma in_cell_pairs skip dofs dofs' dpe dpe' cs I J :
  In (I, J) (cell_pairs skip dofs dofs' dpe dpe' cs) <-> coupled dofs dofs' dpe dpe' cs I J /\ skip I J = false.
Proof.
  unfold cell_pairs, full_events, coupled. rewrite in_flat_map. split.
  - intros (i & Hi & H). apply in_flat_map in H as (j & Hj & H). apply in_flat_map in H as (k & Hk & H). apply in_seq in Hj. apply in_seq in Hk.
    unfold pairs_of in H. destruct (Z.ltb_spec (dof dofs i j) 0); [destruct H|]. destruct (Z.ltb_spec (dof dofs' i k) 0); [destruct H|]. cbn [orb] in H.
    destruct (skip _ _) eqn:Es; [destruct H|]. destruct H as [H|[]]. injection H as <- <-. split; [|exact Es]. exists i, j, k. repeat split; auto; lia.
  - intros [(i & j & k & Hi & Hj & Hk & Ej & Ek) Es]. exists i. split; [auto|]. apply in_flat_map. exists j. split; [apply in_seq; lia|].
    apply in_flat_map. exists k. split; [apply in_seq; lia|]. unfold pairs_of. rewrite Ej, Ek, !Nat2Z.id, Es.
    destruct (Z.ltb_spec (Z.of_nat I) 0); [lia|]. destruct (Z.ltb_spec (Z.of_nat J) 0); [lia|]. left. reflexivity.
Qed.

Lemma for_pairs_ok {S} nc nb nb' dm dm' (f : nat -> nat -> S -> res S) skip (g : nat -> nat -> S -> res S) i s :
  dofs_ok nc (dm_dpe dm) (dm_num dm) nb (dm_dofs dm) -> dofs_ok nc (dm_dpe dm') (dm_num dm') nb' (dm_dofs dm') -> i < nc ->
  (forall a b s, f a b s = if (skip a b : bool) then Ok s else g a b s) ->
  for_pairs dm dm' i f s = for_list (full_events (pairs_of skip (dm_dofs dm) (dm_dofs dm')) (dm_dpe dm) (dm_dpe dm') i) (fun p => g (fst p) (snd p)) s.
Proof.
  intros ok ok' Hi Hf. unfold for_pairs, full_events. rewrite for_range_list, Nat.sub_0_r, for_list_flat. apply for_list_ext. intros j s0 Hj. apply in_seq in Hj.
  rewrite (dof_get nc nb dm ok i j Hi) by lia. rewrite bind_Ok. rewrite for_list_flat. unfold pairs_of.
  destruct (Z.ltb_spec (dof (dm_dofs dm) i j) 0).
  - cbn [orb for_list]. rewrite for_list_id. reflexivity.
  - rewrite for_range_list, Nat.sub_0_r. apply for_list_ext. intros k s1 Hk. apply in_seq in Hk.
    rewrite (dof_get nc nb' dm' ok' i k Hi) by lia. rewrite bind_Ok. destruct (Z.ltb_spec (dof (dm_dofs dm') i k) 0); cbn [orb]; [reflexivity|].
    rewrite Hf. destruct (skip _ _); cbn [for_list fst snd]; [reflexivity|]. destruct (g _ _ s1); reflexivity.
Qed.

Lemma row_size_pairs I ps : (forall Js, NoDup Js -> (forall J, In J Js -> In (I, J) ps) -> length Js < 2 ^ 16) -> row_size I (map zpair ps) < 2 ^ 16.
Proof.
  intros H. unfold row_size. set (L := nodup _ _).
  assert (HL : forall z, In z L -> exists J, z = Z.of_nat J /\ In (I, J) ps).
  { intros z Hz. unfold L in Hz. apply nodup_In in Hz. apply in_map_iff in Hz as ([a z'] & E & Hz). cbn in E. subst z'. apply filter_In in Hz as [Hz Ea].
    cbn in Ea. apply Nat.eqb_eq in Ea. subst a. apply in_map_iff in Hz as ([a J] & E & Hin). unfold zpair in E. cbn in E. injection E as -> <-. exists J. auto. }
  rewrite <- (map_length Z.to_nat L). apply H.
  - assert (HN : NoDup L) by apply NoDup_nodup. clearbody L. induction L as [|z L IH]; [constructor|]. cbn. inversion HN; subst. constructor.
    + intros Hz. apply in_map_iff in Hz as (z' & E & Hz'). destruct (HL z (or_introl eq_refl)) as (J & -> & _). destruct (HL z' (or_intror Hz')) as (J' & -> & _).
      rewrite !Nat2Z.id in E. subst. contradiction.
    + apply IH; auto. intros z' Hz'. apply HL. right; auto.
  - intros J HJ. apply in_map_iff in HJ as (z & <- & Hz). destruct (HL z Hz) as (J & -> & Hin). rewrite Nat2Z.id. auto.
Qed.

(** Building a pattern from pairs *)
Definition pairs_fit (n m : nat) (ps : list (nat * nat)) : Prop := forall I J, In (I, J) ps -> I < n /\ J < m.
Definition few_pairs (ps : list (nat * nat)) : Prop := forall I Js, NoDup Js -> (forall J, In J Js -> In (I, J) ps) -> length Js < 2 ^ 16.

Lemma build_ok n m ps : pairs_fit n m ps -> few_pairs ps ->
  exists s ip indz, for_list ps (fun p => add_pair (fst p) (snd p)) (new_pattern n) = Ok s /\ freeze s = Ok (ip, map Z.to_nat indz) /\ is_csr_of n (map zpair ps) ip indz.
Proof.
  intros Hf Hs. destruct (sp_build_ok (2 ^ 16) 9 n (map zpair ps)) as (ip & indz & E & HP).
  - split; [lia|]. change 9 with (3 * 3). apply Nat.lt_le_trans with (2 ^ 4); [cbn; lia|]. apply Nat.pow_le_mono_r; lia.
  - intros p Hp. apply in_map_iff in Hp as ([a b] & <- & Hin). apply (Hf a b Hin).
  - intros I. apply row_size_pairs. intros Js. apply Hs.
  - unfold sp_build in E.
    assert (Em : forall s, for_list ps (fun p => add_pair (fst p) (snd p)) s = for_list (map zpair ps) (fun p s => sp_add (2 ^ 16) s (fst p) (snd p)) s).
    { clear. induction ps as [|p ps IH]; intros s; [reflexivity|]. cbn [map for_list]. unfold add_pair at 1, zpair at 1. cbn [fst snd].
      destruct (sp_add _ s _ _); [apply IH|reflexivity]. }
    unfold new_pattern. rewrite Em. destruct (for_list (map zpair ps) _ _) as [s|]; [|discriminate]. cbn [bind] in E. exists s, ip, indz. split; [reflexivity|]. split; [|exact HP].
    unfold freeze. rewrite E, bind_Ok. cbv beta iota. rewrite all_init_some, bind_Ok, all_init_some, bind_Ok. reflexivity.
Qed.

Definition with_values (ps : list (nat * nat)) : list contribution := map (fun p => (fst p, snd p, 0%Qc)) ps.
Lemma with_values_pairs ps : map pair_of (with_values ps) = map zpair ps.
Proof. unfold with_values. rewrite map_map. apply map_ext. intros [a b]. reflexivity. Qed.
Lemma with_values_range n m ps : pairs_fit n m ps -> forall a b v, In (a, b, v) (with_values ps) -> a < n /\ b < m.
Proof. intros H a b v Hin. apply in_map_iff in Hin as ([x y] & E & Hin). cbn in E. injection E as -> -> _. apply H; auto. Qed.

(** The sorted structure without values *)
Lemma sorted_pattern n m ps ip indz : pairs_fit n m ps -> is_csr_of n (map zpair ps) ip indz ->
  exists nnz A, aget ip n = Ok nnz /\ csr_sort_indices (CSR m ip (map Z.to_nat indz) (repeat 0%Qc nnz)) = Ok A /\ wf_csr n m A /\ sorted_csr n A /\
    (forall i j, i < n -> matrix A i j = 0%Qc) /\ (forall i j, i < n -> (stored A i j <-> In (i, j) ps)).
Proof.
  intros Hf HP. pose proof HP as HP'. rewrite <- with_values_pairs in HP.
  pose proof (with_values_range n m ps Hf) as HR.
  pose proof (pat_end n (with_values ps) ip indz HP) as He.
  assert (Hip : length ip = n + 1) by (destruct HP as (H & _); auto).
  exists (length indz). rewrite (aget_nth ip n 0) by lia. rewrite He.
  set (dat := repeat 0%Qc (length indz)). set (ind := map Z.to_nat indz).
  assert (Hd : length dat = length ind) by (unfold dat, ind; rewrite repeat_length, map_length; reflexivity).
  pose proof (pat_wf n m (with_values ps) ip indz HR HP dat Hd) as wf. fold ind in wf.
  destruct (sort_indices_thm n m (CSR m ip ind dat)) as (B & E & wfB & Eip & HB).
  { split; [reflexivity|exact wf]. } { cbn. symmetry; auto. }
  cbn [c_indptr c_indices c_data] in *. exists B. split; [reflexivity|]. split; [exact E|]. split; [exact wfB|].
  assert (HC : forall i, i < n -> map fst (rowlist ip ind dat i) = map Z.to_nat (slice indz (nth i ip 0) (nth (S i) ip 0))).
  { intros i Hi. apply (row_cols n ip indz); auto. }
  split; [|split].
  - intros i Hi. destruct (HB i Hi) as [P Sl]. unfold sorted_le in Sl.
    assert (ND : NoDup (map fst (rowlist (c_indptr B) (c_indices B) (c_data B) i))).
    { eapply Permutation_NoDup; [apply Permutation_map; exact P|]. apply sorted_nodup. apply (pat_sorted n m (with_values ps) ip indz HR HP dat i Hd Hi). }
    clear - Sl ND. induction Sl as [|x l Sl IH F]; [constructor|]. inversion ND; subst. constructor; [auto|].
    rewrite Forall_forall in F |- *. intros y Hy. specialize (F y Hy). assert (x <> y) by (intros ->; contradiction). lia.
  - intros i j Hi. destruct (HB i Hi) as [P _]. unfold matrix, ent. apply suml_map_zero. intros [a v] Hin. apply filter_In in Hin as [Hin _].
    apply (Permutation_in _ (Permutation_sym P)) in Hin. unfold rowlist, slice in Hin.
    assert (F : forall (l : list (nat * Qc)) a, incl (firstn a l) l). { intros l b x Hx. rewrite <- (firstn_skipn b l). apply in_or_app; auto. }
    assert (G : forall (l : list (nat * Qc)) a, incl (skipn a l) l). { intros l b x Hx. rewrite <- (firstn_skipn b l). apply in_or_app; auto. }
    apply F in Hin. apply G in Hin. apply in_combine_r in Hin. unfold dat in Hin. apply repeat_spec in Hin. exact Hin.
  - intros i j Hi. destruct (HB i Hi) as [P _]. unfold stored.
    assert (Q : forall c, In c (map fst (rowlist (c_indptr B) (c_indices B) (c_data B) i)) <-> In c (map fst (rowlist ip ind dat i))).
    { intros c. split; apply Permutation_in, Permutation_map; [apply Permutation_sym|]; exact P. }
    rewrite Q, HC by auto. destruct HP' as (_ & _ & _ & _ & _ & HP'). destruct (HP' i Hi) as [_ Hin]. rewrite in_map_iff. split.
    + intros (z & <- & Hz). apply Hin in Hz. apply in_map_iff in Hz as ([a b] & Ez & Hz). unfold zpair in Ez. cbn in Ez. injection Ez as -> <-. rewrite Nat2Z.id. auto.
    + intros Hij. exists (Z.of_nat j). split; [apply Nat2Z.id|]. apply Hin. apply in_map_iff. exists (i, j). split; auto.
Qed.
