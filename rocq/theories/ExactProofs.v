(** The discrete gradient and the discrete curl. *)
From Verif Require Import Util Lin CSRModel CSRSpec MeshModel MeshSpec BaryModel BarySpec LocalModel LocalTables LocalSpec LocalProofs2 
  ReorderModel AssemblyModel AssemblySpec AssemblyProofs8 FormsModel FormsSpec FormsProofs FormsProofs2 ExactSpec.
Set Default Proof Using "Type".
Local Open Scope Qc_scope.

Definition grad_loc (C : list (list nat)) (i e k : nat) : Qc :=
  let c := nth i C [] in if (k =? e)%nat then - sign c e else if (k =? (e + 1) mod 3)%nat then sign c e else 0.
Definition curl_loc (C : list (list nat)) (i e k : nat) : Qc := sign (nth i C []) k.

Lemma orient_sign c e : length c = 3%nat -> NoDup c -> (e < 3)%nat -> orient c e ((e + 1) mod 3) = Ok (sign c e).
Proof.
  intros Hl ND He. destruct c as [|a [|b [|x [|]]]]; try discriminate. inversion ND as [|? ? N1 ND1]. inversion ND1 as [|? ? N2 _]. subst. cbn in N1, N2.
  assert (D1 : a <> b) by (intros Q; apply N1; auto). assert (D2 : a <> x) by (intros Q; apply N1; auto). assert (D3 : b <> x) by (intros Q; apply N2; auto).
  assert (K : forall p q : nat, p <> q -> (q <? p)%nat = negb (p <? q)%nat) by (intros p q; destruct (Nat.ltb_spec q p), (Nat.ltb_spec p q); cbn; lia || reflexivity).
  destruct e as [|[|[|e]]]; [| | |lia]; unfold orient, sign, edge_ends; change ((0 + 1) mod 3) with 1%nat; change ((1 + 1) mod 3) with 2%nat; change ((2 + 1) mod 3) with 0%nat;
    unfold aget; cbn [nth_error bind nth]; rewrite K by auto; destruct (_ <? _)%nat; reflexivity.
Qed.

Lemma grad_evaluates V C : triangles C -> 
  evaluates (lm_eval (cell_matrix false (fun c s => discrete_gradient_2d_N1e_P1_eval c))) 2 true 9 V C (fun i => full_matrix (grad_loc C i) (seq 0 3) (seq 0 3)).
Proof.
  intros HT i c cell contrib Hc Hl Hi Hn. specialize (Hi eq_refl). subst cell. destruct (HT c (nth_error_In _ _ Hc)) as [L3 ND].
  exists []. rewrite app_nil_r. cbn [lm_eval cell_matrix]. rewrite all_init_some. cbn [bind]. rewrite read_rows_ok. cbn [bind]. unfold discrete_gradient_2d_N1e_P1_eval.
  pose proof (orient_sign c 0 L3 ND ltac:(lia)) as O0. pose proof (orient_sign c 1 L3 ND ltac:(lia)) as O1. pose proof (orient_sign c 2 L3 ND ltac:(lia)) as O2.
  change ((0 + 1) mod 3) with 1%nat in O0. change ((1 + 1) mod 3) with 2%nat in O1. change ((2 + 1) mod 3) with 0%nat in O2.
  rewrite O0. cbn [bind]. rewrite O1. cbn [bind]. rewrite O2. cbn [bind].
  rewrite put_ok by exact Hn. split; [|reflexivity]. do 2 f_equal. unfold grad_loc. rewrite (nth_error_nth C i [] Hc). reflexivity.
Qed.
Lemma curl_evaluates V C : triangles C -> 
  evaluates (lm_eval (cell_matrix false (fun c s => discrete_curl_2d_P0_N1e_eval c))) 2 true 3 V C (fun i => full_matrix (curl_loc C i) (seq 0 1) (seq 0 3)).
Proof.
  intros HT i c cell contrib Hc Hl Hi Hn. specialize (Hi eq_refl). subst cell. destruct (HT c (nth_error_In _ _ Hc)) as [L3 ND].
  exists []. rewrite app_nil_r. cbn [lm_eval cell_matrix]. rewrite all_init_some. cbn [bind]. rewrite read_rows_ok. cbn [bind]. unfold discrete_curl_2d_P0_N1e_eval.
  pose proof (orient_sign c 0 L3 ND ltac:(lia)) as O0. pose proof (orient_sign c 1 L3 ND ltac:(lia)) as O1. pose proof (orient_sign c 2 L3 ND ltac:(lia)) as O2.
  change ((0 + 1) mod 3) with 1%nat in O0. change ((1 + 1) mod 3) with 2%nat in O1. change ((2 + 1) mod 3) with 0%nat in O2.
  rewrite O0. cbn [bind]. rewrite O1. cbn [bind]. rewrite O2. cbn [bind].
  rewrite put_ok by exact Hn. split; [|reflexivity]. do 2 f_equal. unfold curl_loc. rewrite (nth_error_nth C i [] Hc). reflexivity.
Qed.

Lemma coupled_dec dofs dofs' dpe dpe' cs I J : coupled dofs dofs' dpe dpe' cs I J \/ ~ coupled dofs dofs' dpe dpe' cs I J.
Proof.
  destruct (existsb (fun i => existsb (fun j => existsb (fun k => (dof dofs i j =? Z.of_nat I)%Z && (dof dofs' i k =? Z.of_nat J)%Z) (seq 0 dpe')) (seq 0 dpe)) cs) eqn:E.
  - left. apply existsb_exists in E as (i & Hi & E). apply existsb_exists in E as (j & Hj & E). apply existsb_exists in E as (k & Hk & E).
    apply andb_prop in E as [E1 E2]. apply Z.eqb_eq in E1, E2. apply in_seq in Hj, Hk. exists i, j, k. repeat split; auto; lia.
  - right. intros (i & j & k & Hi & Hj & Hk & E1 & E2). rewrite (proj2 (existsb_exists _ _)) in E; [discriminate|].
    exists i. split; auto. apply existsb_exists. exists j. split; [apply in_seq; lia|]. apply existsb_exists. exists k. split; [apply in_seq; lia|]. rewrite E1, E2, !Z.eqb_refl. reflexivity.
Qed.
Lemma in_cell_range n st en i : range_fits n en -> In i (cell_range n st en) -> (i < n)%nat.
Proof. unfold range_fits, cell_range. intros F H. apply in_seq in H. destruct en; lia. Qed.

Lemma in_range_cell {A} (C : list A) st en i : range_fits (length C) en -> In i (cell_range (length C) st en) -> exists c, nth_error C i = Some c.
Proof. intros F H. apply in_cell_range in H; auto. destruct (nth_error C i) eqn:E; [eauto|]. apply nth_error_None in E. lia. Qed.

Definition hits (z : Z) (J : nat) : Qc := if (z =? Z.of_nat J)%Z then 1 else 0.
Lemma sum_hits n z u : (z < Z.of_nat n)%Z -> sumf n (fun J => hits z J * u J) = interior u z.
Proof.
  intros Hz. unfold interior. destruct (Z.ltb_spec z 0) as [N|N].
  - apply sumf_zero. intros J HJ. unfold hits. destruct (Z.eqb_spec z (Z.of_nat J)); [lia|ring].
  - rewrite (sumf_single n _ (Z.to_nat z)); [unfold hits; rewrite Z2Nat.id, Z.eqb_refl by auto; ring|lia|]. intros J HJ NJ. unfold hits. destruct (Z.eqb_spec z (Z.of_nat J)); [lia|ring].
Qed.

Section Gradient.
  Variables (V : list (list Qc)) (C : list (list nat)) (dm dm' : dofmap) (nb nb' : nat) (st en : option nat) (E : nat -> nat * nat) (num : nat -> Z).
  Hypothesis mok : mesh_ok 2 3 V C.
  Hypothesis HT : triangles C.
  Hypothesis Hd : dm_dpe dm = 3%nat.
  Hypothesis Hd' : dm_dpe dm' = 3%nat.
  Hypothesis ok : dofs_ok (length C) 3 (dm_num dm) nb (dm_dofs dm).
  Hypothesis ok' : dofs_ok (length C) 3 (dm_num dm') nb' (dm_dofs dm').
  Hypothesis fit : range_fits (length C) en.
  Let range := cell_range (length C) st en.
  Hypothesis few : few_coupled (dm_dofs dm) (dm_dofs dm') 3 3 range.
  Hypothesis HE : numbers_edges C (dm_dofs dm) E.
  Hypothesis HN : numbers_vertices C (dm_dofs dm') num.
  Hypothesis used : all_used (dm_num dm) 3 (dm_dofs dm) range.

  (** The entry that a cell enters *)
  Lemma grad_loc_ok i c e k I J : nth_error C i = Some c -> (e < 3)%nat -> (k < 3)%nat -> dof (dm_dofs dm) i e = Z.of_nat I -> dof (dm_dofs dm') i k = Z.of_nat J ->
    grad_loc C i e k = hits (num (snd (E I))) J - hits (num (fst (E I))) J.
  Proof using HE HN HT.
    clear Hd Hd' ok ok' mok fit few used. intros Hc He Hk HI HJ. pose proof (HE i c e Hc He ltac:(lia)) as HEI. rewrite HI, Nat2Z.id in HEI. destruct HN as [HN1 HN2]. pose proof (HN1 i c k Hc Hk) as Hnk.
    destruct (HT c (nth_error_In _ _ Hc)) as [L3 ND].
    assert (Hh : forall m, (m < 3)%nat -> hits (num (nth m c O)) J = if (m =? k)%nat then 1 else 0).
    { intros m Hm. unfold hits. rewrite <- HJ, Hnk. destruct (Nat.eqb_spec m k) as [->|N]; [rewrite Z.eqb_refl; reflexivity|].
      destruct (Z.eqb_spec (num (nth m c O)) (num (nth k c O))) as [Q|Q]; [|reflexivity]. exfalso. apply N. symmetry in Q. apply HN2 in Q; [|rewrite <- Hnk, HJ; lia].
      symmetry in Q. apply (proj1 (NoDup_nth c O) ND m k) in Q; auto; lia. }
    unfold grad_loc. rewrite (nth_error_nth C i [] Hc). unfold sign. rewrite HEI. unfold edge_ends. set (e' := ((e + 1) mod 3)%nat).
    assert (He' : (e' < 3)%nat /\ e' <> e) by (unfold e'; destruct e as [|[|[|e]]]; cbn; lia). destruct He' as [He' Hne].
    destruct (_ <? _)%nat; cbn [fst snd]; rewrite !Hh by auto;
      destruct (Nat.eqb_spec k e), (Nat.eqb_spec e k), (Nat.eqb_spec k e'), (Nat.eqb_spec e' k); try lia; ring.
  Qed.

  Lemma gradient_all : exists G, assembleDiscreteGradient 2 V C dm dm' None st en = Ok G /\ wf_csr (dm_num dm) (dm_num dm') G /\
    forall u I, (I < dm_num dm)%nat -> sumf (dm_num dm') (fun J => matrix G I J * u J) = interior u (num (snd (E I))) - interior u (num (fst (E I))).
  Proof using All.
    unfold assembleDiscreteGradient.
    destruct (nonsym_all 2 2 V C dm dm' nb nb' (cell_matrix false (fun c s => discrete_gradient_2d_N1e_P1_eval c)) false (grad_loc C) st en None None) as (G & EG & wf & _ & _ & _ & HM);
      rewrite ?Hd, ?Hd'; auto; try discriminate.
    { apply grad_evaluates; auto. }
    exists G. split; [exact EG|]. split; [exact wf|]. intros u I HI. specialize (HM eq_refl I).
    assert (HG : forall J, (J < dm_num dm')%nat -> matrix G I J = hits (num (snd (E I))) J - hits (num (fst (E I))) J).
    { intros J HJ. destruct (HM J HI) as [HM1 HM2]. rewrite Hd, Hd' in HM1, HM2.
      destruct (used I HI) as (i & e & Hi & He & HeI). destruct (in_range_cell C st en i fit Hi) as (c & Hc).
      pose proof (HE i c e Hc He ltac:(lia)) as HEI. rewrite HeI, Nat2Z.id in HEI. destruct HN as [HN1 HN2].
      set (k := (e + 1) mod 3) in *. assert (Hk : (k < 3)%nat) by (apply Nat.mod_upper_bound; lia).
      pose proof (HN1 i c e Hc He) as N1. pose proof (HN1 i c k Hc Hk) as N2.
      destruct (Z.eqb_spec (dof (dm_dofs dm') i e) (Z.of_nat J)) as [Q1|Q1].
      - destruct HM1 as (i' & e'' & k' & Hi' & He'' & Hk' & HI' & HJ' & ->); [exists i, e, e; auto|]. destruct (in_range_cell C st en i' fit Hi') as (c' & Hc'). eapply grad_loc_ok; eauto.
      - destruct (Z.eqb_spec (dof (dm_dofs dm') i k) (Z.of_nat J)) as [Q2|Q2].
        + destruct HM1 as (i' & e'' & k' & Hi' & He'' & Hk' & HI' & HJ' & ->); [exists i, e, k; auto|]. destruct (in_range_cell C st en i' fit Hi') as (c' & Hc'). eapply grad_loc_ok; eauto.
        + assert (Z0 : hits (num (snd (E I))) J - hits (num (fst (E I))) J = 0).
          { rewrite HEI. unfold edge_ends. fold k. unfold hits. rewrite N1 in Q1. rewrite N2 in Q2. apply Z.eqb_neq in Q1, Q2. destruct (_ <? _)%nat; cbn [fst snd]; rewrite Q1, Q2; ring. }
          rewrite Z0. (* not necessarily uncoupled: another vertex of a cell with this edge *)
          destruct (coupled_dec (dm_dofs dm) (dm_dofs dm') 3 3 range I J) as [D|D]; [|apply HM2; exact D]. destruct (HM1 D) as (i' & e'' & k' & Hi' & He'' & Hk' & HI' & HJ' & ->). destruct (in_range_cell C st en i' fit Hi') as (c' & Hc').
          rewrite <- Z0. eapply grad_loc_ok; eauto. }
    rewrite (sumf_ext _ _ (fun J => hits (num (snd (E I))) J * u J - hits (num (fst (E I))) J * u J)) by (intros J HJ; rewrite HG by auto; ring).
    rewrite sumf_minus. destruct (used I HI) as (i & e & Hi & He & HeI). destruct (in_range_cell C st en i fit Hi) as (c & Hc).
    pose proof (HE i c e Hc He ltac:(lia)) as HEI. rewrite HeI, Nat2Z.id in HEI. destruct HN as [HN1 HN2].
    assert (Hk : ((e + 1) mod 3 < 3)%nat) by (apply Nat.mod_upper_bound; lia).
    assert (B1 : (num (nth e c O) < Z.of_nat (dm_num dm'))%Z) by (rewrite <- (HN1 i c e Hc He); eapply dof_lt; exact ok').
    assert (B2 : (num (nth ((e + 1) mod 3) c O) < Z.of_nat (dm_num dm'))%Z) by (rewrite <- (HN1 i c _ Hc Hk); eapply dof_lt; exact ok').
    rewrite HEI. unfold edge_ends. destruct (_ <? _)%nat; cbn [fst snd]; rewrite !sum_hits by assumption; reflexivity.
  Qed.
End Gradient.

Section Curl.
  Variables (V : list (list Qc)) (C : list (list nat)) (dm dm' : dofmap) (nb nb' : nat) (st en : option nat) (E : nat -> nat * nat) (num : nat -> Z).
  Hypothesis mok : mesh_ok 2 3 V C.
  Hypothesis HT : triangles C.
  Hypothesis Hd : dm_dpe dm = 1%nat.
  Hypothesis Hd' : dm_dpe dm' = 3%nat.
  Hypothesis ok : dofs_ok (length C) 1 (dm_num dm) nb (dm_dofs dm).
  Hypothesis ok' : dofs_ok (length C) 3 (dm_num dm') nb' (dm_dofs dm').
  Hypothesis fit : range_fits (length C) en.
  Let range := cell_range (length C) st en.
  Hypothesis HC : numbers_cells C (dm_dofs dm) num.
  Hypothesis HE : numbers_edges C (dm_dofs dm') E.

  (** At most three edges for every cell *)
  Lemma curl_few : few_coupled (dm_dofs dm) (dm_dofs dm') 1 3 range.
  Proof using HC fit.
    clear Hd Hd' ok ok' mok HE HT. intros I Js ND H. destruct Js as [|J0 Js]; [apply Nat.neq_0_lt_0, Nat.pow_nonzero; lia|].
    destruct (H J0 (or_introl eq_refl)) as (i & j & k & Hi & Hj & Hk & EI & _). assert (j = O) by lia. subst j.
    pose proof (in_cell_range _ _ _ _ fit Hi) as Li. destruct HC as [HC1 HC2]. rewrite HC1 in EI by auto.
    assert (Hinc : incl (J0 :: Js) (map (fun k => Z.to_nat (dof (dm_dofs dm') i k)) (seq 0 3))).
    { intros J HJ. destruct (H J HJ) as (i' & j & k' & Hi' & Hj' & Hk' & EI' & EJ'). assert (j = O) by lia. subst j.
      pose proof (in_cell_range _ _ _ _ fit Hi') as Li'. rewrite HC1 in EI' by auto. assert (i' = i) by (apply HC2; lia). subst i'.
      apply in_map_iff. exists k'. split; [rewrite EJ'; apply Nat2Z.id|apply in_seq; lia]. }
    apply NoDup_incl_length in Hinc; [|exact ND]. rewrite map_length, seq_length in Hinc. 
    eapply Nat.le_lt_trans; [exact Hinc|]. apply Nat.lt_trans with (2 ^ 2)%nat; [cbn; lia|apply Nat.pow_lt_mono_r; lia].
  Qed.

  Lemma edges_distinct i c k k' : nth_error C i = Some c -> (k < 3)%nat -> (k' < 3)%nat -> (0 <= dof (dm_dofs dm') i k)%Z -> dof (dm_dofs dm') i k = dof (dm_dofs dm') i k' -> k = k'.
  Proof using HE HT.
    clear Hd Hd' ok ok' mok fit HC. intros Hc Hk Hk' P Q. pose proof (HE i c k Hc Hk P) as E1. pose proof (HE i c k' Hc Hk' ltac:(lia)) as E2. rewrite Q, E2 in E1.
    destruct (HT c (nth_error_In _ _ Hc)) as [L3 ND]. unfold edge_ends in E1.
    assert (B : forall m m', (m < 3)%nat -> (m' < 3)%nat -> nth m c O = nth m' c O -> m = m') by (intros m m' Hm Hm'; apply (proj1 (NoDup_nth c O) ND); lia).
    assert (D : (nth k' c O = nth k c O /\ nth ((k' + 1) mod 3) c O = nth ((k + 1) mod 3) c O) \/ (nth k' c O = nth ((k + 1) mod 3) c O /\ nth ((k' + 1) mod 3) c O = nth k c O)).
    { destruct (_ <? _)%nat in E1; destruct (_ <? _)%nat in E1; injection E1 as E3 E4; auto. }
    destruct D as [[D _]|[D1 D2]]; [symmetry; apply B; auto|]. apply B in D1, D2; try apply Nat.mod_upper_bound; try lia.
    exfalso. destruct k as [|[|[|k]]]; [| | |lia]; destruct k' as [|[|[|k']]]; try lia; cbn in D1, D2; lia.
  Qed.

  Lemma curl_all : exists K, assembleDiscreteCurl 2 V C dm dm' None st en = Ok K /\ wf_csr (dm_num dm) (dm_num dm') K /\
    forall w i c, In i range -> nth_error C i = Some c -> (0 <= num i)%Z ->
      sumf (dm_num dm') (fun J => matrix K (Z.to_nat (num i)) J * w J) = sumf 3 (fun k => sign c k * interior w (dof (dm_dofs dm') i k)).
  Proof using All.
    unfold assembleDiscreteCurl.
    destruct (nonsym_all 2 2 V C dm dm' nb nb' (cell_matrix false (fun c s => discrete_curl_2d_P0_N1e_eval c)) false (curl_loc C) st en None None) as (K & EK & wf & _ & _ & _ & HM);
      rewrite ?Hd, ?Hd'; auto; try discriminate.
    { apply curl_evaluates; auto. }
    { intros _. apply curl_few. }
    exists K. split; [exact EK|]. split; [exact wf|]. intros w i c Hi Hc P. specialize (HM eq_refl (Z.to_nat (num i))). destruct HC as [HC1 HC2].
    pose proof (in_cell_range _ _ _ _ fit Hi) as Li.
    assert (LI : (Z.to_nat (num i) < dm_num dm)%nat) by (pose proof (dof_lt _ _ _ _ _ i 0 ok) as L; rewrite HC1 in L by auto; lia).
    rewrite Hd, Hd' in HM. fold range in HM.
    assert (HK : forall J, (J < dm_num dm')%nat -> matrix K (Z.to_nat (num i)) J = sumf 3 (fun k => hits (dof (dm_dofs dm') i k) J * sign c k)).
    { intros J HJ. destruct (HM J LI) as [HM1 HM2].
      destruct (coupled_dec (dm_dofs dm) (dm_dofs dm') 1 3 range (Z.to_nat (num i)) J) as [D|D].
      - destruct (HM1 D) as (i' & j & k & Hi' & Hj & Hk & EI & EJ & ->). assert (j = O) by lia. subst j. pose proof (in_cell_range _ _ _ _ fit Hi') as Li'.
        rewrite HC1 in EI by auto. assert (i' = i) by (apply HC2; lia). subst i'. unfold curl_loc. rewrite (nth_error_nth C i [] Hc).
        rewrite (sumf_single 3 _ k); [unfold hits; rewrite EJ, Z.eqb_refl; ring|auto|]. intros k' Hk' N. unfold hits. destruct (Z.eqb_spec (dof (dm_dofs dm') i k') (Z.of_nat J)) as [Q|Q]; [|ring].
        exfalso. apply N. eapply edges_distinct; eauto; lia.
      - rewrite (HM2 D). symmetry. apply sumf_zero. intros k Hk. unfold hits. destruct (Z.eqb_spec (dof (dm_dofs dm') i k) (Z.of_nat J)) as [Q|Q]; [|ring].
        exfalso. apply D. exists i, 0%nat, k. repeat split; auto; try lia. rewrite HC1 by auto. lia. }
    rewrite (sumf_ext _ _ (fun J => sumf 3 (fun k => hits (dof (dm_dofs dm') i k) J * sign c k * w J))).
    2:{ intros J HJ. rewrite HK by auto. rewrite <- sumf_scal_r. reflexivity. }
    rewrite sumf_swap. apply sumf_ext. intros k Hk. rewrite (sumf_ext _ _ (fun J => sign c k * (hits (dof (dm_dofs dm') i k) J * w J))) by (intros; ring).
    rewrite sumf_scal, sum_hits; [reflexivity|]. eapply dof_lt; exact ok'.
  Qed.
End Curl.

(** The signed sum over the edges of a triangle of differences of values at vertices vanishes. *)
Lemma loop_zero C dofs E i c (f : nat -> Qc) : numbers_edges C dofs E -> nth_error C i = Some c -> (forall k, (k < 3)%nat -> (0 <= dof dofs i k)%Z) ->
  sumf 3 (fun k => sign c k * (f (snd (E (Z.to_nat (dof dofs i k)))) - f (fst (E (Z.to_nat (dof dofs i k)))))) = 0.
Proof.
  intros HE Hc Hp. rewrite (sumf_ext _ _ (fun k => f (nth ((k + 1) mod 3) c O) - f (nth k c O))).
  - cbn. ring.
  - intros k Hk. rewrite (HE i c k Hc Hk (Hp k Hk)). unfold sign, edge_ends. destruct (_ <? _)%nat; cbn [fst snd]; ring.
Qed.

Lemma exact_all V C dmP dmE dmV nbP nbE nbV st en E num cnum : mesh_ok 2 3 V C -> triangles C -> dm_dpe dmP = 1%nat -> dm_dpe dmE = 3%nat -> dm_dpe dmV = 3%nat ->
  dofs_ok (length C) 1 (dm_num dmP) nbP (dm_dofs dmP) -> dofs_ok (length C) 3 (dm_num dmE) nbE (dm_dofs dmE) -> dofs_ok (length C) 3 (dm_num dmV) nbV (dm_dofs dmV) ->
  range_fits (length C) en -> let range := cell_range (length C) st en in
  few_coupled (dm_dofs dmE) (dm_dofs dmV) 3 3 range -> numbers_cells C (dm_dofs dmP) cnum -> numbers_edges C (dm_dofs dmE) E -> numbers_vertices C (dm_dofs dmV) num ->
  all_used (dm_num dmE) 3 (dm_dofs dmE) range ->
  exists G K, assembleDiscreteGradient 2 V C dmE dmV None st en = Ok G /\ assembleDiscreteCurl 2 V C dmP dmE None st en = Ok K /\
    forall u i, In i range -> (0 <= cnum i)%Z -> (forall k, (k < 3)%nat -> (0 <= dof (dm_dofs dmE) i k)%Z) ->
      sumf (dm_num dmE) (fun I => matrix K (Z.to_nat (cnum i)) I * sumf (dm_num dmV) (fun J => matrix G I J * u J)) = 0.
Proof.
  intros mok HT d1 d2 d3 okP okE okV fit range few HC HE HN used.
  destruct (gradient_all V C dmE dmV nbE nbV st en E num) as (G & EG & wfG & HG); auto. destruct (curl_all V C dmP dmE nbP nbE st en E cnum) as (K & EK & wfK & HK); auto.
  exists G, K. split; [exact EG|]. split; [exact EK|]. intros u i Hi P Hp. destruct (in_range_cell C st en i fit Hi) as (c & Hc).
  rewrite (HK (fun I => sumf (dm_num dmV) (fun J => matrix G I J * u J)) i c Hi Hc P).
  rewrite <- (loop_zero C (dm_dofs dmE) E i c (fun v => interior u (num v)) HE Hc Hp). apply sumf_ext. intros k Hk. f_equal.
  unfold interior at 1. pose proof (Hp k Hk) as Pk. apply Z.ltb_ge in Pk. rewrite Pk. apply HG. pose proof (dof_lt _ _ _ _ _ i k okE). apply Z.ltb_ge in Pk. lia.
Qed.
