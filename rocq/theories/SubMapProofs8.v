(** Restriction with an indicator. *)
From Coq Require Import Sorting.Sorted.
From Verif Require Import Util Lin CSRModel SparsitySpec CSRSpec OpsProofs3 AssemblyProofs TransferProofs2 SubMapModel SubMapSpec SubMapProofs SubMapProofs2 SubMapProofs3 SubMapProofs4 SubMapProofs5 SubMapProofs6.
Local Open Scope Z_scope.
Set Default Proof Using "Type".

Lemma ssorted_seq n : forall a, StronglySorted lt (seq a n).
Proof.
  induction n as [|n IH]; intros a; cbn [seq]; constructor; [apply IH|]. apply Forall_forall. intros x Hx. apply in_seq in Hx. lia.
Qed.
Lemma ssorted_filter f l : StronglySorted lt l -> StronglySorted lt (filter f l).
Proof.
  induction 1 as [|x l H IH HF]; cbn [filter]; [constructor|]. destruct (f x); [|exact IH]. constructor; [exact IH|].
  apply Forall_forall. intros y Hy. apply filter_In in Hy. apply (proj1 (Forall_forall _ _) HF). tauto.
Qed.
Lemma ssorted_nth l : StronglySorted lt l -> forall i j, (i < j)%nat -> (j < length l)%nat -> (nth i l O < nth j l O)%nat.
Proof.
  induction 1 as [|x l H IH HF]; intros i j Hij Hj; cbn [length] in Hj; [lia|]. destruct j as [|j]; [lia|]. destruct i as [|i]; cbn [nth].
  - apply (proj1 (Forall_forall _ _) HF). apply nth_In. lia.
  - apply IH; lia.
Qed.

Lemma upd_app_mid {A} (p : list A) x q y : upd (p ++ x :: q) (length p) y = p ++ y :: q.
Proof. induction p as [|z p IH]; cbn [length app upd]; [reflexivity|]. rewrite IH. reflexivity. Qed.

Definition marked (v : list Qc) (n : nat) : list nat := filter (fun d => positive (vat v d)) (seq 0 n).
Lemma marked_S v n : marked v (S n) = marked v n ++ (if positive (vat v n) then [n] else []).
Proof. unfold marked. rewrite seq_S, filter_app. cbn [Nat.add filter]. destruct (positive (vat v n)); reflexivity. Qed.
Lemma marked_le v n m : (n <= m)%nat -> exists l, marked v m = marked v n ++ l.
Proof.
  intros H. unfold marked. replace m with (n + (m - n))%nat by lia. rewrite seq_app, filter_app. eauto.
Qed.

Lemma mark_loop v n N : (n <= length v)%nat -> (length (marked v n) <= N)%nat ->
  for_range 0 n (fun i '(k, ind) => w <- aget v i ;; if positive w then ind' <- wr ind k (Z.of_nat i) ;; Ok (S k, ind') else Ok (k, ind)) (O, repeat (Some 0) N)
    = Ok (length (marked v n), map (fun d => Some (Z.of_nat d)) (marked v n) ++ repeat (Some 0) (N - length (marked v n))).
Proof.
  intros Hn HN. destruct (for_range_inv (fun i st => st = (length (marked v i), map (fun d => Some (Z.of_nat d)) (marked v i) ++ repeat (Some 0) (N - length (marked v i))))
    (fun i '(k, ind) => w <- aget v i ;; if positive w then ind' <- wr ind k (Z.of_nat i) ;; Ok (S k, ind') else Ok (k, ind)) 0%nat n (O, repeat (Some 0) N)) as (st & E & ->); [lia| | |exact E].
  - cbn. rewrite Nat.sub_0_r. reflexivity.
  - intros i st Hi ->. rewrite (aget_nth v i 0%Qc) by lia. cbn [bind]. fold (vat v i). rewrite marked_S. destruct (positive (vat v i)) eqn:Ep.
    + assert (LT : (length (marked v i) < N)%nat).
      { destruct (marked_le v (S i) n ltac:(lia)) as (l & El). rewrite El, app_length, marked_S, Ep, app_length in HN. cbn [length] in HN. lia. }
      rewrite wr_ok by (rewrite app_length, map_length, repeat_length; lia). cbn [bind]. eexists; split; [reflexivity|].
      rewrite app_length. cbn [length]. f_equal; [lia|]. rewrite map_app. cbn [map]. rewrite <- app_assoc.
      replace (N - length (marked v i))%nat with (S (N - (length (marked v i) + 1)))%nat by lia. cbn [repeat].
      pose proof (upd_app_mid (map (fun d => Some (Z.of_nat d)) (marked v i)) (Some 0) (repeat (Some 0) (N - (length (marked v i) + 1))) (Some (Z.of_nat i))) as U.
      rewrite map_length in U. rewrite U. reflexivity.
    + rewrite app_nil_r. eauto.
Qed.

Lemma indicator_restriction_ok dm v sub : is_dofmap dm -> Z.of_nat (length v) = num_dofs dm ->
  renumbers (num_cells dm) (dofs_per_element dm) (the_grid dm) (indicated_dofs v) sub ->
  (forall i k i' k', (i < num_cells dm)%nat -> (k < dofs_per_element dm)%nat -> (i' < num_cells dm)%nat -> (k' < dofs_per_element dm)%nat ->
     0 <= the_grid sub i k -> 0 <= the_grid sub i' k' -> the_grid dm i k < the_grid dm i' k' -> the_grid sub i k < the_grid sub i' k') ->
  exists R P, getSubMapRestrictionProlongation dm sub (Some v) = Ok (R, P) /\
    let n := Z.to_nat (num_dofs dm) in let n' := Z.to_nat (num_dofs sub) in
    wf_csr n' n R /\ takes (num_cells dm) (dofs_per_element dm) (the_grid dm) (the_grid sub) n n' (matrix R) /\
    copies (num_cells dm) (dofs_per_element dm) (the_grid dm) (the_grid sub) n (matrix R) /\
    wf_csr n n' P /\ transposed n n' (matrix R) (matrix P).
Proof.
  intros (Hs & Hn & Hnb & Hr & Hsur) Lv (EC & ED & (Ss & Sn & Snb & Sr & Ssur) & SC & HG) MON. rewrite EC, ED in Sr, Ssur. unfold getSubMapRestrictionProlongation.
  set (nc := num_cells dm) in *. set (dpe := dofs_per_element dm) in *. set (n := Z.to_nat (num_dofs dm)). set (n' := Z.to_nat (num_dofs sub)).
  assert (POS : forall w, positive w = true <-> (0 < w)%Qc).
  { intros w. unfold positive. destruct (Qle_bool w 0) eqn:Eq; cbn [negb]; split; intros H; try discriminate; try reflexivity.
    - apply Qle_bool_iff in Eq. exfalso. apply (Qlt_not_le _ _ H). exact Eq.
    - apply Qcnot_le_lt. intros H'. apply Qle_bool_iff in H'. change (Qle_bool w 0 = true) in H'. congruence. }
  set (l := marked v n). assert (SO : StronglySorted lt l) by (apply ssorted_filter, ssorted_seq).
  assert (INL : forall d, In d l <-> (d < n)%nat /\ (0 < vat v d)%Qc).
  { intros d. unfold l, marked. rewrite filter_In, in_seq, POS. split; intros (A & B); (split; [lia|exact B]). }
  assert (HL : forall i k, (i < nc)%nat -> (k < dpe)%nat -> (0 <= the_grid sub i k <-> 0 <= the_grid dm i k /\ In (Z.to_nat (the_grid dm i k)) l)).
  { intros i k Hi Hk. rewrite (HG i k Hi Hk). unfold indicated_dofs. pose proof (Hr i k Hi Hk). rewrite INL. split; [intros (A & B); split; [exact A|split; [lia|exact B]]|tauto]. }
  assert (RANK : forall r i k, (r < length l)%nat -> (i < nc)%nat -> (k < dpe)%nat -> the_grid dm i k = Z.of_nat (nth r l O) -> the_grid sub i k = Z.of_nat r).
  { induction r as [r IH] using lt_wf_ind. intros i k Hr' Hi Hk E.
    assert (P0 : 0 <= the_grid sub i k) by (apply (HL i k Hi Hk); rewrite E; split; [lia|]; rewrite Nat2Z.id; apply nth_In; exact Hr').
    assert (GE : Z.of_nat r <= the_grid sub i k).
    { destruct r as [|r]; [lia|]. pose proof (proj1 (INL (nth r l O)) (nth_In l O (ltac:(lia) : (r < length l)%nat))) as (Q1 & Q2).
      destruct (Hsur (Z.of_nat (nth r l O)) ltac:(lia)) as (i0 & k0 & H1 & H2 & H3). pose proof (IH r ltac:(lia) i0 k0 ltac:(lia) H1 H2 H3) as V.
      pose proof (MON i0 k0 i k H1 H2 Hi Hk ltac:(lia) P0). pose proof (ssorted_nth l SO r (S r) ltac:(lia) Hr'). lia. }
    destruct (Z.eq_dec (the_grid sub i k) (Z.of_nat r)) as [|Ne]; [assumption|exfalso]. pose proof (Sr i k Hi Hk).
    destruct (Ssur (Z.of_nat r) ltac:(lia)) as (i1 & k1 & H1 & H2 & H3). destruct (proj1 (HL i1 k1 H1 H2) ltac:(lia)) as (G0 & G1).
    destruct (In_nth l _ O G1) as (j & Hj & Ej). assert (E1 : the_grid dm i1 k1 = Z.of_nat (nth j l O)) by lia.
    destruct (lt_eq_lt_dec j r) as [[Hlt|Heq]|Hgt].
    - pose proof (IH j Hlt i1 k1 Hj H1 H2 E1). lia.
    - subst j. pose proof (proj1 (SC i k i1 k1 Hi Hk H1 H2) ltac:(congruence)). lia.
    - pose proof (ssorted_nth l SO r j Hgt Hj). pose proof (MON i k i1 k1 Hi Hk H1 H2 P0 ltac:(lia) ltac:(lia)). lia. }
  assert (LEN : length l = n').
  { apply Nat.le_antisymm.
    - destruct (Nat.eq_dec (length l) 0) as [E0|N0]; [lia|]. pose proof (proj1 (INL (nth (length l - 1) l O)) (nth_In l O (ltac:(lia) : (length l - 1 < length l)%nat))) as (Q1 & Q2).
      destruct (Hsur (Z.of_nat (nth (length l - 1) l O)) ltac:(lia)) as (i & k & H1 & H2 & H3). pose proof (RANK (length l - 1)%nat i k ltac:(lia) H1 H2 H3). pose proof (Sr i k H1 H2). lia.
    - destruct (Nat.eq_dec n' 0) as [E0|N0]; [lia|]. destruct (Ssur (Z.of_nat (n' - 1)) ltac:(lia)) as (i & k & H1 & H2 & H3). destruct (proj1 (HL i k H1 H2) ltac:(lia)) as (G0 & G1).
      destruct (In_nth l _ O G1) as (j & Hj & Ej). pose proof (RANK j i k Hj H1 H2 ltac:(lia)). lia. }
  match goal with |- context [for_range 0 n ?f ?s] => assert (EE : for_range 0 n f s = Ok (length l, map (fun d => Some (Z.of_nat d)) l)) end.
  { fold n n'. rewrite mark_loop by (fold l; lia). fold l. rewrite LEN, Nat.sub_diag. cbn [repeat]. rewrite app_nil_r. reflexivity. }
  fold n. rewrite EE. cbn [bind].
  destruct (selection_ok n' n (map (fun d => Some (Z.of_nat d)) l) (fun r => nth r l O)) as (R & ES & WF & H0 & HM).
  { rewrite map_length. exact LEN. }
  { intros r Hr'. rewrite nth_error_map, (nth_error_nth' l O) by lia. cbn [option_map]. split; [reflexivity|]. apply (proj1 (INL _)). apply nth_In. lia. }
  unfold n, n' in ES. rewrite !Z2Nat.id in ES by lia. rewrite ES. cbn [bind]. destruct (transpose_thm n' n R WF H0) as (P & EP & WP & HP & _). rewrite EP. cbn [bind].
  exists R, P. split; [reflexivity|]. cbn beta zeta. fold n n'. split; [exact WF|].
  assert (AT : forall i k, (i < nc)%nat -> (k < dpe)%nat -> 0 <= the_grid sub i k -> nth (Z.to_nat (the_grid sub i k)) l O = Z.to_nat (the_grid dm i k)).
  { intros i k Hi Hk H. destruct (proj1 (HL i k Hi Hk) H) as (G0 & G1). destruct (In_nth l _ O G1) as (j & Hj & Ej). rewrite (RANK j i k Hj Hi Hk ltac:(lia)), Nat2Z.id. exact Ej. }
  split; [|split; [|split; [exact WP|exact HP]]].
  - intros r c Hr' Hc. rewrite (HM r c Hr'). split.
    + intros (i & k & H1 & H2 & H3 & H4). pose proof (AT i k H1 H2 ltac:(lia)) as A. rewrite H3, Nat2Z.id, H4, Nat2Z.id in A. rewrite A, Nat.eqb_refl. reflexivity.
    + intros NO. destruct (Nat.eqb_spec (nth r l O) c) as [Ec|_]; [|reflexivity]. exfalso. apply NO. destruct (Ssur (Z.of_nat r) ltac:(lia)) as (i & k & H1 & H2 & H3).
      pose proof (AT i k H1 H2 ltac:(lia)) as A. rewrite H3, Nat2Z.id in A. exists i, k. split; [exact H1|]. split; [exact H2|]. split; [exact H3|].
      destruct (proj1 (HL i k H1 H2) ltac:(lia)). lia.
  - intros x i k Hi Hk Hp. pose proof (Sr i k Hi Hk). apply mv_row.
    + destruct (proj1 (HL i k Hi Hk) Hp) as (G0 & G1). apply INL in G1. tauto.
    + intros c. rewrite HM by lia. rewrite (AT i k Hi Hk Hp). reflexivity.
Qed.

Lemma augment_boundary_ok dm full x bd : is_dofmap dm -> full_of dm full -> Z.of_nat (length x) = num_dofs dm -> Z.of_nat (length bd) = num_boundary_dofs dm ->
  exists y, augmentWithBoundaryData dm full x bd = Ok y /\ Z.of_nat (length y) = num_dofs full /\
    (forall i k, (i < num_cells dm)%nat -> (k < dofs_per_element dm)%nat ->
       vat y (Z.to_nat (the_grid full i k)) = if 0 <=? the_grid dm i k then vat x (Z.to_nat (the_grid dm i k)) else vat bd (Z.to_nat (- the_grid dm i k - 1))).
Proof.
  intros H F L LB. apply (augment_ok dm full x _ (fun z => vat bd (Z.to_nat (- z - 1))) H F L). intros z Hz. rewrite zidx_ok by lia. cbn [bind]. unfold vat. apply aget_nth. lia.
Qed.

Lemma one_cell (a b n nb : Z) : (forall v, - nb <= v < n -> v = a \/ v = b) -> - nb <= a < n -> - nb <= b < n -> 0 <= n -> 0 <= nb -> is_dofmap (DM 1 2 [a; b] n nb).
Proof.
  intros H Ha Hb Hn Hnb. split; [reflexivity|]. cbn [num_cells dofs_per_element num_dofs num_boundary_dofs]. split; [lia|]. split; [lia|]. split.
  - intros [|i] [|[|k]] Hi Hk; cbn; lia.
  - intros v Hv. destruct (H v Hv) as [-> | ->]; [exists O, O|exists O, 1%nat]; (split; [lia|]; split; [lia|reflexivity]).
Qed.
Lemma restriction_boundary_refuted :
  ~ (forall dm sub, is_dofmap dm -> is_dofmap sub -> num_cells sub = num_cells dm -> dofs_per_element sub = dofs_per_element dm ->
     same_classes (num_cells dm) (dofs_per_element dm) (the_grid dm) (the_grid sub) -> exists RP, getSubMapRestrictionProlongation dm sub None = Ok RP).
Proof.
  intros H. destruct (H (DM 1 2 [-1; 0] 1 1) (DM 1 2 [0; 1] 2 0)) as (RP & E).
  - apply one_cell; lia.
  - apply one_cell; lia.
  - reflexivity.
  - reflexivity.
  - intros [|i] [|[|k]] [|i'] [|[|k']] H1 H2 H3 H4; cbn in *; lia.
  - vm_compute in E. discriminate.
Qed.
Lemma indicator_restriction_refuted :
  ~ (forall dm v sub, is_dofmap dm -> Z.of_nat (length v) = num_dofs dm -> getSubMap dm v = Ok sub ->
     exists R P, getSubMapRestrictionProlongation dm sub (Some v) = Ok (R, P) /\
       takes (num_cells dm) (dofs_per_element dm) (the_grid dm) (the_grid sub) (Z.to_nat (num_dofs dm)) (Z.to_nat (num_dofs sub)) (matrix R)).
Proof.
  intros H. destruct (H (DM 1 2 [1; 0] 2 0) [1%Qc; 1%Qc] (DM 1 2 [0; 1] 2 0)) as (R & P & E & T).
  - apply one_cell; lia.
  - reflexivity.
  - vm_compute. reflexivity.
  - assert (ER : R = CSR 2 [0; 1; 2]%nat [0; 1]%nat [1%Qc; 1%Qc]) by (vm_compute in E; injection E; intros _ <-; reflexivity).
    assert (T1 : matrix R 0%nat 1%nat = 1%Qc).
    { apply T; [vm_compute; lia|vm_compute; lia|]. exists O, O. split; [cbn; lia|]. split; [cbn; lia|]. split; reflexivity. }
    rewrite ER in T1. vm_compute in T1. discriminate.
Qed.
