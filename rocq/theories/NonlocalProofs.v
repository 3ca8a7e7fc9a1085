(** Entering local matrices of pairs of cells as lists of additions. *)
From Verif Require Import Util Lin MeshModel LocalSpec FormsProofs2 ReorderProofs AssemblyModel AssemblySpec AssemblyProofs AssemblyProofs2 AssemblyProofs7
  RestrictionProofs NonlocalModel NonlocalSpec.
From Coq Require Import Lia.
Set Default Proof Using "Type".

(** A loop with a running position. *)
Lemma count_loop {M} (body : nat -> nat * M -> res (nat * M)) (g : nat -> M -> res M) (pos : nat -> nat) n : forall lo A,
  (forall i A, lo <= i < lo + n -> body i (pos i, A) = bind (g i A) (fun A => Ok (pos (S i), A))) ->
  for_n n lo body (pos lo, A) = bind (for_list (seq lo n) g A) (fun A => Ok (pos (lo + n), A)).
Proof.
  induction n as [|n IH]; intros lo A H.
  - cbn [for_n seq for_list]. rewrite bind_Ok, Nat.add_0_r. reflexivity.
  - cbn [for_n seq for_list]. rewrite H by lia. rewrite !bind_assoc. apply bind_ext. intros A'. rewrite bind_Ok.
    rewrite IH by (intros; apply H; lia). rewrite Nat.add_succ_r. reflexivity.
Qed.

(** Position of row p in the packed upper triangle. *)
Fixpoint row_start (n p : nat) : nat := match p with O => O | S p => row_start n p + (n - p) end.
Lemma triangle_shift {B} (f : nat -> nat -> B) (n : nat) (d : B) : forall p lo q, p + q < n ->
  nth (row_start n p + q) (upper_triangle f (seq lo n)) d = f (lo + p) (lo + p + q).
Proof.
  assert (G : forall p lo q m, p <= n -> m = n - p -> q < m ->
    nth (row_start n p + q) (upper_triangle f (seq lo n)) d = nth q (upper_triangle f (seq (lo + p) m)) d).
  { induction p as [|p IH]; intros lo q m Hp Hm Hq.
    - cbn [row_start]. rewrite Nat.add_0_r, Nat.sub_0_r in *. subst m. reflexivity.
    - cbn [row_start]. destruct (Nat.eq_dec q q) as [_|]; [|congruence].
      assert (E : forall q', q' < length (upper_triangle f (seq (lo + p) (S m))) ->
         nth (row_start n p + q') (upper_triangle f (seq lo n)) d = nth q' (upper_triangle f (seq (lo + p) (S m))) d).
      { clear IH. enough (G : forall k lo' q', k <= p -> nth (row_start n k + q') (upper_triangle f (seq lo' n)) d = nth q' (upper_triangle f (seq (lo' + k) (n - k))) d).
        { intros q' _. rewrite G by lia. f_equal. f_equal. f_equal. lia. }
        induction k as [|k IHk]; intros lo' q' Hk.
        - cbn [row_start]. rewrite Nat.add_0_r, Nat.sub_0_r. reflexivity.
        - cbn [row_start]. rewrite <- Nat.add_assoc, IHk by lia. assert (En : n - k = S (n - S k)) by lia.
          rewrite En. cbn [seq upper_triangle]. rewrite app_nth2 by (rewrite map_length; cbn [length]; rewrite seq_length; lia).
          rewrite map_length. cbn [length]. rewrite seq_length. rewrite <- Nat.add_succ_r. f_equal. lia. }
      rewrite <- Nat.add_assoc, E.
      + assert (En : n - p = S m) by lia. rewrite En. cbn [seq upper_triangle].
        rewrite app_nth2 by (rewrite map_length; cbn [length]; rewrite seq_length; lia).
        rewrite map_length. cbn [length]. rewrite seq_length. rewrite <- Nat.add_succ_r. f_equal. lia.
      + assert (En : n - p = S m) by lia. rewrite En. cbn [seq upper_triangle]. rewrite app_length, map_length. cbn [length]. rewrite seq_length.
        rewrite <- Nat.add_succ_r. destruct m as [|m']; [lia|]. cbn [seq upper_triangle]. rewrite app_length, map_length. cbn [length]. rewrite seq_length. lia. }
  intros p lo q H. rewrite (G p lo q (n - p)) by lia. assert (En : n - p = S (n - S p)) by lia. rewrite En. cbn [seq upper_triangle].
  rewrite app_nth1 by (rewrite map_length; cbn [length]; rewrite seq_length; lia).
  change (lo + p :: seq (S (lo + p)) (n - S p)) with (seq (lo + p) (S (n - S p))).
  rewrite (nth_indep _ d (f (lo + p) 0)) by (rewrite map_length, seq_length; lia). rewrite map_nth, seq_nth by lia. reflexivity.
Qed.
Lemma row_start_closed n p : p <= n -> 2 * row_start n p + p * p = 2 * n * p + p.
Proof. induction p as [|p IH]; intros H; cbn [row_start]; [lia|]. specialize (IH ltac:(lia)). nia. Qed.
Lemma row_start_lt n p q : p + q < n -> row_start n p + q < n * (n + 1) / 2.
Proof.
  intros H. apply Nat.lt_le_trans with (row_start n (S p)); [cbn [row_start]; lia|].
  apply Nat.div_le_lower_bound; [lia|]. pose proof (row_start_closed n (S p) ltac:(lia)). nia.
Qed.

(** The additions made for a local matrix f with degrees of freedom d. *)
Definition sym_events (n : nat) (d : nat -> Z) (f : nat -> nat -> Qc) (fac : Qc) : list contribution :=
  flat_map (fun p => if (0 <=? d p)%Z then
    (Z.to_nat (d p), Z.to_nat (d p), (fac * f p p)%Qc) ::
    flat_map (fun q => if (0 <=? d q)%Z then [(Z.to_nat (d p), Z.to_nat (d q), (fac * f p q)%Qc); (Z.to_nat (d q), Z.to_nat (d p), (fac * f p q)%Qc)] else [])
      (seq (p + 1) (n - (p + 1)))
    else []) (seq 0 n).
Definition all_events (n : nat) (d : nat -> Z) (f : nat -> nat -> Qc) (fac : Qc) : list contribution :=
  flat_map (fun p => if (0 <=? d p)%Z then
    flat_map (fun q => if (0 <=? d q)%Z then [(Z.to_nat (d p), Z.to_nat (d q), (fac * f p q)%Qc)] else []) (seq 0 n)
    else []) (seq 0 n).
Definition loc_events (sym : bool) (n : nat) (d : nat -> Z) (f : nat -> nat -> Qc) (fac : Qc) : list contribution :=
  if sym then sym_events n d f fac else all_events n d f fac.

Section Enter.
  Context {M : Type}.
  Variables (add : M -> nat -> nat -> Qc -> res M) (n : nat) (ld : buf Z) (d : nat -> Z) (con : buf Qc) (f : nat -> nat -> Qc) (fac : Qc).
  Hypothesis Hld : forall p, p < n -> nth_error ld p = Some (Some (d p)).

  Lemma add_sym_ok A : (forall p q, p <= q -> q < n -> (0 <= d p)%Z -> (0 <= d q)%Z -> nth_error con (row_start n p + (q - p)) = Some (Some (f p q))) ->
    add_sym add n ld con fac A = for_list (sym_events n d f fac) (do_add add) A.
  Proof using Hld.
    intros Hc. unfold add_sym, sym_events. rewrite for_list_flat. unfold for_range. change (0, A) with (row_start n 0, A). rewrite Nat.sub_0_r.
    match goal with |- _ = for_list _ ?g _ => rewrite (count_loop _ g (row_start n)) end.
    - rewrite bind_assoc. match goal with |- bind ?x _ = _ => destruct x; reflexivity end.
    - intros p A' Hp. rewrite (rd_ok _ _ _ (Hld p ltac:(lia))), bind_Ok. destruct (Z.leb_spec 0 (d p)) as [Hd|Hd]; [|reflexivity].
      cbn [for_list do_add]. assert (E := Hc p p ltac:(lia) ltac:(lia) Hd Hd). rewrite Nat.sub_diag, Nat.add_0_r in E.
      rewrite (rd_ok _ _ _ E), bind_Ok, bind_assoc. apply bind_ext. intros A1. rewrite for_list_flat.
      replace (row_start n p + 1) with ((fun q => row_start n p + (q - p)) (p + 1)) by lia.
      match goal with |- _ = bind (for_list _ ?g _) _ => rewrite (count_loop _ g (fun q => row_start n p + (q - p))) end.
      + apply bind_ext. intros A2. cbn [row_start]. do 2 f_equal. lia.
      + intros q A2 Hq. rewrite (rd_ok _ _ _ (Hld q ltac:(lia))), bind_Ok. destruct (Z.leb_spec 0 (d q)) as [Hdq|Hdq].
        * rewrite (rd_ok _ _ _ (Hc p q ltac:(lia) ltac:(lia) Hd Hdq)), bind_Ok. cbn [for_list do_add]. rewrite !bind_assoc. apply bind_ext.
          intros A3. rewrite !bind_assoc. apply bind_ext. intros A4. rewrite bind_Ok. do 2 f_equal. lia.
        * cbn [for_list]. rewrite bind_Ok. do 2 f_equal. lia.
  Qed.
  Lemma add_full_ok A : (forall p q, p < n -> q < n -> (0 <= d p)%Z -> (0 <= d q)%Z -> nth_error con (p * n + q) = Some (Some (f p q))) ->
    add_full add n ld con fac A = for_list (all_events n d f fac) (do_add add) A.
  Proof using Hld.
    intros Hc. unfold add_full, all_events. rewrite for_list_flat. unfold for_range. change (0, A) with ((fun p => p * n) 0, A). rewrite !Nat.sub_0_r.
    match goal with |- _ = for_list _ ?g _ => rewrite (count_loop _ g (fun p => p * n)) end.
    - rewrite bind_assoc. match goal with |- bind ?x _ = _ => destruct x; reflexivity end.
    - intros p A' Hp. rewrite (rd_ok _ _ _ (Hld p ltac:(lia))), bind_Ok. destruct (Z.leb_spec 0 (d p)) as [Hd|Hd].
      2:{ cbn [for_list]. rewrite bind_Ok. do 2 f_equal. lia. }
      rewrite for_list_flat. replace (p * n) with ((fun q => p * n + q) 0) at 1 by (cbn beta; lia).
      match goal with |- _ = bind (for_list _ ?g _) _ => rewrite (count_loop _ g (fun q => p * n + q)) end.
      + apply bind_ext. intros A2. do 2 f_equal. lia.
      + intros q A2 Hq. rewrite (rd_ok _ _ _ (Hld q ltac:(lia))), bind_Ok. destruct (Z.leb_spec 0 (d q)) as [Hdq|Hdq].
        * rewrite (rd_ok _ _ _ (Hc p q ltac:(lia) ltac:(lia) Hd Hdq)), bind_Ok. cbn [for_list do_add]. rewrite !bind_assoc. apply bind_ext.
          intros A3. rewrite bind_Ok. do 2 f_equal. lia.
        * cbn [for_list]. rewrite bind_Ok. do 2 f_equal. lia.
  Qed.
End Enter.

Lemma upper_length n (f : nat -> nat -> Qc) : length (upper_triangle f (seq 0 n)) = n * (n + 1) / 2.
Proof. rewrite triangle_length, seq_length. reflexivity. Qed.
Lemma testbit_all B k : k < B -> N.testbit (ALL B) (N.of_nat k) = true.
Proof. intros H. unfold ALL. apply N.ones_spec_low. lia. Qed.

(** The degrees of freedom of a pair. *)
Lemma getDoFs_loop {X} (ld : buf Z) (st : X) n off (g : nat -> Z) (h : Z -> X -> X) (body : nat -> buf Z * X -> res (buf Z * X)) :
  (forall p ld s, p < n -> off + n <= length ld -> body p (ld, s) = Ok (upd ld (off + p) (Some (g p)), h (g p) s)) ->
  off + n <= length ld ->
  exists ld' s', for_range 0 n body (ld, st) = Ok (ld', s') /\ length ld' = length ld /\
    (forall p, p < n -> nth_error ld' (off + p) = Some (Some (g p))) /\
    (forall p, (p < off \/ off + n <= p) -> nth_error ld' p = nth_error ld p) /\
    s' = fold_left (fun s p => h (g p) s) (seq 0 n) st.
Proof.
  intros Hb Hl.
  destruct (for_range_inv (fun i '(ld', s') => length ld' = length ld /\
    (forall p, p < i -> nth_error ld' (off + p) = Some (Some (g p))) /\
    (forall p, (p < off \/ off + i <= p) -> nth_error ld' p = nth_error ld p) /\
    s' = fold_left (fun s p => h (g p) s) (seq 0 i) st) body 0 n (ld, st)) as ([ld' s'] & E & I1 & I2 & I3 & I4); [lia| | |].
  - split; [reflexivity|]. split; [intros; lia|]. split; [reflexivity|reflexivity].
  - intros i [l1 s1] Hi (J1 & J2 & J3 & J4). exists (upd l1 (off + i) (Some (g i)), h (g i) s1). split; [apply Hb; lia|].
    split; [rewrite upd_length; exact J1|]. split; [|split].
    + intros p Hp. destruct (Nat.eq_dec p i) as [->|Hne]; [apply nth_error_upd_eq; lia|]. rewrite nth_error_upd_neq by lia. apply J2. lia.
    + intros p Hp. rewrite nth_error_upd_neq by lia. apply J3. lia.
    + rewrite seq_S, fold_left_app. cbn [fold_left]. rewrite Nat.add_0_l, <- J4. reflexivity.
  - exists ld', s'. repeat split; auto.
Qed.
Lemma fold_skip (g : nat -> Z) l : forall b, fold_left (fun s p => s && (g p <? 0)%Z) l b = true <-> b = true /\ forall p, In p l -> (g p < 0)%Z.
Proof.
  induction l as [|x l IH]; intros b; cbn [fold_left].
  - split; [intros H; split; [exact H|intros p []]|intros [H _]; exact H].
  - rewrite IH, andb_true_iff, Z.ltb_lt. split.
    + intros [[H1 H2] H3]. split; [exact H1|]. intros p [->|Hp]; auto.
    + intros [H1 H2]. split; [split; [exact H1|apply H2; left; reflexivity]|intros; apply H2; right; assumption].
Qed.

Section Pair.
  Variables (nc nb : nat) (dm : dofmap).
  Hypothesis ok : dofs_ok nc (dm_dpe dm) (dm_num dm) nb (dm_dofs dm).
  Notation dpe := (dm_dpe dm).

  Lemma getDoFsElemElem_ok c1 c2 ld : c1 < nc -> c2 < nc -> length ld = 2 * dpe ->
    exists ld' skip, getDoFsElemElem dm c1 c2 ld = Ok (ld', skip) /\ length ld' = 2 * dpe /\
      (forall p, p < 2 * dpe -> nth_error ld' p = Some (Some (ldof (dm_dofs dm) dpe c1 c2 p))) /\
      (skip = true <-> forall p, p < 2 * dpe -> (ldof (dm_dofs dm) dpe c1 c2 p < 0)%Z).
  Proof using ok.
    intros H1 H2 Hl. unfold getDoFsElemElem.
    destruct (getDoFs_loop ld true dpe 0 (dof (dm_dofs dm) c1) (fun d s => s && (d <? 0)%Z)
      (fun p '(ld, skip) => d <- get2 (dm_dofs dm) c1 p ;; ld <- wr ld p d ;; Ok (ld, skip && (d <? 0)%Z))) as (l1 & s1 & E1 & L1 & V1 & O1 & S1).
    { intros p l s Hp Hlen. rewrite (dof_get nc nb dm ok) by assumption. rewrite bind_Ok. cbn [Nat.add]. rewrite wr_ok by lia. reflexivity. }
    { lia. }
    rewrite E1, bind_Ok.
    destruct (getDoFs_loop l1 s1 dpe dpe (dof (dm_dofs dm) c2) (fun d s => s && (d <? 0)%Z)
      (fun p '(ld, skip) => d <- get2 (dm_dofs dm) c2 p ;; ld <- wr ld (dpe + p) d ;; Ok (ld, skip && (d <? 0)%Z))) as (l2 & s2 & E2 & L2 & V2 & O2 & S2).
    { intros p l s Hp Hlen. rewrite (dof_get nc nb dm ok) by assumption. rewrite bind_Ok. rewrite wr_ok by lia. reflexivity. }
    { lia. }
    rewrite E2. exists l2, s2. split; [reflexivity|]. split; [lia|]. split.
    - intros p Hp. unfold ldof. destruct (Nat.ltb_spec p dpe) as [Hlt|Hge].
      + rewrite O2 by lia. apply (V1 p Hlt).
      + replace p with (dpe + (p - dpe)) at 1 by lia. apply V2. lia.
    - subst s2 s1. rewrite !fold_skip. unfold ldof. split.
      + intros [[_ Ha] Hb] p Hp. destruct (Nat.ltb_spec p dpe) as [Hlt|Hge]; [apply Ha|apply Hb]; apply in_seq; lia.
      + intros H. split; [split; [reflexivity|]|]; intros p Hp; apply in_seq in Hp.
        * specialize (H p ltac:(lia)). destruct (Nat.ltb_spec p dpe); [exact H|lia].
        * specialize (H (dpe + p) ltac:(lia)). destruct (Nat.ltb_spec (dpe + p) dpe); [lia|]. replace (dpe + p - dpe) with p in H by lia. exact H.
  Qed.
  Lemma getDoFsElem_ok c ld : c < nc -> length ld = 2 * dpe ->
    exists ld', getDoFsElem dm None c ld = Ok ld' /\ length ld' = 2 * dpe /\ (forall p, p < dpe -> nth_error ld' p = Some (Some (dof (dm_dofs dm) c p))).
  Proof using ok.
    intros H1 Hl. unfold getDoFsElem.
    destruct (for_range_inv (fun i ld' => length ld' = 2 * dpe /\ forall p, p < i -> nth_error ld' p = Some (Some (dof (dm_dofs dm) c p)))
      (fun p ld => d <- get2 (dm_dofs dm) c p ;; wr ld p d) 0 dpe ld) as (ld' & E & I1 & I2); [lia| | |].
    - split; [exact Hl|intros; lia].
    - intros i l Hi (J1 & J2). rewrite (dof_get nc nb dm ok) by lia. rewrite bind_Ok. exists (upd l i (Some (dof (dm_dofs dm) c i))).
      split; [apply wr_ok; lia|]. split; [rewrite upd_length; exact J1|]. intros p Hp.
      destruct (Nat.eq_dec p i) as [->|Hne]; [apply nth_error_upd_eq; lia|]. rewrite nth_error_upd_neq by lia. apply J2. lia.
    - rewrite E, bind_Ok. exists ld'. repeat split; auto.
  Qed.
End Pair.

(** The mask of the pairs of interior degrees of freedom of a cell. *)
Lemma testbit_shl B k j i : i < B -> N.testbit (shl B k j) (N.of_nat i) = if i <? j then false else N.testbit k (N.of_nat (i - j)).
Proof.
  intros H. unfold shl. rewrite N.land_spec, testbit_all, andb_true_r by assumption. destruct (Nat.ltb_spec i j).
  - apply N.shiftl_spec_low. lia.
  - rewrite N.shiftl_spec_high by lia. f_equal. lia.
Qed.
Definition bit_at (B : nat) (k : N) (j : nat) : Prop := forall i, i < B -> N.testbit k (N.of_nat i) = (i =? j).
Lemma bit_at_shl B k j m : bit_at B k j -> bit_at B (shl B k m) (j + m).
Proof.
  intros H i Hi. rewrite testbit_shl by assumption. destruct (Nat.ltb_spec i m).
  - symmetry. apply Nat.eqb_neq. lia.
  - rewrite H by lia. destruct (Nat.eqb_spec (i - m) j); symmetry; [apply Nat.eqb_eq|apply Nat.eqb_neq]; lia.
Qed.
Lemma row_start_mono n p q : p <= q -> row_start n p <= row_start n q.
Proof. induction 1 as [|q _ IH]; [lia|]. cbn [row_start]. lia. Qed.
Lemma getElemSymMask_ok B n ld d : n * (n + 1) / 2 <= B -> (forall p, p < n -> nth_error ld p = Some (Some (d p))) ->
  exists mask, getElemSymMask B n ld = Ok mask /\
    forall p q, p <= q -> q < n -> (0 <= d p)%Z -> (0 <= d q)%Z -> N.testbit mask (N.of_nat (row_start n p + (q - p))) = true.
Proof.
  intros HB Hld. unfold getElemSymMask.
  destruct (for_range_inv (fun p '(mask, k) => bit_at B k (row_start n p) /\
      forall p' q, p' < p -> p' <= q -> q < n -> (0 <= d p')%Z -> (0 <= d q)%Z -> N.testbit mask (N.of_nat (row_start n p' + (q - p'))) = true)
    (fun p '(mask, k) =>
      I <- rd ld p ;;
      if (0 <=? I)%Z then
        for_range p n (fun q '(mask, k) =>
          J <- rd ld q ;;
          Ok (if (0 <=? J)%Z then N.lor mask k else mask, shl B k 1)) (mask, k)
      else Ok (mask, shl B k (n - p))) 0 n (0%N, 1%N)) as ([mask k] & E & _ & H); [lia| | |].
  - split; [|intros; lia]. intros i Hi. cbn [row_start]. change 1%N with (N.ones 1). destruct i as [|i]; [reflexivity|]. apply N.ones_spec_high. lia.
  - intros p [mask k] Hp (Hk & Hm). rewrite (rd_ok _ _ _ (Hld p ltac:(lia))), bind_Ok. destruct (Z.leb_spec 0 (d p)) as [Hd|Hd].
    + destruct (for_range_inv (fun q '(mask', k') => bit_at B k' (row_start n p + (q - p)) /\
         (forall i, N.testbit mask (N.of_nat i) = true -> N.testbit mask' (N.of_nat i) = true) /\
         forall q', p <= q' -> q' < q -> (0 <= d q')%Z -> N.testbit mask' (N.of_nat (row_start n p + (q' - p))) = true)
        (fun q '(mask, k) => J <- rd ld q ;; Ok (if (0 <=? J)%Z then N.lor mask k else mask, shl B k 1)) p n (mask, k)) as ([m2 k2] & E2 & B2 & K2 & V2); [lia| | |].
      * split; [rewrite Nat.sub_diag, Nat.add_0_r; exact Hk|]. split; [auto|intros; lia].
      * intros q [m1 k1] Hq (B1 & K1 & V1). rewrite (rd_ok _ _ _ (Hld q ltac:(lia))), bind_Ok. eexists. split; [reflexivity|].
        split; [|split].
        -- replace (row_start n p + (S q - p)) with (row_start n p + (q - p) + 1) by lia. apply bit_at_shl. exact B1.
        -- intros i Hi. specialize (K1 i Hi). destruct (0 <=? d q)%Z; [rewrite N.lor_spec, K1; reflexivity|exact K1].
        -- intros q' Ha Hb Hc. destruct (Nat.eq_dec q' q) as [->|Hne].
           ++ apply Z.leb_le in Hc. rewrite Hc, N.lor_spec. apply orb_true_iff. right.
              rewrite B1; [apply Nat.eqb_refl|]. pose proof (row_start_lt n p (q - p) ltac:(lia)). lia.
           ++ specialize (V1 q' Ha ltac:(lia) Hc). destruct (0 <=? d q)%Z; [rewrite N.lor_spec, V1; reflexivity|exact V1].
      * exists (m2, k2). split; [exact E2|]. split; [exact B2|]. intros p' q Ha Hb Hc Hd1 Hd2.
        destruct (Nat.eq_dec p' p) as [->|Hne]; [apply V2; assumption|]. apply K2. apply Hm; try assumption; lia.
    + eexists. split; [reflexivity|]. split; [apply (bit_at_shl B k (row_start n p) (n - p)); exact Hk|].
      intros p' q Ha Hb Hc Hd1 Hd2. destruct (Nat.eq_dec p' p) as [->|Hne]; [lia|]. apply Hm; try assumption; lia.
  - rewrite E, bind_Ok. exists mask. split; [reflexivity|]. intros p q Ha Hb Hc Hd. apply H; try assumption; lia.
Qed.
