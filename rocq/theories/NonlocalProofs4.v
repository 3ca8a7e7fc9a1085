(** Dense nonlocal assembly with two complementary maps of degrees of freedom. *)
From Verif Require Import Util Lin MeshModel MeshProofs LocalSpec FormsProofs2 ReorderProofs AssemblyModel AssemblySpec AssemblyProofs AssemblyProofs2 AssemblyProofs7
  RestrictionProofs DenseModel DenseSpec DenseProofs NonlocalModel NonlocalSpec NonlocalProofs NonlocalProofs2 NonlocalProofs3.
From Coq Require Import Lia.
Set Default Proof Using "Type".
Local Open Scope Qc_scope.

Definition joined (dm dm2 : dofmap) (c p : nat) : Z :=
  let d := dof (dm_dofs dm) c p in if (0 <=? d)%Z then d else (Z.of_nat (dm_num dm) + dof (dm_dofs dm2) c p)%Z.

Lemma dm_combine_ok nc dm dm2 : dm_dpe dm2 = dm_dpe dm ->
  dofs_ok nc (dm_dpe dm) (dm_num dm) (dm_num dm2) (dm_dofs dm) -> dofs_ok nc (dm_dpe dm) (dm_num dm2) (dm_num dm) (dm_dofs dm2) ->
  complementary (dm_dofs dm) (dm_dofs dm2) nc (dm_dpe dm) ->
  exists dofs, dm_combine dm dm2 (dm_num dm2) (dm_num dm) nc = Ok (DM dofs (dm_num dm + dm_num dm2) (dm_dpe dm) (dm_reordered dm)) /\
    dofs_ok nc (dm_dpe dm) (dm_num dm + dm_num dm2) 0 dofs /\
    forall c p, (c < nc)%nat -> (p < dm_dpe dm)%nat -> dof dofs c p = joined dm dm2 c p.
Proof.
  intros Hd O1 O2 Hc. set (dpe := dm_dpe dm) in *. unfold dm_combine. rewrite !Nat.eqb_refl. cbn [guard]. rewrite !bind_Ok. fold dpe.
  assert (O2' : dofs_ok nc (dm_dpe dm2) (dm_num dm2) (dm_num dm) (dm_dofs dm2)) by (rewrite Hd; exact O2).
  assert (Shape : length (dm_dofs dm) = nc /\ forall row, In row (dm_dofs dm) -> length row = dpe) by (destruct O1 as (H1 & H2 & _); split; auto).
  set (Inv := fun (c p : nat) (dofs : list (list Z)) => length dofs = nc /\ (forall row, In row dofs -> length row = dpe) /\
    forall c' p', (c' < nc)%nat -> (p' < dpe)%nat ->
      dof dofs c' p' = if ((c' <? c) || ((c' =? c) && (p' <? p)))%nat then joined dm dm2 c' p' else dof (dm_dofs dm) c' p').
  assert (Ext : forall c dofs, Inv c dpe dofs -> Inv (S c) 0%nat dofs).
  { intros c dofs (A1 & A2 & A3). repeat split; auto. intros c' p' H1 H2. rewrite A3 by assumption.
    destruct (Nat.ltb_spec c' c), (Nat.eqb_spec c' c), (Nat.ltb_spec p' dpe), (Nat.ltb_spec c' (S c)), (Nat.eqb_spec c' (S c)), (Nat.ltb_spec p' 0); cbn; try reflexivity; lia. }
  destruct (for_range_inv (fun c dofs => Inv c 0%nat dofs) (fun c dofs =>
    for_range 0 dpe (fun p dofs =>
      d1 <- get2 (dm_dofs dm) c p ;;
      d2 <- get2 (dm_dofs dm2) c p ;;
      row <- aget dofs c ;;
      row <- (if ((0 <=? d1) && (d2 <? 0))%Z then aset row p d1
              else if ((d1 <? 0) && (0 <=? d2))%Z then aset row p (Z.of_nat (dm_num dm) + d2)%Z
              else Err ENotImpl) ;;
      aset dofs c row) dofs) 0 nc (dm_dofs dm)) as (dofs & E & I1 & I2 & I3); [lia| | |].
  - repeat split; try apply Shape. intros c' p' H1 H2.
    destruct (Nat.ltb_spec c' 0), (Nat.eqb_spec c' 0), (Nat.ltb_spec p' 0); cbn; try reflexivity; lia.
  - intros c dofs0 Hcn HI.
    destruct (for_range_inv (fun p dofs => Inv c p dofs) (fun p dofs =>
      d1 <- get2 (dm_dofs dm) c p ;;
      d2 <- get2 (dm_dofs dm2) c p ;;
      row <- aget dofs c ;;
      row <- (if ((0 <=? d1) && (d2 <? 0))%Z then aset row p d1
              else if ((d1 <? 0) && (0 <=? d2))%Z then aset row p (Z.of_nat (dm_num dm) + d2)%Z
              else Err ENotImpl) ;;
      aset dofs c row) 0 dpe dofs0) as (dofs1 & E1 & J1); [lia|exact HI| |exists dofs1; split; [exact E1|apply Ext; exact J1]].
    intros p dofs Hp (A1 & A2 & A3). rewrite (dof_get nc _ dm O1), bind_Ok by (try assumption; lia). rewrite (dof_get nc _ dm2 O2'), bind_Ok by (try rewrite Hd; try assumption; lia).
    assert (Hr : nth_error dofs c = Some (nth c dofs [])) by (apply nth_error_nth'; lia).
    rewrite (aget_ok _ _ _ Hr), bind_Ok. set (row := nth c dofs []) in *.
    assert (Hrl : length row = dpe) by (apply A2; eapply nth_error_In; exact Hr).
    assert (Ej : (if ((0 <=? dof (dm_dofs dm) c p) && (dof (dm_dofs dm2) c p <? 0))%Z then aset row p (dof (dm_dofs dm) c p)
              else if ((dof (dm_dofs dm) c p <? 0) && (0 <=? dof (dm_dofs dm2) c p))%Z then aset row p (Z.of_nat (dm_num dm) + dof (dm_dofs dm2) c p)%Z
              else Err ENotImpl) = Ok (upd row p (joined dm dm2 c p))).
    { unfold joined. destruct (Hc c p ltac:(lia) ltac:(lia)) as [[Ha Hb]|[Ha Hb]].
      - apply Z.leb_le in Ha. apply Z.ltb_lt in Hb. rewrite Ha, Hb. cbn. apply aset_ok. lia.
      - assert (Ha' : (0 <=? dof (dm_dofs dm) c p)%Z = false) by (apply Z.leb_gt; exact Ha). apply Z.ltb_lt in Ha. apply Z.leb_le in Hb.
        rewrite Ha, Ha', Hb. cbn. apply aset_ok. lia. }
    rewrite Ej, bind_Ok. exists (upd dofs c (upd row p (joined dm dm2 c p))). split; [apply aset_ok; lia|].
    repeat split.
    + rewrite upd_length. exact A1.
    + intros r Hin. apply In_nth_error in Hin. destruct Hin as [k Hk]. rewrite nth_error_upd in Hk. destruct ((c =? k) && (c <? length dofs))%nat.
      * injection Hk as <-. rewrite upd_length. exact Hrl.
      * apply A2. eapply nth_error_In. exact Hk.
    + intros c' p' H1 H2. unfold dof. destruct (Nat.eq_dec c' c) as [->|Hne].
      * rewrite nth_upd_eq by lia. destruct (Nat.eq_dec p' p) as [->|Hnp].
        -- rewrite nth_upd_eq by lia. destruct (Nat.ltb_spec c c), (Nat.eqb_spec c c), (Nat.ltb_spec p (S p)); cbn; try reflexivity; lia.
        -- rewrite nth_upd_neq by lia. specialize (A3 c p' H1 H2). unfold dof in A3. fold row in A3. rewrite A3.
           destruct (Nat.ltb_spec c c), (Nat.eqb_spec c c), (Nat.ltb_spec p' p), (Nat.ltb_spec p' (S p)); cbn; try reflexivity; lia.
      * rewrite nth_upd_neq by lia. specialize (A3 c' p' H1 H2). unfold dof in A3. rewrite A3.
        destruct (Nat.ltb_spec c' c), (Nat.eqb_spec c' c); cbn; try reflexivity; lia.
  - rewrite E, bind_Ok. exists dofs. split; [reflexivity|].
    assert (V : forall c p, (c < nc)%nat -> (p < dpe)%nat -> dof dofs c p = joined dm dm2 c p).
    { intros c p H1 H2. rewrite I3 by assumption. destruct (Nat.ltb_spec c nc); [reflexivity|lia]. }
    split; [|exact V]. split; [exact I1|]. split; [exact I2|]. intros row d Hr Hin.
    apply (In_nth _ _ []) in Hr. destruct Hr as (c & Hcl & Er). rewrite I1 in Hcl. apply (In_nth _ _ (-1)%Z) in Hin. destruct Hin as (p & Hpl & Ed).
    rewrite (I2 row) in Hpl by (rewrite <- Er; apply nth_In; lia). specialize (V c p Hcl Hpl). unfold dof in V. rewrite Er, Ed in V. subst d. unfold joined.
    pose proof (dof_range nc _ dm O1 c p Hcl Hpl) as R1. pose proof (dof_range nc _ dm2 O2' c p Hcl ltac:(rewrite Hd; exact Hpl)) as R2.
    destruct (Hc c p Hcl Hpl) as [[Ha Hb]|[Ha Hb]].
    + apply Z.leb_le in Ha. rewrite Ha. apply Z.leb_le in Ha. lia.
    + assert (Ha' : (0 <=? dof (dm_dofs dm) c p)%Z = false) by (apply Z.leb_gt; exact Ha). rewrite Ha'. lia.
Qed.

Lemma sub_adds n m evs : forall A, wf_dense n m A ->
  exists A', for_list evs (do_add (sub_addToEntry dense_addToEntry)) (Sub _ A (arange_lookup 0 n) (arange_lookup n (n + m))) =
      Ok (Sub _ A' (arange_lookup 0 n) (arange_lookup n (n + m))) /\ wf_dense n m A' /\
    forall i j, (i < n)%nat -> (j < m)%nat -> dmat A' i j = dmat A i j + suml (map (at_entry i (n + j)) evs).
Proof.
  induction evs as [|[[a b] v] evs IH]; intros A Hw.
  - exists A. split; [reflexivity|]. split; [exact Hw|]. intros. cbn [map suml]. ring.
  - cbn [for_list do_add]. unfold sub_addToEntry at 1. cbn [sub_A sub_I sub_J].
    assert (Skip : (~ (a < n /\ n <= b < n + m))%nat -> forall i j, (i < n)%nat -> (j < m)%nat -> at_entry i (n + j) (a, b, v) = 0).
    { intros H i j Hi Hj. cbn [at_entry]. destruct (Nat.eqb_spec a i), (Nat.eqb_spec b (n + j)); cbn; try reflexivity. exfalso. apply H. lia. }
    assert (Rest : (forall i j, (i < n)%nat -> (j < m)%nat -> at_entry i (n + j) (a, b, v) = 0) ->
      exists A', for_list evs (do_add (sub_addToEntry dense_addToEntry)) (Sub _ A (arange_lookup 0 n) (arange_lookup n (n + m))) =
        Ok (Sub _ A' (arange_lookup 0 n) (arange_lookup n (n + m))) /\ wf_dense n m A' /\
        forall i j, (i < n)%nat -> (j < m)%nat -> dmat A' i j = dmat A i j + suml (map (at_entry i (n + j)) ((a, b, v) :: evs))).
    { intros Hz. destruct (IH A Hw) as (A2 & E2 & W2 & V2). exists A2. split; [exact E2|]. split; [exact W2|].
      intros i j Hi Hj. rewrite V2 by assumption. cbn [map suml]. rewrite Hz by assumption. ring. }
    unfold arange_lookup at 1 2. cbn [Nat.leb]. destruct (Nat.ltb_spec a n) as [Ha|Ha]; cbn [andb].
    2:{ rewrite bind_Ok. apply Rest, Skip. lia. }
    destruct (Nat.leb_spec n b) as [Hb|Hb]; cbn [andb].
    2:{ rewrite bind_Ok. apply Rest, Skip. lia. }
    destruct (Nat.ltb_spec b (n + m)) as [Hb'|Hb']; cbn [andb].
    2:{ rewrite bind_Ok. apply Rest, Skip. lia. }
    destruct (dense_add_ok n m A (a - 0) (b - n) v Hw ltac:(lia) ltac:(lia)) as (A1 & E1 & W1 & V1). rewrite E1, !bind_Ok.
    destruct (IH A1 W1) as (A2 & E2 & W2 & V2). exists A2. split; [exact E2|]. split; [exact W2|]. intros i j Hi Hj. rewrite V2, V1 by assumption.
    cbn [map suml]. assert (Ee : at_entry i j (a - 0, b - n, v)%nat = at_entry i (n + j) (a, b, v)).
    { cbn [at_entry]. rewrite Nat.sub_0_r. replace (b - n =? j)%nat with (b =? n + j)%nat; [reflexivity|].
      destruct (Nat.eqb_spec b (n + j)), (Nat.eqb_spec (b - n) j); try reflexivity; lia. }
    rewrite Ee. ring.
Qed.

Section Two.
  Variables (nc : nat) (dm dm2 : dofmap) (L : double_local) (C D : nat -> nat -> nat -> nat -> Qc) (ext : option (double_local * nat * lmstate * buf Qc)).
  Notation dpe := (dm_dpe dm).
  Hypotheses (Hd : dm_dpe dm2 = dpe) (O1 : dofs_ok nc dpe (dm_num dm) (dm_num dm2) (dm_dofs dm)) (O2 : dofs_ok nc dpe (dm_num dm2) (dm_num dm) (dm_dofs dm2))
    (Hc : complementary (dm_dofs dm) (dm_dofs dm2) nc dpe).
  Lemma joined_row c p I : (c < nc)%nat -> (p < dpe)%nat -> (I < dm_num dm)%nat -> (joined dm dm2 c p =? Z.of_nat I)%Z = (dof (dm_dofs dm) c p =? Z.of_nat I)%Z.
  Proof using Hd O1 Hc.
    intros H1 H2 HI. unfold joined. pose proof (dof_range nc _ dm O1 c p H1 H2). destruct (Z.leb_spec 0 (dof (dm_dofs dm) c p)); [reflexivity|].
    destruct (Hc c p H1 H2); [lia|]. destruct (Z.eqb_spec (Z.of_nat (dm_num dm) + dof (dm_dofs dm2) c p) (Z.of_nat I)), (Z.eqb_spec (dof (dm_dofs dm) c p) (Z.of_nat I)); try reflexivity; lia.
  Qed.
  Lemma joined_col c p J : (c < nc)%nat -> (p < dpe)%nat -> (joined dm dm2 c p =? Z.of_nat (dm_num dm + J))%Z = (dof (dm_dofs dm2) c p =? Z.of_nat J)%Z.
  Proof using Hd O1 Hc.
    intros H1 H2. unfold joined. pose proof (dof_range nc _ dm O1 c p H1 H2). pose proof (Hc c p H1 H2).
    destruct (Z.leb_spec 0 (dof (dm_dofs dm) c p)).
    - destruct (Z.eqb_spec (dof (dm_dofs dm) c p) (Z.of_nat (dm_num dm + J))), (Z.eqb_spec (dof (dm_dofs dm2) c p) (Z.of_nat J)); try reflexivity; lia.
    - destruct (Z.eqb_spec (Z.of_nat (dm_num dm) + dof (dm_dofs dm2) c p) (Z.of_nat (dm_num dm + J))), (Z.eqb_spec (dof (dm_dofs dm2) c p) (Z.of_nat J)); try reflexivity; lia.
  Qed.
  Lemma ldof_cells (P : Z -> bool) (Q : nat -> nat -> bool) dofs K1 K2 p :
    (forall c p, (c < nc)%nat -> (p < dpe)%nat -> P (dof dofs c p) = Q c p) -> (K1 < nc)%nat -> (K2 < nc)%nat -> (p < 2 * dpe)%nat ->
    P (ldof dofs dpe K1 K2 p) = if (p <? dpe)%nat then Q K1 p else Q K2 (p - dpe)%nat.
  Proof using Type. clear O1 O2 Hd. intros H H1 H2 Hp. unfold ldof. destruct (Nat.ltb_spec p dpe); apply H; lia. Qed.
  Lemma entries_joined dofs I J : (I < dm_num dm)%nat -> (forall c p, (c < nc)%nat -> (p < dpe)%nat -> dof dofs c p = joined dm dm2 c p) ->
    nl_entry dofs dofs dpe nc C I (dm_num dm + J) = nl_entry (dm_dofs dm) (dm_dofs dm2) dpe nc C I J /\
    ext_entry ext dofs dofs dpe nc D I (dm_num dm + J) = ext_entry ext (dm_dofs dm) (dm_dofs dm2) dpe nc D I J.
  Proof using Hd O1 Hc.
    intros HI Hj.
    assert (R : forall c p, (c < nc)%nat -> (p < dpe)%nat -> (dof dofs c p =? Z.of_nat I)%Z = (dof (dm_dofs dm) c p =? Z.of_nat I)%Z)
      by (intros c p H1 H2; rewrite Hj by assumption; apply joined_row; assumption).
    assert (S : forall c p, (c < nc)%nat -> (p < dpe)%nat -> (dof dofs c p =? Z.of_nat (dm_num dm + J))%Z = (dof (dm_dofs dm2) c p =? Z.of_nat J)%Z)
      by (intros c p H1 H2; rewrite Hj by assumption; apply joined_col; assumption).
    split.
    - unfold nl_entry. apply sumf_ext. intros K1 H1. apply sumf_ext. intros K2 H2. unfold pair_entry. apply sumf_ext. intros p Hp. apply sumf_ext. intros q Hq.
      rewrite (ldof_cells (fun z => (z =? Z.of_nat I)%Z) _ dofs K1 K2 p R H1 H2 Hp).
      rewrite (ldof_cells (fun z => (z =? Z.of_nat (dm_num dm + J))%Z) _ dofs K1 K2 q S H1 H2 Hq).
      unfold ldof. destruct (p <? dpe)%nat, (q <? dpe)%nat; reflexivity.
    - unfold ext_entry. destruct ext as [[[[Eo ns] lmE] conE]|]; [|reflexivity]. unfold exterior_entry, assembled. apply suml_ext. intros c Hin. apply in_seq in Hin.
      apply sumf_ext. intros j Hj'. apply sumf_ext. intros k Hk. rewrite R, S by (try assumption; lia). reflexivity.
  Qed.
  Variables (B : nat) (lm : lmstate) (con : buf Qc).
  Hypothesis HL : interior_ok L dpe nc C.
  Hypothesis HE : ext_ok ext dpe nc D.
  Hypotheses (HB : (stored_size (dl_symLocal L) (2 * dpe) <= B)%nat) (Hlm : coherent lm) (Hcon : length con = stored_size (dl_symLocal L) (2 * dpe)).
  Lemma getDense2_ok : exists A, getDense2 B dm dm2 (dm_num dm2) (dm_num dm) nc L lm con ext = Ok A /\ wf_dense (dm_num dm) (dm_num dm2) A /\
    forall I J, (I < dm_num dm)%nat -> (J < dm_num dm2)%nat ->
      dmat A I J = nl_entry (dm_dofs dm) (dm_dofs dm2) dpe nc C I J + ext_entry ext (dm_dofs dm) (dm_dofs dm2) dpe nc D I J.
  Proof using Hd O1 O2 Hc HL HE HB Hlm Hcon.
    destruct (dm_combine_ok nc dm dm2 Hd O1 O2 Hc) as (dofs & E & Ok' & V). unfold getDense2. rewrite E, bind_Ok.
    set (dmc := DM dofs (dm_num dm + dm_num dm2) dpe (dm_reordered dm)) in *.
    rewrite (assemble_cells_events _ B nc 0%nat dmc Ok' L C ext D lm con 0%nat nc) by (auto; apply HL).
    destruct (zeros_ok (dm_num dm) (dm_num dm2)) as [Wz Vz].
    destruct (sub_adds (dm_num dm) (dm_num dm2) (cells_events nc dmc L C ext D 0 nc) _ Wz) as (A & E2 & W & Va). rewrite E2, bind_Ok. cbn [sub_A].
    exists A. split; [reflexivity|]. split; [exact W|]. intros I J HI HJ. rewrite Va, Vz by assumption.
    rewrite (cells_sum nc dmc L C D ext HL HE I (dm_num dm + J) 0 nc) by lia. rewrite Nat.sub_0_r.
    change (fun i => share_of nc dmc C D ext I (dm_num dm + J) (0 + i)) with (share_of nc dmc C D ext I (dm_num dm + J)). rewrite share_total.
    destruct (entries_joined dofs I J HI V) as [E3 E4]. cbn [dm_dofs dm_dpe dmc]. rewrite E3, E4. ring.
  Qed.
End Two.
