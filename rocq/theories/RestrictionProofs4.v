(** Numberings of the DoFs of a space, and the coordinates of the nodes of the fine
    space with respect to the coarse vertices. *)
From Verif Require Import Util Lin MeshSpec DoFMapSpec MeshModel LocalModel LocalSpec LocalProofs RestrictionTables RestrictionModel RestrictionSpec RestrictionProofs RestrictionProofs2 RestrictionProofs3.
Set Default Proof Using "Type".
Local Open Scope Qc_scope.

Definition gp (e : fe) (d i : nat) (c : list nat) (j : nat) : place := gplace (per_edge e) i (at_cell c) (lplace_nth e d j).
Lemma lplace_in e d j : (j < fe_size e d)%nat -> In (lplace_nth e d j) (lplaces e d).
Proof. intros H. apply nth_In, H. Qed.
Lemma gp_nth e d i c j : (1 <= d <= 3)%nat -> length c = S d -> (j < fe_size e d)%nat -> nth_error (fe_places e d i c) j = Some (gp e d i c j).
Proof.
  intros Hd Hc Hj. rewrite fe_places_eq by auto. unfold gp, lplace_nth. apply map_nth_error. apply nth_error_nth'. exact Hj.
Qed.
Lemma fe_places_length e d i c : (1 <= d <= 3)%nat -> length c = S d -> length (fe_places e d i c) = fe_size e d.
Proof. intros Hd Hc. rewrite fe_places_eq, map_length by auto. reflexivity. Qed.

Lemma at_cell_inj c a b : NoDup c -> (a < length c)%nat -> (b < length c)%nat -> at_cell c a = at_cell c b -> a = b.
Proof. intros H Ha Hb E. apply (NoDup_nth c 0%nat) in E; auto. Qed.
Lemma at_cell_in c a : (a < length c)%nat -> In (at_cell c a) c.
Proof. intros H. apply nth_In, H. Qed.

(** ** Lagrange basis *)
Lemma node_coordinates e d k : (1 <= d <= 3)%nat -> (k < fe_size e d)%nat -> coordinates d (node e d k).
Proof.
  intros Hd Hk.
  assert (Chk : forallb (fun nd => (length nd =? S d)%nat && qeq (total nd) 1) (fe_nodes e d) = true).
  { destruct d as [|[|[|[|d]]]]; try lia; destruct e; vm_compute; reflexivity. }
  assert (L : length (fe_nodes e d) = fe_size e d) by (destruct d as [|[|[|[|d]]]]; try lia; destruct e; reflexivity).
  rewrite forallb_forall in Chk. specialize (Chk (node e d k)). unfold node in *. specialize (Chk (nth_In _ _ ltac:(rewrite L; exact Hk))).
  apply andb_true_iff in Chk as [A B]. apply Nat.eqb_eq in A. apply qeq_spec in B. split; auto.
Qed.
Lemma phi_node e d j k : (1 <= d <= 3)%nat -> (j < fe_size e d)%nat -> (k < fe_size e d)%nat -> phi e d j (node e d k) = if (j =? k)%nat then 1 else 0.
Proof.
  intros Hd Hj Hk.
  assert (Chk : forallb (fun j => forallb (fun k => qeq (phi e d j (node e d k)) (if (j =? k)%nat then 1 else 0)) (seq 0 (fe_size e d))) (seq 0 (fe_size e d)) = true).
  { destruct d as [|[|[|[|d]]]]; try lia; destruct e; vm_compute; reflexivity. }
  rewrite forallb_forall in Chk. specialize (Chk j ltac:(apply in_seq; lia)). rewrite forallb_forall in Chk. specialize (Chk k ltac:(apply in_seq; lia)). apply qeq_spec, Chk.
Qed.
(** The DoFs of a cell are at different places. *)
Lemma gp_inj e d i c j k : (1 <= d <= 3)%nat -> length c = S d -> NoDup c -> (j < fe_size e d)%nat -> (k < fe_size e d)%nat -> gp e d i c j = gp e d i c k -> j = k.
Proof.
  intros Hd Hc ND Hj Hk E. destruct (Nat.eq_dec j k) as [|N]; auto. exfalso.
  set (X := fun v => sumf (S d) (fun a => if (at_cell c a =? v)%nat then vat (node e d j) a else 0)).
  assert (HX : forall a, (a <= d)%nat -> vat (node e d j) a = X (at_cell c a)).
  { intros a Ha. unfold X. rewrite (sumf_single (S d) _ a); [rewrite Nat.eqb_refl; auto|lia|].
    intros b Hb Nb. destruct (Nat.eqb_spec (at_cell c b) (at_cell c a)) as [Ea|]; auto. destruct Nb. apply (at_cell_inj c); auto; lia. }
  set (C := repeat c (S i)). assert (Hi : nth i C [] = c) by (unfold C; clear; induction i; cbn; auto).
  assert (Ej : phi e d j (node e d j) = shape_at e C (gp e d i c j) X) by (apply shape_place; auto using lplace_in).
  assert (Ek : phi e d k (node e d j) = shape_at e C (gp e d i c k) X) by (apply shape_place; auto using lplace_in).
  rewrite phi_node, Nat.eqb_refl in Ej by auto. rewrite phi_node in Ek by auto. destruct (Nat.eqb_spec k j) as [|_]; [congruence|].
  rewrite E, <- Ek in Ej. discriminate Ej.
Qed.

(** ** Numberings *)
Section Numbering.
  Variables (e : fe) (d : nat) (D : list (list nat)) (bd : bdata) (dofs : list (list Z)) (n : nat).
  Hypothesis Hd : (1 <= d <= 3)%nat.
  Hypothesis cells : forall i c, nth_error D i = Some c -> length c = S d.
  Hypothesis num : fe_numbering e d D bd dofs n.
  Lemma num_row i c : nth_error D i = Some c -> exists row, nth_error dofs i = Some row /\ length row = fe_size e d /\ forall j, (j < fe_size e d)%nat -> nth_error row j = Some (zat dofs i j).
  Proof using All.
    destruct num as (HL & HR & _). intros Hc. assert (Hi : (i < length dofs)%nat) by (rewrite HL; apply nth_error_Some; congruence).
    destruct (nth_error dofs i) as [row|] eqn:Er; [|apply nth_error_None in Er; lia]. exists row. split; auto.
    assert (L : length row = fe_size e d) by (rewrite (HR i c row Hc Er); apply fe_places_length; eauto). split; auto.
    intros j Hj. unfold zat. rewrite (nth_error_nth _ _ _ Er). apply nth_error_nth'. lia.
  Qed.
  Lemma num_at i c j : nth_error D i = Some c -> (j < fe_size e d)%nat -> numbered (fe_places e d) D dofs (gp e d i c j) (zat dofs i j).
  Proof using All.
    intros Hc Hj. destruct (num_row i c Hc) as (row & Er & L & Hr). exists i, c, row, j. split; [auto|]. split; [auto|]. split; [apply gp_nth; eauto|]. auto.
  Qed.
  Lemma num_inv p z : numbered (fe_places e d) D dofs p z -> exists i c j, nth_error D i = Some c /\ (j < fe_size e d)%nat /\ p = gp e d i c j /\ z = zat dofs i j.
  Proof using All.
    intros (i & c & row & j & Hc & Er & Hp & Hz). assert (Hj : (j < fe_size e d)%nat). { rewrite <- (fe_places_length e d i c) by eauto. apply nth_error_Some. congruence. }
    exists i, c, j. split; [auto|]. split; [auto|]. split; [rewrite gp_nth in Hp by eauto; congruence|].
    unfold zat. rewrite (nth_error_nth _ _ _ Er). symmetry. apply nth_error_nth, Hz.
  Qed.
  Lemma num_in p z : numbered (fe_places e d) D dofs p z -> in_cells (fe_places e d) D (length D) (fst p).
  Proof using All.
    intros (i & c & row & j & Hc & Er & Hp & Hz). exists i, c, (snd p). split; [apply nth_error_Some; congruence|]. split; auto. rewrite <- surjective_pairing. apply nth_error_In in Hp. auto.
  Qed.
  Lemma num_eq p z p' z' : numbered (fe_places e d) D dofs p z -> numbered (fe_places e d) D dofs p' z' -> (0 <= z \/ 0 <= z')%Z -> (z = z' <-> p = p').
  Proof using All.
    intros H H' P. destruct num as (_ & _ & _ & _ & HE & _). destruct P as [P|P]; [apply HE; auto|]. specialize (HE p' z' p z H' H P). split; intros Q; symmetry; apply HE; auto.
  Qed.
  Lemma num_bd p z : numbered (fe_places e d) D dofs p z -> on_bdata bd (fst p) -> (z < 0)%Z.
  Proof using All. intros H B. destruct num as (_ & _ & HB & _). apply (HB p z H B). Qed.
  Lemma num_nbd p z : numbered (fe_places e d) D dofs p z -> ~ on_bdata bd (fst p) -> (0 <= z < Z.of_nat n)%Z.
  Proof using All. intros H B. destruct num as (_ & _ & _ & HB & _). apply (HB p z H B). Qed.
  Lemma num_lt p z : numbered (fe_places e d) D dofs p z -> (z < Z.of_nat n)%Z.
  Proof using All.
    intros H. destruct (Z.lt_ge_cases z (Z.of_nat n)) as [|G]; auto. assert (B : ~ on_bdata bd (fst p)) by (intros B; apply (num_bd _ _ H) in B; lia).
    apply (num_nbd _ _ H) in B. lia.
  Qed.
  (** numbers within a row *)
  Lemma num_row_inj i c j k : nth_error D i = Some c -> NoDup c -> (j < fe_size e d)%nat -> (k < fe_size e d)%nat -> (0 <= zat dofs i j)%Z -> zat dofs i j = zat dofs i k -> j = k.
  Proof using All.
    intros Hc ND Hj Hk P E. apply (num_eq _ _ _ _ (num_at i c j Hc Hj) (num_at i c k Hc Hk)) in E; auto. apply gp_inj in E; eauto.
  Qed.
End Numbering.

(** ** Places of an entity inside another cell *)
Lemma edges_all d a b : (2 <= d <= 3)%nat -> (a <= d)%nat -> (b <= d)%nat -> a <> b -> In (a, b) (local_edges d) \/ In (b, a) (local_edges d).
Proof.
  intros Hd Ha Hb N. destruct d as [|[|[|[|d]]]]; try lia; cbn;
    destruct a as [|[|[|[|a]]]]; try lia; destruct b as [|[|[|[|b]]]]; try lia; tauto.
Qed.
Definition perm3 (f g : nat * nat * nat) : Prop :=
  let '(x, y, z) := f in g = (x, y, z) \/ g = (x, z, y) \/ g = (y, x, z) \/ g = (y, z, x) \/ g = (z, x, y) \/ g = (z, y, x).
Lemma faces_all a b c : (a <= 3)%nat -> (b <= 3)%nat -> (c <= 3)%nat -> a <> b -> a <> c -> b <> c -> exists f, In f (local_faces 3) /\ perm3 f (a, b, c).
Proof.
  intros Ha Hb Hc N1 N2 N3.
  assert (Chk : exists f, In f (local_faces 3) /\ (let '(x, y, z) := f in (a = x /\ b = y /\ c = z) \/ (a = x /\ b = z /\ c = y) \/ (a = y /\ b = x /\ c = z) \/
    (a = y /\ b = z /\ c = x) \/ (a = z /\ b = x /\ c = y) \/ (a = z /\ b = y /\ c = x))).
  { destruct a as [|[|[|[|a]]]]; try lia; destruct b as [|[|[|[|b]]]]; try lia; destruct c as [|[|[|[|c]]]]; try lia;
      first [exists (0, 1, 2)%nat; split; [cbn; tauto|lia]|exists (0, 1, 3)%nat; split; [cbn; tauto|lia]|exists (1, 2, 3)%nat; split; [cbn; tauto|lia]|exists (0, 2, 3)%nat; split; [cbn; tauto|lia]]. }
  destruct Chk as (((x & y) & z) & Hf & H). exists (x, y, z). split; auto. cbn.
  destruct H as [(-> & -> & ->)|[(-> & -> & ->)|[(-> & -> & ->)|[(-> & -> & ->)|[(-> & -> & ->)|(-> & -> & ->)]]]]]; tauto.
Qed.
Lemma the_face_perm f g : forall a b c a' b' c', f = (a, b, c) -> g = (a', b', c') -> perm3 f g -> the_face a b c = the_face a' b' c'.
Proof.
  intros a b c a' b' c' -> -> H. cbn in H. unfold the_face. destruct H as [H|[H|[H|[H|[H|H]]]]]; inversion H; subst; f_equal; lia.
Qed.
Lemma lplaces_LE e d a b m : (1 <= d <= 3)%nat -> In (LE a b m) (lplaces e d) -> (2 <= d)%nat /\ In (a, b) (local_edges d) /\ (m < per_edge e)%nat /\ (e = P2 \/ e = P3).
Proof.
  intros Hd H. destruct e, d as [|[|[|[|d]]]]; try lia; cbn in H;
    repeat (destruct H as [H|H]; [first [discriminate H|inversion H; subst; clear H; split; [lia|]; split; [cbn; tauto|]; split; [cbn; lia|tauto]]|]); destruct H.
Qed.
Lemma LE_in e d a b m : (2 <= d <= 3)%nat -> e = P2 \/ e = P3 -> In (a, b) (local_edges d) -> (m < per_edge e)%nat -> In (LE a b m) (lplaces e d).
Proof.
  intros Hd He H Hm. destruct d as [|[|[|[|d]]]]; try lia; cbn in H; destruct He; subst e; cbn in Hm; (destruct m as [|[|m]]; try lia);
    repeat (destruct H as [H|H]; [inversion H; subst; cbn; tauto|]); destruct H.
Qed.
Lemma lplaces_LF e d a b c : (1 <= d <= 3)%nat -> In (LF a b c) (lplaces e d) -> d = 3%nat /\ e = P3 /\ In (a, b, c) (local_faces 3).
Proof.
  intros Hd H. destruct e, d as [|[|[|[|d]]]]; try lia; cbn in H;
    repeat (destruct H as [H|H]; [first [discriminate H|inversion H; subst; clear H; split; [lia|]; split; [auto|cbn; tauto]]|]); destruct H.
Qed.
Lemma LF_in a b c : In (a, b, c) (local_faces 3) -> In (LF a b c) (lplaces P3 3).
Proof. intros H. cbn in H. repeat (destruct H as [H|H]; [inversion H; subst; cbn; tauto|]). destruct H. Qed.
Lemma lplaces_LV e d a : (1 <= d <= 3)%nat -> In (LV a) (lplaces e d) -> e <> P0 /\ (a <= d)%nat.
Proof.
  intros Hd H. split; [intros ->; destruct H as [H|[]]; discriminate|]. apply (lvertices_le e d (LV a)); auto. left; auto.
Qed.
Lemma LV_in e d a : (1 <= d <= 3)%nat -> e <> P0 -> (a <= d)%nat -> In (LV a) (lplaces e d).
Proof.
  intros Hd He Ha. destruct d as [|[|[|[|d]]]]; try lia; (destruct a as [|[|[|[|a]]]]; try lia); destruct e; try congruence; cbn; tauto.
Qed.
Lemma lplace_index e d lp : In lp (lplaces e d) -> exists j, (j < fe_size e d)%nat /\ lplace_nth e d j = lp.
Proof. intros H. apply (In_nth _ _ (LC 0)) in H as (j & Hj & E). eauto. Qed.
Lemma at_cell_of c v : In v c -> exists a, (a < length c)%nat /\ at_cell c a = v.
Proof. intros H. apply (In_nth _ _ 0%nat) in H as (j & Hj & E). eauto. Qed.

(** An entity of cell i' all of whose vertices are in cell i is an entity of cell i. *)
Lemma place_shared e d C i i' c c' j' : (1 <= d <= 3)%nat -> e <> P0 -> distinct_cells C ->
  nth_error C i = Some c -> nth_error C i' = Some c' -> length c = S d -> length c' = S d -> NoDup c -> NoDup c' -> (j' < fe_size e d)%nat ->
  incl (vertices_of C (fst (gp e d i' c' j'))) c -> exists j, (j < fe_size e d)%nat /\ gp e d i c j = gp e d i' c' j'.
Proof.
  intros Hd He HD Hi Hi' Hc Hc' ND ND' Hj' HI. pose proof (lplace_in e d j' Hj') as HL. unfold gp in *. destruct (lplace_nth e d j') as [a|a b m|a b f|m] eqn:EL.
  - cbn in HI |- *. destruct (at_cell_of c (at_cell c' a)) as (x & Hx & Ex); [apply HI; left; auto|].
    destruct (lplace_index e d (LV x)) as (j & Hj & Ej); [apply LV_in; auto; lia|]. exists j. split; auto. rewrite Ej. cbn. rewrite Ex. reflexivity.
  - apply lplaces_LE in HL as (Hd2 & HE & Hm & He2); auto. cbn [gplace fst the_edge vertices_of] in HI.
    assert (Ha : (a < length c')%nat /\ (b < length c')%nat /\ a <> b).
    { rewrite Hc'. clear - HE Hd Hd2. destruct d as [|[|[|[|d]]]]; try lia; cbn in HE; repeat (destruct HE as [HE|HE]; [inversion HE; lia|]); destruct HE. }
    destruct Ha as (Ha & Hb & Hab).
    assert (In (at_cell c' a) c /\ In (at_cell c' b) c) as [Ia Ib].
    { destruct (Nat.le_ge_cases (at_cell c' a) (at_cell c' b)) as [L|L]; [rewrite Nat.min_l, Nat.max_r in HI by lia|rewrite Nat.min_r, Nat.max_l in HI by lia]; split; apply HI; cbn; auto. }
    destruct (at_cell_of c _ Ia) as (x & Hx & Ex). destruct (at_cell_of c _ Ib) as (y & Hy & Ey).
    assert (Nv : at_cell c' a <> at_cell c' b) by (intros E; apply Hab, (at_cell_inj c'); auto).
    assert (x <> y) by (intros ->; congruence).
    assert (Hp : (per_edge e = 1 \/ per_edge e = 2)%nat) by (destruct e; cbn; auto).
    destruct (edges_all d x y) as [HE'|HE']; auto; try lia.
    + destruct (lplace_index e d (LE x y m)) as (j & Hj & Ej); [apply LE_in; auto; lia|]. exists j. split; auto. rewrite Ej. cbn [gplace]. rewrite Ex, Ey. reflexivity.
    + destruct (lplace_index e d (LE y x (per_edge e - 1 - m))) as (j & Hj & Ej); [apply LE_in; auto; lia|]. exists j. split; auto. rewrite Ej. cbn [gplace]. rewrite Ex, Ey.
      unfold the_edge. f_equal; [f_equal; lia|]. destruct (Nat.ltb_spec (at_cell c' a) (at_cell c' b)), (Nat.ltb_spec (at_cell c' b) (at_cell c' a)); lia.
  - apply lplaces_LF in HL as (-> & -> & HE); auto. cbn [gplace fst] in HI.
    assert (Ha : (a < length c')%nat /\ (b < length c')%nat /\ (f < length c')%nat /\ a <> b /\ a <> f /\ b <> f).
    { rewrite Hc'. clear - HE. cbn in HE. repeat (destruct HE as [HE|HE]; [inversion HE; lia|]); destruct HE. }
    destruct Ha as (Ha & Hb & Hf & Nab & Naf & Nbf).
    assert (HIn : forall v, In v [at_cell c' a; at_cell c' b; at_cell c' f] -> In v c).
    { intros v Hv. apply HI. unfold the_face. cbn [vertices_of]. clear - Hv. cbn in Hv |- *. lia. }
    destruct (at_cell_of c (at_cell c' a)) as (x & Hx & Ex); [apply HIn; cbn; auto|].
    destruct (at_cell_of c (at_cell c' b)) as (y & Hy & Ey); [apply HIn; cbn; auto|].
    destruct (at_cell_of c (at_cell c' f)) as (z & Hz & Ez); [apply HIn; cbn; auto|].
    assert (x <> y) by (intros ->; apply Nab, (at_cell_inj c'); auto; congruence).
    assert (x <> z) by (intros ->; apply Naf, (at_cell_inj c'); auto; congruence).
    assert (y <> z) by (intros ->; apply Nbf, (at_cell_inj c'); auto; congruence).
    destruct (faces_all x y z) as (((x' & y') & z') & HF & HP); auto; try lia.
    destruct (lplace_index P3 3 (LF x' y' z')) as (j & Hj & Ej); [apply LF_in, HF|]. exists j. split; auto. rewrite Ej. cbn [gplace]. f_equal.
    rewrite <- Ex, <- Ey, <- Ez. eapply the_face_perm; [reflexivity|reflexivity|].
    cbn in HP |- *. destruct HP as [HP|[HP|[HP|[HP|[HP|HP]]]]]; inversion HP; subst; tauto.
  - cbn [gplace fst vertices_of] in HI. rewrite (nth_error_nth _ _ _ Hi') in HI. assert (i' = i) as -> by (eapply HD; eauto).
    exists j'. split; auto. rewrite Hi in Hi'. inversion Hi'. rewrite EL. reflexivity.
Qed.
