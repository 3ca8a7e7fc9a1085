(** The operator has the values of the coarse shape functions at the fine nodes. *)
From Coq Require Qcabs.
From Verif Require Import Util Lin MeshSpec MeshGeom DoFMapSpec MeshModel LocalModel LocalSpec LocalProofs CSRModel CSRSpec SparsitySpec OpsProofs3
  RestrictionTables RestrictionModel RestrictionSpec RestrictionProofs RestrictionProofs2 RestrictionProofs3 RestrictionProofs4.
Set Default Proof Using "Type".
Local Open Scope Qc_scope.
Notation abs := Qcabs.Qcabs.

Lemma abs_0 : abs 0 = 0.
Proof. apply Qcabs.Qcabs_pos, Qcle_refl. Qed.

(** Coordinates of the vertices of the fine mesh with respect to those of the coarse mesh. *)
Definition vertex_at (nv : nat) (E : list (nat * nat)) (x v : nat) : Qc :=
  if (x <? nv)%nat then ind x v else let e := nth (x - nv) E (0, 0)%nat in half * ind (fst e) v + half * ind (snd e) v.
Lemma ind_neq a b : ind a b <> 0 -> a = b.
Proof. unfold ind. destruct (Nat.eqb_spec a b); auto. intros H. destruct H; reflexivity. Qed.
Lemma vertex_parents nv E x v : vertex_at nv E x v <> 0 -> In v (parents nv E x).
Proof.
  unfold vertex_at, parents. destruct (x <? nv)%nat; intros H; [left; apply ind_neq, H|].
  destruct (Qc_eq_dec (ind (fst (nth (x - nv) E (0, 0)%nat)) v) 0) as [Z|Z]; [|left; apply ind_neq, Z].
  destruct (Qc_eq_dec (ind (snd (nth (x - nv) E (0, 0)%nat)) v) 0) as [Z'|Z']; [|right; left; apply ind_neq, Z'].
  destruct H. rewrite Z, Z'. ring.
Qed.

Definition cell_structure (d nsub nv : nat) (E : list (nat * nat)) (F : list (list nat)) (i : nat) (c : list nat) (tag : when) (K : list (list name)) (nm : name -> nat) : Prop :=
  In (tag, K) (kids nsub d) /\
  (forall s, (s < nsub)%nat -> nth_error F (nsub * i + s) = Some (map nm (nth s K []))) /\
  (forall s x v, (s < nsub)%nat -> (x <= d)%nat -> let p := knth (nth s K []) x in
     vertex_at nv E (nm p) v = half * ind (at_cell c (fst p)) v + half * ind (at_cell c (snd p)) v) /\
  (forall w, nsub = 8%nat \/ w = Always -> reached nsub F i w = Ok (matches w tag)).

Lemma when_eqb_spec w w' : when_eqb w w' = true -> w = w'.
Proof. destruct w, w'; cbn; congruence. Qed.

Section Transfer.
  Variables (coarse fine : fe) (d nsub : nat) (T : list rentry) (eps : Qc) (nv : nat) (E : list (nat * nat)) (C F : list (list nat)).
  Variables (b b' : bdata) (dofsC dofsF : list (list Z)) (nC nF : nat).
  Hypothesis Hd : (1 <= d <= 3)%nat.
  Hypothesis cells : forall i c, nth_error C i = Some c -> length c = S d /\ NoDup c /\ exists tag K nm, cell_structure d nsub nv E F i c tag K nm.
  Hypothesis fine_cells : length F = (nsub * length C)%nat.
  Hypothesis distinct : distinct_cells C.
  Hypothesis numC : fe_numbering coarse d C b dofsC nC.
  Hypothesis numF : fe_numbering fine d F b' dofsF nF.
  Hypothesis contained : boundary_contained coarse d nv E C F b b'.
  Hypothesis few : few_couplings nsub dofsC dofsF.
  Hypothesis zero : coarse = P0 -> fine = P0.
  Hypothesis Ce : check_entries coarse fine d nsub T eps = true.
  Hypothesis Cc : check_complete coarse fine d nsub T = true.
  Hypothesis Cp : check_plain nsub T = true.
  Hypothesis eps0 : 0 <= eps.
  Notation H := (vertex_at nv E).

  Lemma cellsC i c : nth_error C i = Some c -> length c = S d.
  Proof using All. intros Hc. apply (cells i c Hc). Qed.
  Lemma kid_length i c tag K nm s : cell_structure d nsub nv E F i c tag K nm -> (s < nsub)%nat -> length (map nm (nth s K [])) = S d.
  Proof using All. intros HS Hs. rewrite map_length. destruct HS as (HK & _). apply (kids_ok nsub d tag K s Hd HK), Hs. Qed.
  Lemma fine_cell m t : nth_error F m = Some t -> exists i s c tag K nm, m = (nsub * i + s)%nat /\ (s < nsub)%nat /\ nth_error C i = Some c /\
    cell_structure d nsub nv E F i c tag K nm /\ t = map nm (nth s K []).
  Proof using All.
    intros Hm. assert (L : (m < nsub * length C)%nat) by (rewrite <- fine_cells; apply nth_error_Some; congruence).
    assert (Hn : nsub <> 0%nat) by (intros ->; lia). pose proof (Nat.div_mod m nsub Hn) as DM. pose proof (Nat.mod_upper_bound m nsub Hn) as MB.
    set (i := (m / nsub)%nat) in *. set (s := (m mod nsub)%nat) in *.
    assert (Hi : (i < length C)%nat) by nia. destruct (nth_error C i) as [c|] eqn:Ec; [|apply nth_error_None in Ec; lia].
    destruct (cells i c Ec) as (_ & _ & tag & K & nm & HS). exists i, s, c, tag, K, nm. split; [auto|]. split; [auto|]. split; [auto|]. split; [auto|].
    destruct HS as (_ & HF & _). specialize (HF s MB). rewrite <- DM in HF. congruence.
  Qed.
  Lemma cellsF m t : nth_error F m = Some t -> length t = S d.
  Proof using All. intros Hm. destruct (fine_cell m t Hm) as (i & s & c & tag & K & nm & _ & Hs & _ & HS & ->). eapply kid_length; eauto. Qed.

  (** Coordinates of a fine node. *)
  Definition Y (q : place) : nat -> Qc := node_at fine F H q.
  Lemma nth_node k (g : nat -> Qc) : (k < fe_size fine d)%nat -> lnode fine d (lplace_nth fine d k) g = sumf (S d) (fun x => vat (node fine d k) x * g x).
  Proof using All.
    intros Hk. pose proof (node_value fine d g Hd) as NV. pose proof (f_equal (fun l => nth_error l k) NV) as NE. cbv beta in NE.
    rewrite !nth_error_map in NE. unfold lplace_nth, node. rewrite (nth_error_nth' (lplaces fine d) (LC 0) Hk) in NE. cbn [option_map] in NE.
    destruct (nth_error (fe_nodes fine d) k) as [nd|] eqn:En; [|discriminate]. cbn [option_map] in NE. rewrite (nth_error_nth _ _ _ En). inversion NE. reflexivity.
  Qed.
  Lemma Y_sum i c tag K nm s k v : nth_error C i = Some c -> cell_structure d nsub nv E F i c tag K nm -> (s < nsub)%nat -> (k < fe_size fine d)%nat ->
    Y (gp fine d (nsub * i + s) (map nm (nth s K [])) k) v =
    sumf (S d) (fun x => vat (node fine d k) x * (half * ind (at_cell c (fst (knth (nth s K []) x))) v + half * ind (at_cell c (snd (knth (nth s K []) x))) v)).
  Proof using All.
    intros Hc HS Hs Hk. destruct HS as (HK & HF & HH & HR) eqn:E0. clear E0. destruct (kids_ok nsub d tag K s Hd HK) as [_ Hkid]. specialize (Hkid Hs). destruct Hkid as [L Hkid].
    unfold Y, gp. rewrite (node_place fine d F H _ (map nm (nth s K []))); [|auto|rewrite map_length; auto|apply nth_error_nth; auto|apply lplace_in; auto].
    rewrite nth_node by auto. apply sumf_ext. intros x Hx. f_equal. rewrite <- (HH s x v) by lia. f_equal. unfold at_cell, knth.
    rewrite (nth_indep _ _ (nm (0, 0)%nat)) by (rewrite map_length; lia). apply map_nth.
  Qed.
  Lemma Y_corner i c tag K nm s k a : nth_error C i = Some c -> cell_structure d nsub nv E F i c tag K nm -> (s < nsub)%nat -> (k < fe_size fine d)%nat -> (a <= d)%nat ->
    vat (lpoint d (nth s K []) (node fine d k)) a = Y (gp fine d (nsub * i + s) (map nm (nth s K [])) k) (at_cell c a).
  Proof using All.
    intros Hc HS Hs Hk Ha. rewrite (Y_sum i c tag K nm s k) by auto. unfold lpoint. rewrite vat_tab by lia. destruct (cells i c Hc) as (Lc & ND & _).
    destruct HS as (HK & _). destruct (kids_ok nsub d tag K s Hd HK) as [_ Hkid]. specialize (Hkid Hs). destruct Hkid as [L Hkid].
    assert (EI : forall y, (y <= d)%nat -> ind y a = ind (at_cell c y) (at_cell c a)).
    { intros y Hy. unfold ind. destruct (Nat.eqb_spec y a) as [->|N]; [rewrite Nat.eqb_refl; auto|]. destruct (Nat.eqb_spec (at_cell c y) (at_cell c a)) as [EA|]; auto.
      destruct N. apply (at_cell_inj c); auto; lia. }
    apply sumf_ext. intros x Hx. assert (Hx' : (x <= d)%nat) by lia. apply Hkid in Hx'. unfold ncoord. rewrite !EI by lia. reflexivity.
  Qed.
  Lemma Y_in i c tag K nm s k v : nth_error C i = Some c -> cell_structure d nsub nv E F i c tag K nm -> (s < nsub)%nat -> (k < fe_size fine d)%nat ->
    Y (gp fine d (nsub * i + s) (map nm (nth s K [])) k) v <> 0 -> In v c.
  Proof using All.
    intros Hc HS Hs Hk N. destruct (in_dec Nat.eq_dec v c) as [|NI]; auto. destruct N. rewrite (Y_sum i c tag K nm s k) by auto. destruct (cells i c Hc) as (Lc & ND & _).
    destruct HS as (HK & _). destruct (kids_ok nsub d tag K s Hd HK) as [_ Hkid]. specialize (Hkid Hs). destruct Hkid as [L Hkid].
    assert (EI : forall y, (y <= d)%nat -> ind (at_cell c y) v = 0).
    { intros y Hy. unfold ind. destruct (Nat.eqb_spec (at_cell c y) v) as [EA|]; auto. destruct NI. rewrite <- EA. apply at_cell_in. lia. }
    apply sumf_zero. intros x Hx. assert (Hx' : (x <= d)%nat) by lia. apply Hkid in Hx'. rewrite !EI by lia. ring.
  Qed.
  Lemma weight_shape i c tag K nm s j k : nth_error C i = Some c -> cell_structure d nsub nv E F i c tag K nm -> (s < nsub)%nat -> (j < fe_size coarse d)%nat -> (k < fe_size fine d)%nat ->
    weight coarse fine d (nth s K []) j k = shape_at coarse C (gp coarse d i c j) (Y (gp fine d (nsub * i + s) (map nm (nth s K [])) k)).
  Proof using All.
    intros Hc HS Hs Hj Hk. unfold weight, phi, gp at 1. apply shape_place; auto; [eapply cellsC; eauto|apply nth_error_nth; auto|apply lplace_in; auto|].
    intros a Ha. eapply Y_corner; eauto.
  Qed.

  (** Equal names are equal vertices. *)
  Lemma nm_inj i c tag K nm s s' x x' : nth_error C i = Some c -> cell_structure d nsub nv E F i c tag K nm -> (s < nsub)%nat -> (s' < nsub)%nat -> (x <= d)%nat -> (x' <= d)%nat ->
    nm (knth (nth s K []) x) = nm (knth (nth s' K []) x') -> knth (nth s K []) x = knth (nth s' K []) x'.
  Proof using All.
    intros Hc (HK & _ & HH & _) Hs Hs' Hx Hx' EQ. pose proof (proj2 (proj2 (kids_ok nsub d tag K s Hd HK) Hs) x Hx) as Hp. pose proof (proj2 (proj2 (kids_ok nsub d tag K s' Hd HK) Hs') x' Hx') as Hq.
    specialize (HH s x) as HHp. specialize (HH s' x') as HHq. cbv zeta in HHp, HHq. set (p := knth (nth s K []) x) in *. set (q := knth (nth s' K []) x') in *. destruct (cells i c Hc) as (Lc & ND & _).
    assert (G : forall a, (a <= d)%nat -> ncoord p a = ncoord q a).
    { intros a Ha. pose proof (HHp (at_cell c a) Hs Hx) as H1. rewrite EQ, (HHq (at_cell c a) Hs' Hx') in H1.
      assert (EI : forall y, (y <= d)%nat -> ind (at_cell c y) (at_cell c a) = ind y a).
      { intros y Hy. unfold ind. destruct (Nat.eqb_spec y a) as [->|N]; [rewrite Nat.eqb_refl; auto|]. destruct (Nat.eqb_spec (at_cell c y) (at_cell c a)) as [EA|]; auto.
        destruct N. apply (at_cell_inj c); auto; lia. }
      rewrite !EI in H1 by lia. unfold ncoord. congruence. }
    clearbody p q. clear x x' Hx Hx' HHp HHq HH. destruct p as [p1 p2], q as [q1 q2]. cbn [fst snd] in *.
    assert (Pos : forall x y a, ncoord (x, y) a <> 0 <-> (x = a \/ y = a)).
    { intros x y a. unfold ncoord, ind. cbn [fst snd]. destruct (Nat.eqb_spec x a), (Nat.eqb_spec y a); split; intros K0; try tauto; try lia; intros Z; vm_compute in Z; discriminate Z. }
    assert (A1 : forall a, (a <= d)%nat -> (p1 = a \/ p2 = a) <-> (q1 = a \/ q2 = a)) by (intros a Ha; rewrite <- !Pos, G by auto; tauto).
    pose proof (A1 p1). pose proof (A1 p2). pose proof (A1 q1). pose proof (A1 q2). f_equal; lia.
  Qed.
  Lemma lsame_place i c tag K nm s s' k k' : nth_error C i = Some c -> cell_structure d nsub nv E F i c tag K nm -> (s < nsub)%nat -> (s' < nsub)%nat ->
    (k < fe_size fine d)%nat -> (k' < fe_size fine d)%nat ->
    lsame (per_edge fine) (nth s K []) (nth s' K []) s s' (lplace_nth fine d k) (lplace_nth fine d k') = true ->
    gp fine d (nsub * i + s) (map nm (nth s K [])) k = gp fine d (nsub * i + s') (map nm (nth s' K [])) k'.
  Proof using All.
    intros Hc HS Hs Hs' Hk Hk' HL. pose proof HS as (HK & _). destruct (kids_ok nsub d tag K s Hd HK) as [LK Kid]. specialize (Kid Hs). destruct Kid as [L Kid].
    destruct (kids_ok nsub d tag K s' Hd HK) as [_ Kid']. specialize (Kid' Hs'). destruct Kid' as [L' Kid'].
    pose proof (fun a => lvertices_le fine d _ a Hd (lplace_in fine d k Hk)) as V. pose proof (fun a => lvertices_le fine d _ a Hd (lplace_in fine d k' Hk')) as V'.
    assert (A : forall x, (x <= d)%nat -> at_cell (map nm (nth s K [])) x = nm (knth (nth s K []) x)).
    { intros x Hx. unfold at_cell, knth. rewrite (nth_indep _ _ (nm (0, 0)%nat)) by (rewrite map_length; lia). apply map_nth. }
    assert (A' : forall x, (x <= d)%nat -> at_cell (map nm (nth s' K [])) x = nm (knth (nth s' K []) x)).
    { intros x Hx. unfold at_cell, knth. rewrite (nth_indep _ _ (nm (0, 0)%nat)) by (rewrite map_length; lia). apply map_nth. }
    assert (NE : forall p q, name_eqb p q = true -> p = q).
    { intros [p1 p2] [q1 q2] Q. apply andb_true_iff in Q as [Q1 Q2]. apply Nat.eqb_eq in Q1, Q2. cbn in *. congruence. }
    assert (NR : forall p, name_eqb p p = true) by (intros [p1 p2]; unfold name_eqb; cbn; rewrite !Nat.eqb_refl; auto).
    unfold gp. destruct (lplace_nth fine d k) as [x|x y m|x y z|m], (lplace_nth fine d k') as [x'|x' y' m'|x' y' z'|m']; cbn [lsame] in HL; try discriminate HL.
    - cbn [gplace]. apply NE in HL. rewrite A, A', HL by first [solve [apply V; cbn; auto]|solve [apply V'; cbn; auto]]. reflexivity.
    - cbn [gplace]. rewrite (A x), (A y), (A' x'), (A' y') by first [solve [apply V; cbn; auto]|solve [apply V'; cbn; auto]]. apply orb_true_iff in HL as [HL|HL].
      + apply andb_true_iff in HL as [HL Em]. apply andb_true_iff in HL as [Ex Ey]. apply NE in Ex, Ey. apply Nat.eqb_eq in Em. rewrite Ex, Ey, Em. reflexivity.
      + apply andb_true_iff in HL as [HL Em']. apply andb_true_iff in HL as [HL Em]. apply andb_true_iff in HL as [HL Mn]. apply andb_true_iff in HL as [HL Ey]. apply andb_true_iff in HL as [Nx Ex].
        apply NE in Ex, Ey. apply Nat.eqb_eq in Em, Em'. apply Nat.ltb_lt in Mn. rewrite <- Ex, <- Ey.
        assert (NN : nm (knth (nth s K []) x) <> nm (knth (nth s K []) y)).
        { intros Q. apply (nm_inj i c tag K nm) in Q; auto; [|apply V; cbn; auto|apply V; cbn; auto]. rewrite Q, NR in Nx. discriminate. }
        unfold the_edge. f_equal; [f_equal; lia|].
        destruct (Nat.ltb_spec (nm (knth (nth s K []) y)) (nm (knth (nth s K []) x))), (Nat.ltb_spec (nm (knth (nth s K []) x)) (nm (knth (nth s K []) y))); lia.
    - cbn [gplace]. rewrite (A x), (A y), (A z), (A' x'), (A' y'), (A' z') by first [solve [apply V; cbn; auto]|solve [apply V'; cbn; auto]]. f_equal.
      rewrite !orb_true_iff, !andb_true_iff in HL.
      destruct HL as [[[[[[[E1 E2] E3]|[[E1 E2] E3]]|[[E1 E2] E3]]|[[E1 E2] E3]]|[[E1 E2] E3]]|[[E1 E2] E3]]; apply NE in E1, E2, E3; rewrite E1, E2, E3; unfold the_face; f_equal; lia.
    - apply andb_true_iff in HL as [E1 E2]. apply Nat.eqb_eq in E1, E2. subst. reflexivity.
  Qed.

  (** ** Contributions *)
  Notation cs := (contributions nsub T (length C) F dofsC dofsF).
  Lemma rbool_tag i c tag K nm w j s k v : nth_error C i = Some c -> cell_structure d nsub nv E F i c tag K nm -> In (w, j, s, k, v) T ->
    reached nsub F i w = Ok (matches w tag) /\ rbool nsub F i w = matches w tag.
  Proof using All.
    intros Hc (_ & _ & _ & HR) HT. assert (P : nsub = 8%nat \/ w = Always).
    { unfold check_plain in Cp. apply orb_true_iff in Cp as [Q|Q]; [left; apply Nat.eqb_eq, Q|right]. rewrite forallb_forall in Q. apply when_eqb_spec, (Q _ HT). }
    unfold rbool. rewrite (HR w P). auto.
  Qed.
  Lemma structure i c : nth_error C i = Some c -> exists tag K nm, cell_structure d nsub nv E F i c tag K nm.
  Proof using All. intros Hc. apply (cells i c Hc). Qed.
  Lemma numberC i c j : nth_error C i = Some c -> (j < fe_size coarse d)%nat -> numbered (fe_places coarse d) C dofsC (gp coarse d i c j) (zat dofsC i j).
  Proof using All. intros Hc Hj. apply (num_at coarse d C b dofsC nC); auto. apply cellsC. Qed.
  Lemma numberF i c tag K nm s k : nth_error C i = Some c -> cell_structure d nsub nv E F i c tag K nm -> (s < nsub)%nat -> (k < fe_size fine d)%nat ->
    numbered (fe_places fine d) F dofsF (gp fine d (nsub * i + s) (map nm (nth s K [])) k) (zat dofsF (nsub * i + s) k).
  Proof using All. intros Hc HS Hs Hk. apply (num_at fine d F b' dofsF nF); auto; [apply cellsF|]. destruct HS as (_ & HF & _). apply HF, Hs. Qed.
  Lemma eqC p z p' z' : numbered (fe_places coarse d) C dofsC p z -> numbered (fe_places coarse d) C dofsC p' z' -> (0 <= z \/ 0 <= z')%Z -> (z = z' <-> p = p').
  Proof using All. apply (num_eq coarse d C b dofsC nC Hd); auto. apply cellsC. Qed.
  Lemma eqF p z p' z' : numbered (fe_places fine d) F dofsF p z -> numbered (fe_places fine d) F dofsF p' z' -> (0 <= z \/ 0 <= z')%Z -> (z = z' <-> p = p').
  Proof using All. apply (num_eq fine d F b' dofsF nF Hd); auto. apply cellsF. Qed.

  Lemma in_cs I J v : In (I, J, v) cs <-> exists i c tag K nm w j s k, nth_error C i = Some c /\ cell_structure d nsub nv E F i c tag K nm /\ (s < nsub)%nat /\
    (j < fe_size coarse d)%nat /\ (k < fe_size fine d)%nat /\ In (w, j, s, k, v) T /\ matches w tag = true /\
    zat dofsC i j = Z.of_nat I /\ zat dofsF (nsub * i + s) k = Z.of_nat J.
  Proof using All.
    rewrite in_contributions. split.
    - intros (i & w & j & s & k & Hi & HT & HB & H1 & -> & H2 & ->). destruct (nth_error C i) as [c|] eqn:Hc; [|apply nth_error_None in Hc; lia].
      destruct (structure i c Hc) as (tag & K & nm & HS). destruct (rbool_tag i c tag K nm w j s k v Hc HS HT) as [_ RB]. rewrite RB in HB. pose proof HS as (HK & _).
      destruct (entries_spec _ _ _ _ _ _ Ce tag K w j s k v HK HT) as [(Hj & Hs & Hk) _]. exists i, c, tag, K, nm, w, j, s, k.
      rewrite !Z2Nat.id by auto. auto 12.
    - intros (i & c & tag & K & nm & w & j & s & k & Hc & HS & Hs & Hj & Hk & HT & HM & E1 & E2). exists i, w, j, s, k.
      destruct (rbool_tag i c tag K nm w j s k v Hc HS HT) as [_ RB]. split; [apply nth_error_Some; congruence|]. split; [auto|]. split; [congruence|].
      rewrite E1, E2, !Nat2Z.id. split; [lia|]. split; [auto|]. split; [lia|auto].
  Qed.
  Lemma cs_range I J v : In (I, J, v) cs -> (I < nC /\ J < nF)%nat.
  Proof using All.
    intros HI. apply in_cs in HI as (i & c & tag & K & nm & w & j & s & k & Hc & HS & Hs & Hj & Hk & HT & HM & E1 & E2).
    pose proof (numberC i c j Hc Hj) as N1. pose proof (numberF i c tag K nm s k Hc HS Hs Hk) as N2.
    apply (num_lt coarse d C b dofsC nC Hd cellsC numC) in N1. apply (num_lt fine d F b' dofsF nF Hd cellsF numF) in N2. lia.
  Qed.
  Lemma get2_row {A} (M : list (list A)) i j row dflt : nth_error M i = Some row -> (j < length row)%nat -> get2 M i j = Ok (nth j (nth i M []) dflt).
  Proof. intros Hr Hj. unfold get2, aget. rewrite Hr. cbn [bind]. rewrite (nth_error_nth' row dflt Hj), (nth_error_nth _ _ _ Hr). reflexivity. Qed.
  Lemma cs_readable : readable nsub T (length C) F dofsC dofsF.
  Proof using All.
    intros i w j s k v Hi HT. destruct (nth_error C i) as [c|] eqn:Hc; [|apply nth_error_None in Hc; lia].
    destruct (structure i c Hc) as (tag & K & nm & HS). destruct (rbool_tag i c tag K nm w j s k v Hc HS HT) as [R1 R2]. pose proof HS as (HK & HF & _).
    destruct (entries_spec _ _ _ _ _ _ Ce tag K w j s k v HK HT) as [(Hj & Hs & Hk) _]. split; [congruence|].
    destruct (num_row coarse d C b dofsC nC Hd cellsC numC i c Hc) as (row & Er & Lr & _). destruct (num_row fine d F b' dofsF nF Hd cellsF numF _ _ (HF s Hs)) as (row' & Er' & Lr' & _).
    split; eapply get2_row; eauto; lia.
  Qed.
  Lemma cs_rows a : (row_size a (map pair_of cs) < 2 ^ 16)%nat.
  Proof using All.
    unfold row_size. apply (few (Z.of_nat a)); [apply NoDup_nodup|].
    intros J HJ. apply nodup_In in HJ. apply in_map_iff in HJ as ((a' & J') & EJ & HJ). cbn [snd] in EJ. subst J'. apply filter_In in HJ as [HJ Ea]. cbn [fst] in Ea. apply Nat.eqb_eq in Ea. subst a'.
    apply in_map_iff in HJ as (((x & y) & v) & EP & HJ). cbn in EP. inversion EP; subst. apply in_cs in HJ as (i & c & tag & K & nm & w & j & s & k & Hc & HS & Hs & Hj & Hk & HT & HM & E1 & E2).
    destruct (num_row coarse d C b dofsC nC Hd cellsC numC i c Hc) as (row & Er & Lr & Hr). pose proof HS as (_ & HF & _).
    destruct (num_row fine d F b' dofsF nF Hd cellsF numF _ _ (HF s Hs)) as (row' & Er' & Lr' & Hr').
    exists i, s, row, row'. split; [auto|]. split; [auto|]. split; [rewrite <- E1; apply (nth_error_In _ j); auto|]. split; [auto|]. rewrite <- E2. apply (nth_error_In _ k); auto.
  Qed.

  Lemma close_abs x y : x - y <= eps -> y - x <= eps -> abs (x - y) <= eps.
  Proof using All. clear. intros A B. apply Qcabs.Qcabs_Qcle_condition. split; qclra. Qed.

  (** The values at places. *)
  Lemma cs_value I J v p q : In (I, J, v) cs -> numbered (fe_places coarse d) C dofsC p (Z.of_nat I) -> numbered (fe_places fine d) F dofsF q (Z.of_nat J) ->
    shape_at coarse C p (Y q) <> 0 /\ abs (v - shape_at coarse C p (Y q)) <= eps.
  Proof using All.
    intros HI Hp Hq. apply in_cs in HI as (i & c & tag & K & nm & w & j & s & k & Hc & HS & Hs & Hj & Hk & HT & HM & E1 & E2).
    pose proof (numberC i c j Hc Hj) as N1. pose proof (numberF i c tag K nm s k Hc HS Hs Hk) as N2.
    assert (p = gp coarse d i c j) as -> by (apply (eqC _ _ _ _ Hp N1); auto; left; lia). assert (q = gp fine d (nsub * i + s) (map nm (nth s K [])) k) as -> by (apply (eqF _ _ _ _ Hq N2); auto; left; lia).
    rewrite <- (weight_shape i c tag K nm s j k) by auto. pose proof HS as (HK & _).
    destruct (entries_spec _ _ _ _ _ _ Ce tag K w j s k v HK HT) as [_ HV]. destruct (HV HM) as (NZ & A & B). split; auto. apply close_abs; auto.
  Qed.
  Definition rvalue (I J : nat) : Qc := match last_value cs I J with Some v => v | None => 0 end.
  Lemma rvalue_in i c tag K nm s j k I J : nth_error C i = Some c -> cell_structure d nsub nv E F i c tag K nm -> (s < nsub)%nat -> (j < fe_size coarse d)%nat -> (k < fe_size fine d)%nat ->
    zat dofsC i j = Z.of_nat I -> zat dofsF (nsub * i + s) k = Z.of_nat J -> abs (rvalue I J - weight coarse fine d (nth s K []) j k) <= eps.
  Proof using All.
    intros Hc HS Hs Hj Hk EI EJ. pose proof (numberC i c j Hc Hj) as N1. pose proof (numberF i c tag K nm s k Hc HS Hs Hk) as N2. unfold rvalue.
    destruct (last_value cs I J) as [v|] eqn:EL.
    - apply last_value_in in EL. rewrite (weight_shape i c tag K nm s j k) by auto. rewrite EI in N1. rewrite EJ in N2. apply (cs_value I J v); auto.
    - assert (Z : weight coarse fine d (nth s K []) j k = 0).
      { destruct (Qc_eq_dec (weight coarse fine d (nth s K []) j k) 0) as [|NZ]; auto. exfalso. pose proof HS as (HK & _).
        destruct (complete_spec _ _ _ _ _ Cc tag K j s k HK Hj Hs Hk NZ) as (w & s' & k' & v & HT & HM & HL).
        destruct (entries_spec _ _ _ _ _ _ Ce tag K w j s' k' v HK HT) as [(_ & Hs' & Hk') _].
        apply (last_value_none _ _ _ EL v). apply in_cs. exists i, c, tag, K, nm, w, j, s', k'. do 8 (split; [auto|]).
        rewrite <- EJ. pose proof (numberF i c tag K nm s' k' Hc HS Hs' Hk') as N3. apply (eqF _ _ _ _ N3 N2); [right; lia|]. symmetry. apply (lsame_place i c tag K nm); auto. }
      rewrite Z. replace (0 - 0) with 0 by ring. rewrite abs_0. auto.
  Qed.
  Lemma rvalue_out i c tag K nm s k I J : nth_error C i = Some c -> cell_structure d nsub nv E F i c tag K nm -> (s < nsub)%nat -> (k < fe_size fine d)%nat ->
    zat dofsF (nsub * i + s) k = Z.of_nat J -> (forall j, (j < fe_size coarse d)%nat -> zat dofsC i j <> Z.of_nat I) -> rvalue I J = 0.
  Proof using All.
    intros Hc HS Hs Hk EJ NI. unfold rvalue. destruct (last_value cs I J) as [v|] eqn:EL; auto. exfalso. apply last_value_in in EL.
    pose proof EL as EL'. apply in_cs in EL' as (i' & c' & tag' & K' & nm' & w & j' & s' & k' & Hc' & HS' & Hs' & Hj' & Hk' & HT & HM & E1 & E2).
    pose proof (numberC i' c' j' Hc' Hj') as N1. pose proof (numberF i c tag K nm s k Hc HS Hs Hk) as N2. rewrite E1 in N1. rewrite EJ in N2.
    destruct (cs_value I J v _ _ EL N1 N2) as [NZ _].
    assert (D : coarse = P0 \/ coarse <> P0) by (destruct coarse; auto; right; discriminate).
    destruct D as [EP|NP].
    - pose proof (numberF i' c' tag' K' nm' s' k' Hc' HS' Hs' Hk') as N3. rewrite E2 in N3. assert (Q : gp fine d (nsub * i + s) (map nm (nth s K [])) k = gp fine d (nsub * i' + s') (map nm' (nth s' K' [])) k') by (apply (eqF _ _ _ _ N2 N3); auto; left; lia).
      specialize (zero EP). unfold gp in Q. rewrite zero in Q. unfold lplace_nth in Q. rewrite zero in Hk, Hk'. cbn in Hk, Hk'. assert (k = 0%nat) as -> by lia. assert (k' = 0%nat) as -> by lia. cbn in Q.
      inversion Q as [Q']. assert (i' = i) as -> by nia. apply (NI j' Hj' E1).
    - destruct (cells i c Hc) as (Lc & ND & _). destruct (cells i' c' Hc') as (Lc' & ND' & _).
      destruct (place_shared coarse d C i i' c c' j') as (j & Hj & Ep); auto.
      { intros u Hu. apply (shape_support coarse C _ _ NP NZ) in Hu. apply (Y_in i c tag K nm s k u); auto. }
      apply (NI j Hj). pose proof (numberC i c j Hc Hj) as N3. apply (eqC _ _ _ _ N3 N1); [right; lia|]. auto.
  Qed.
  (** DoFs on the zero boundary of the fine space. *)
  Lemma boundary_zero i c tag K nm s j k : nth_error C i = Some c -> cell_structure d nsub nv E F i c tag K nm -> (s < nsub)%nat -> (j < fe_size coarse d)%nat -> (k < fe_size fine d)%nat ->
    (0 <= zat dofsC i j)%Z -> (zat dofsF (nsub * i + s) k < 0)%Z -> weight coarse fine d (nth s K []) j k = 0.
  Proof using All.
    intros Hc HS Hs Hj Hk PI NJ. destruct (Qc_eq_dec (weight coarse fine d (nth s K []) j k) 0) as [|NZ]; auto. exfalso.
    rewrite (weight_shape i c tag K nm s j k) in NZ by auto. pose proof (numberC i c j Hc Hj) as N1. pose proof (numberF i c tag K nm s k Hc HS Hs Hk) as N2.
    set (p := gp coarse d i c j) in *. set (q := gp fine d (nsub * i + s) (map nm (nth s K [])) k) in *.
    assert (NB : ~ on_bdata b' (fst q)).
    { intros B. assert (D : coarse = P0 \/ coarse <> P0) by (destruct coarse; auto; right; discriminate). destruct D as [EP|NP].
      - unfold q, gp, lplace_nth in B. rewrite (zero EP) in B, Hk. cbn in Hk. assert (k = 0%nat) as -> by lia. cbn in B. destruct b' as [[bv be] bf].
        destruct B as [(v & _ & B)|[(x & y & _ & B)|(x & y & z & _ & B)]]; discriminate B.
      - apply (num_bd coarse d C b dofsC nC Hd cellsC numC _ _) in N1; [lia|]. apply (contained (fst p) (fst q)); auto.
        + eapply num_in; eauto. apply cellsC.
        + intros u Hu. apply (shape_support coarse C _ _ NP NZ) in Hu. apply node_support in Hu as (x & Hx & Hu). apply in_flat_map. exists x. split; auto. apply vertex_parents, Hu. }
    apply (num_nbd fine d F b' dofsF nF Hd cellsF numF _ _ N2) in NB. lia.
  Qed.

  (** ** Sums *)
  Lemma sum_over_row n m (z : nat -> Z) (f : nat -> Qc) : (forall j, (j < m)%nat -> (z j < Z.of_nat n)%Z) ->
    (forall j k, (j < m)%nat -> (k < m)%nat -> (0 <= z j)%Z -> z j = z k -> j = k) ->
    (forall x, (x < n)%nat -> (forall j, (j < m)%nat -> z j <> Z.of_nat x) -> f x = 0) ->
    sumf n f = sumf m (fun j => if (0 <=? z j)%Z then f (Z.to_nat (z j)) else 0).
  Proof.
    clear. intros Hz Hinj Hf.
    rewrite (sumf_ext m _ (fun j => sumf n (fun x => if (Z.of_nat x =? z j)%Z then f x else 0))).
    - rewrite sumf_swap. apply sumf_ext. intros x Hx.
      destruct (existsb (fun j => Z.eqb (z j) (Z.of_nat x)) (seq 0 m)) eqn:EX.
      + apply existsb_exists in EX as (j & Hj & EX). apply in_seq in Hj. apply Z.eqb_eq in EX. rewrite (sumf_single m _ j); [rewrite EX, Z.eqb_refl; auto|lia|].
        intros k Hk N. destruct (Z.eqb_spec (Z.of_nat x) (z k)) as [Ek|]; auto. destruct N. apply Hinj; auto; lia.
      + assert (NE : forall j, (j < m)%nat -> z j <> Z.of_nat x).
        { intros j Hj EZ. assert (Q : existsb (fun j => Z.eqb (z j) (Z.of_nat x)) (seq 0 m) = true); [|congruence]. apply existsb_exists. exists j. split; [apply in_seq; lia|apply Z.eqb_eq; auto]. }
        rewrite Hf by auto. symmetry. apply sumf_zero. intros j Hj. destruct (Z.eqb _ _); auto.
    - intros j Hj. destruct (Z.leb_spec 0 (z j)) as [P|P].
      + specialize (Hz j Hj). rewrite (sumf_single n _ (Z.to_nat (z j))); [rewrite Z2Nat.id, Z.eqb_refl by auto; auto|lia|].
        intros x Hx N. destruct (Z.eqb_spec (Z.of_nat x) (z j)); auto. lia.
      + symmetry. apply sumf_zero. intros x Hx. destruct (Z.eqb_spec (Z.of_nat x) (z j)); auto. lia.
  Qed.
  Lemma abs_sumf n f : abs (sumf n f) <= sumf n (fun i => abs (f i)).
  Proof.
    clear. induction n as [|n IH]; [cbn [sumf]; rewrite abs_0; apply Qcle_refl|]. cbn [sumf]. eapply Qcle_trans; [apply Qcabs.Qcabs_triangle|]. apply Qcplus_le_compat; [exact IH|apply Qcle_refl].
  Qed.
  Lemma sumf_le n f g : (forall i, (i < n)%nat -> f i <= g i) -> sumf n f <= sumf n g.
  Proof. clear. induction n as [|n IH]; intros HH; [apply Qcle_refl|]. cbn [sumf]. apply Qcplus_le_compat; [apply IH; intros; apply HH; lia|apply HH; lia]. Qed.

  Definition applied (u : list Qc) : list Qc := tab nF (fun J => sumf nC (fun I => rvalue I J * vat u I)).
  Lemma applied_close u i c tag K nm s k : nth_error C i = Some c -> cell_structure d nsub nv E F i c tag K nm -> (s < nsub)%nat -> (k < fe_size fine d)%nat ->
    abs (coefficient (applied u) (zat dofsF (nsub * i + s) k) - sumf (fe_size coarse d) (fun j => coefficient u (zat dofsC i j) * weight coarse fine d (nth s K []) j k))
      <= eps * sumf (fe_size coarse d) (fun j => abs (coefficient u (zat dofsC i j))).
  Proof using All.
    intros Hc HS Hs Hk. unfold coefficient at 1. destruct (Z.leb_spec 0 (zat dofsF (nsub * i + s) k)) as [P|P].
    - pose proof (numberF i c tag K nm s k Hc HS Hs Hk) as N2. apply (num_lt fine d F b' dofsF nF Hd cellsF numF) in N2.
      unfold applied. rewrite vat_tab by lia. set (J := Z.to_nat (zat dofsF (nsub * i + s) k)). assert (EJ : zat dofsF (nsub * i + s) k = Z.of_nat J) by (unfold J; lia).
      rewrite (sum_over_row nC (fe_size coarse d) (zat dofsC i)).
      + rewrite <- sumf_minus. eapply Qcle_trans; [apply abs_sumf|]. rewrite <- sumf_scal. apply sumf_le. intros j Hj. unfold coefficient.
        destruct (Z.leb_spec 0 (zat dofsC i j)) as [P'|P'].
        * set (I := Z.to_nat (zat dofsC i j)). assert (EI : zat dofsC i j = Z.of_nat I) by (unfold I; lia).
          replace (rvalue I J * vat u I - vat u I * weight coarse fine d (nth s K []) j k) with ((rvalue I J - weight coarse fine d (nth s K []) j k) * vat u I) by ring.
          rewrite Qcabs.Qcabs_Qcmult. apply Qcmult_le_compat_r; [apply (rvalue_in i c tag K nm); auto|apply Qcabs.Qcabs_nonneg].
        * replace (0 - 0 * weight coarse fine d (nth s K []) j k) with 0 by ring. rewrite abs_0. rewrite Qcmult_0_r. apply Qcle_refl.
      + intros j Hj. pose proof (numberC i c j Hc Hj) as N1. apply (num_lt coarse d C b dofsC nC Hd cellsC numC) in N1. auto.
      + intros j j' Hj Hj' PZ EZ. destruct (cells i c Hc) as (_ & ND & _). eapply (num_row_inj coarse d C b dofsC nC Hd cellsC numC); eauto.
      + intros I HI NI. rewrite (rvalue_out i c tag K nm s k I J); auto. ring.
    - rewrite (sumf_zero (fe_size coarse d) (fun j => coefficient u (zat dofsC i j) * weight coarse fine d (nth s K []) j k)).
      + replace (0 - 0) with 0 by ring. rewrite abs_0.
        rewrite <- (Qcmult_0_r eps). rewrite (Qcmult_comm eps 0), (Qcmult_comm eps). apply Qcmult_le_compat_r; auto.
        rewrite <- (sumf_0 (fe_size coarse d)). apply sumf_le. intros j Hj. apply Qcabs.Qcabs_nonneg.
      + intros j Hj. unfold coefficient. destruct (Z.leb_spec 0 (zat dofsC i j)) as [P'|P']; [|ring]. rewrite (boundary_zero i c tag K nm s j k) by auto. ring.
  Qed.

  (** ** The operators *)
  Lemma operators_ok : exists R P, buildRestriction nsub T (length C) F dofsC nC dofsF nF = Ok R /\ csr_transpose R = Ok P /\ wf_csr nC nF R /\ wf_csr nF nC P /\
    (forall I J, (I < nC)%nat -> (J < nF)%nat -> matrix P J I = matrix R I J) /\
    (forall u, tab nF (mv nC (matrix P) (vat u)) = applied u).
  Proof using All.
    destruct (buildRestriction_ok nsub T (length C) F dofsC dofsF nC nF cs_readable cs_range cs_rows) as (R & ER & wf & srt & R0 & HM).
    destruct (transpose_thm nC nF R wf R0) as (P & EP & wfP & HT & _). exists R, P. split; [auto|]. split; [auto|]. split; [auto|]. split; [auto|].
    split; [intros; apply HT; auto|]. intros u. unfold applied. apply tab_ext. intros J HJ. unfold mv. apply sumf_ext. intros I HI. rewrite HT, HM by auto. reflexivity.
  Qed.
  Lemma value_sum e D dofs bd n row i c u l : (forall i c, nth_error D i = Some c -> length c = S d) -> fe_numbering e d D bd dofs n -> nth_error D i = Some c -> nth_error dofs i = Some row ->
    fe_value e d row u l = sumf (fe_size e d) (fun j => coefficient u (zat dofs i j) * phi e d j l).
  Proof using All.
    intros HL HN Hc Hr. destruct (num_row e d D bd dofs n Hd HL HN i c Hc) as (row' & Er & Lr & HR). assert (row' = row) as -> by congruence.
    unfold fe_value. rewrite <- (suml_tab (fe_size e d)). f_equal. apply nth_ext with (d := 0) (d' := 0).
    - rewrite map_length, combine_length, tab_length. unfold fe_size in *. rewrite Lr, lplaces_length by auto. lia.
    - intros j Hj. rewrite map_length, combine_length, Lr, <- lplaces_length in Hj by auto. unfold fe_size in Hj.
      assert (Hj' : (j < fe_size e d)%nat) by (unfold fe_size; lia). rewrite nth_tab by auto.
      destruct (nth_error (fe_shapes e d) j) as [f|] eqn:Ef; [|apply nth_error_None in Ef; rewrite <- lplaces_length in Ef by auto; unfold fe_size in Hj'; lia].
      rewrite (phi_shape e d j l f) by auto. apply nth_error_nth.
      assert (EC : nth_error (combine row (fe_shapes e d)) j = Some (zat dofs i j, f)).
      { specialize (HR j Hj'). revert HR Ef. generalize (zat dofs i j). generalize (fe_shapes e d). clear. revert j. induction row as [|z row IH]; intros j fs g HR Ef; [destruct j; discriminate|].
        destruct fs as [|f0 fs]; [destruct j; discriminate|]. destruct j as [|j]; cbn in *; [congruence|]. apply IH; auto. }
      apply (map_nth_error (fun p => coefficient u (fst p) * snd p l)) in EC. exact EC.
  Qed.
End Transfer.
