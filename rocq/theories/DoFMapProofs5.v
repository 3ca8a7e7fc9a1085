(** Proofs about the numbering of degrees of freedom: the numbering of the mesh. *)
From Verif Require Import Util Lin MeshModel MeshProofs MeshProofs4 BoundaryProofs BoundaryProofs2 BoundaryProofs3 DoFMapModel DoFMapSpec DoFMapProofs DoFMapProofs2 DoFMapProofs3 DoFMapProofs4.
Set Default Proof Using "Type".

Lemma dofs_on_in e n bw p : In p (dofs_on e n bw) <-> fst p = e /\ snd p < n.
Proof.
  unfold dofs_on. rewrite in_map_iff. split.
  - intros (m & <- & Hm). apply in_seq in Hm. cbn [fst snd]. destruct bw; split; auto; lia.
  - destruct p as [e' k]. cbn [fst snd]. intros [-> Hk]. exists (if bw then n - 1 - k else k). rewrite in_seq. destruct bw; split; try lia; f_equal; lia.
Qed.

Section Whole.
  Variables dpv dpe dpf dpc : nat.
  Local Notation sz := (sz dpv dpe dpf dpc).
  Local Notation alloc1 := (alloc1 dpv dpe dpf dpc).
  Variable md : nat.
  Local Notation pl := (places md dpv dpe dpf dpc).
  Local Notation ents := (ents dpv dpe dpf dpc md).

  Lemma flat_map_ents {X} (f : X -> list place) (g : X -> entity) n (l : list X) p : (forall x, exists bw, f x = dofs_on (g x) n bw) -> (forall x, sz (g x) = n) ->
    (In p (flat_map f l) <-> In (fst p) (if 0 <? n then map g l else []) /\ snd p < sz (fst p)).
  Proof.
    intros Hf Hg. rewrite in_flat_map. split.
    - intros (x & Hx & Hp). destruct (Hf x) as (bw & Ef). rewrite Ef in Hp. apply dofs_on_in in Hp as [E Hn]. rewrite E, Hg. split; [|exact Hn]. destruct (Nat.ltb_spec 0 n); [|lia]. apply in_map, Hx.
    - intros [H Hn]. destruct (Nat.ltb_spec 0 n); [|destruct H]. apply in_map_iff in H. destruct H as (x & Ex & Hx). exists x. split; [exact Hx|]. destruct (Hf x) as (bw & Ef). rewrite Ef. apply dofs_on_in. split; [auto|]. rewrite <- (Hg x), Ex. exact Hn.
  Qed.
  Lemma places_ents i c p : In p (pl i c) <-> In (fst p) (ents i c) /\ snd p < sz (fst p).
  Proof.
    unfold places, DoFMapProofs3.ents. rewrite !in_app_iff, <- (cell_es_places dpe), <- (cell_fs_places dpf).
    rewrite (flat_map_ents (fun v => dofs_on (EVertex v) dpv false) EVertex dpv c p) by (intros; eauto).
    rewrite (flat_map_ents (fun eo => dofs_on (ee (fst eo)) dpe (snd eo <? 0)%Z) (fun eo => ee (fst eo)) dpe (cell_es md c) p) by (intros; eauto).
    rewrite (flat_map_ents (fun f => dofs_on (ff f) dpf false) ff dpf (cell_fs md c) p) by (intros; eauto; destruct x as [[? ?] ?]; reflexivity).
    rewrite dofs_on_in. destruct (Nat.ltb_spec 0 dpc) as [Hp|Hp]; cbn [In].
    - split; [intros [H|[H|[H|[E H]]]]; try tauto; rewrite E; cbn [DoFMapProofs.sz]; tauto|]. intros [[H|[H|[H|[H|[]]]]] Hn]; try tauto. right; right; right. rewrite <- H in Hn. cbn [DoFMapProofs.sz] in Hn. auto.
    - split; [intros [H|[H|[H|[E H]]]]; try tauto; lia|tauto].
  Qed.

  Lemma fold_look_inv asg es st e : look (fst (fold_left (alloc1 asg) es st)) e <> None -> look (fst st) e <> None \/ asg = true /\ In e es.
  Proof.
    revert st. induction es as [|x es IH]; intros [D num] H; cbn [fold_left] in H; [left; exact H|]. destruct (IH _ H) as [H1|[H1 H2]]; [|right; cbn; auto].
    destruct (face_eq_dec e x) as [->|Hne].
    - unfold DoFMapProofs.alloc1 in H1. cbn [fst snd] in *. destruct (look D x) eqn:E; [left; congruence|]. destruct asg; [right; cbn; auto|]. cbn [fst] in H1. congruence.
    - rewrite alloc1_look_other in H1 by exact Hne. left. exact H1.
  Qed.

  Variables (nv : nat) (C : list (list nat)) (bv : list nat) (be : list (nat * nat)) (bf : list (nat * nat * nat)) (skip : Z).
  Hypothesis Hin : dofmap_input md nv C bv be bf.
  Hypothesis Hcounts : dofmap_counts md dpv dpe dpf bv be bf.
  Hypothesis Hdpf : dpf <= 1.
  Hypothesis Hdpe : dpe <= 1 \/ boundary_edges_forward md C be.
  Local Notation dpel := (dofs_per_element dpv dpe dpf dpc md).
  Hypothesis Hmax : (Z.of_nat (length C * dpel) <= MAX_INT)%Z.
  Local Notation upto := (cells_with_dofs (length C) skip).
  Local Notation bd := (bents dpv dpe dpf bv be bf).
  Local Notation B := (bl dpv dpe dpf dpc (-1) bd).
  Local Notation nb := (bend dpv dpe dpf dpc (-1) bd).
  Local Notation good := (good dpv dpe dpf dpc B).

  Lemma HB : blay dpv dpe dpf dpc (-1) B nb.
  Proof. apply bl_blay. intros e He. apply (bents_in dpv dpe dpf dpc) in He. apply He. Qed.
  Lemma B_in e : look B e <> None <-> on_boundary bv be bf e /\ 0 < sz e.
  Proof.
    rewrite <- (bents_in dpv dpe dpf dpc). rewrite <- (bl_fst dpv dpe dpf dpc (-1) bd) at 2. pose proof (look_none B e) as Q. destruct (look B e) as [b|] eqn:E.
    - split; [intros _|discriminate]. apply look_in in E. apply (in_map fst _ _ E).
    - split; [congruence|]. intros H. exfalso. apply Q; auto.
  Qed.

  Definition seen i := map sf bf ++ flat_map (cell_fs md) (firstn i C).
  Definition asg i := (Z.of_nat i <? (if (skip =? -1)%Z then Z.of_nat (length C) else skip))%Z.
  Lemma asg_spec i : i < length C -> asg i = true <-> i < upto.
  Proof. intros Hi. clear -Hi. unfold asg, cells_with_dofs. destruct (Z.eqb_spec skip (-1)); rewrite Z.ltb_lt; lia. Qed.

  Definition loop_state (i : nat) (D : list (entity * Z)) (num : Z) (dofs : list (list Z)) : Prop :=
    good D num /\ (num <= Z.of_nat (i * dpel))%Z /\ length dofs = i /\
    (forall j c, j < i -> nth_error C j = Some c -> nth_error dofs j = Some (map (val D) (pl j c))) /\
    (forall j c, j < i -> asg j = true -> nth_error C j = Some c -> assigned D (pl j c)) /\
    (forall e, look D e <> None -> look B e <> None \/ exists j c, j < i /\ asg j = true /\ nth_error C j = Some c /\ In e (ents j c)).

  Lemma seen_count i c f : nth_error C i = Some c -> count_occ face_eq_dec (map ff (seen i ++ cell_fs md c)) f <= 2.
  Proof using Hin.
    clear Hmax Hdpf Hdpe Hcounts. intros Hc. destruct Hin as (_ & _ & _ & _ & _ & _ & Hu). specialize (Hu f). unfold face_uses in Hu.
    assert (El : exists l, map (fun f0 => let '(x, y, z) := f0 in the_face x y z) bf ++ flat_map (fun c0 => map (fun f0 => let '(x, y, z) := f0 in the_face (nth x c0 0) (nth y c0 0) (nth z c0 0)) (local_faces md)) C = map ff (seen i ++ cell_fs md c) ++ l).
    { unfold seen. rewrite !map_app, map_map. exists (flat_map (fun c0 => map (fun f0 => let '(x, y, z) := f0 in the_face (nth x c0 0) (nth y c0 0) (nth z c0 0)) (local_faces md)) (skipn (S i) C)).
      rewrite <- !app_assoc. f_equal; [apply map_ext; intros g; rewrite sf_tf; reflexivity|].
      destruct (nth_error_split C i Hc) as (l1 & l2 & -> & Hl). rewrite flat_map_app. cbn [flat_map].
      rewrite <- Hl. rewrite firstn_at. replace (skipn (S (length l1)) (l1 ++ c :: l2)) with l2 by (replace (l1 ++ c :: l2) with ((l1 ++ [c]) ++ l2) by (rewrite <- app_assoc; reflexivity); replace (S (length l1)) with (length (l1 ++ [c])) by (rewrite app_length; cbn; lia); rewrite skipn_at; reflexivity).
      f_equal; [|f_equal].
      - clear. induction l1 as [|x l1 IH]; cbn [flat_map]; [reflexivity|]. rewrite map_app, IH, cell_fs_ff. reflexivity.
      - rewrite cell_fs_ff. reflexivity. }
    destruct El as (l & El). rewrite El, count_occ_app in Hu. lia.
  Qed.

  Lemma seen_S i c : nth_error C i = Some c -> seen (S i) = seen i ++ cell_fs md c.
  Proof. intros H. unfold seen. rewrite (MeshProofs4.firstn_S_nth C i c H), flat_map_app. cbn [flat_map]. rewrite app_nil_r, app_assoc. reflexivity. Qed.

  Lemma DoFMap_state : exists D dofs num, DoFMap md nv C bv be bf dpv dpe dpf dpc skip = Ok (dofs, num, (- nb - 1)%Z) /\ loop_state (length C) D num dofs.
  Proof using All.
    destruct Hin as (Hmd & HC & Nv & Hv & Ne & Nf & Hu). destruct Hcounts as (Hc1 & Hc2 & Hc3).
    destruct (boundary_ok dpv dpe dpf dpc nv md bv be bf Nv Hv Ne Nf Hc3) as (vs & fV & E1 & E2 & E3 & HI).
    unfold DoFMap. rewrite (proj2 (Nat.leb_le md 3) Hmd). cbn [guard bind]. rewrite E1. cbn [bind].
    destruct (boundary_edge_dofs dpe be _) as [eV b2]. cbn [fst snd] in *. rewrite E3. cbn [bind].
    loop_inv (fun i (st : list Z * list (edge * Z) * list (face * Z) * Z * list (list Z)) => let '(vs, eV, fV, num, dofs) := st in
      exists D, Inv dpf nv i (asg i) (seen i) D num vs eV fV /\ loop_state i D num dofs) st E HJ.
    - lia.
    - exists B. split.
      + destruct HI as (I1 & I2 & I3 & I4). split; [exact I1|]. split; [exact I2|]. split; [|exact I4]. intros Hp. unfold seen. cbn [firstn flat_map]. rewrite app_nil_r. destruct (asg 0); [apply I3, Hp|apply Rf_weaken, I3, Hp].
      + split; [|split; [lia|split; [reflexivity|split; [intros; lia|split; [intros; lia|intros e He; left; exact He]]]]].
        exists []. rewrite app_nil_r, bl_fst. split; [reflexivity|]. split; [reflexivity|]. apply bents_NoDup; assumption.
    - clear E1 E2 E3 HI vs eV fV. intros i [[[[vs eV] fV] num] dofs] Hi (D & HI & HG & Hle & Hlen & Hrows & Has & Hown).
      destruct (nth_error_lt C i) as (c & Hc); [lia|]. rewrite (aget_ok _ _ _ Hc). cbn [bind]. fold (asg i).
      assert (Hcin : In c C) by (apply (nth_error_In _ _ Hc)). destruct (HC c Hcin) as [Hlc Hvc].
      destruct (cell_ok dpv dpe dpf dpc B nb HB nv md i (asg i) c (seen i) D num vs eV fV) as (vs' & eV' & fV' & E & I' & G' & L' & A').
      + exact Hlc.
      + exact Hvc.
      + intros Hp. destruct (Nat.le_gt_cases md 1) as [H|H]; [specialize (Hc1 H); lia|lia].
      + intros Hp. destruct (Nat.le_gt_cases md 2) as [H|H]; [specialize (Hc2 H); lia|lia].
      + exact Hdpf.
      + intros e o He Ho HBe. destruct Hdpe as [H|H]; [exact H|]. exfalso. unfold cell_es in He. apply in_map_iff in He. destruct He as ([a b] & E & Hab). cbn [fst snd] in E. injection E as <- <-.
        apply B_in in HBe as [[(v & _ & HBe)|[(x & y & HBe & Exy)|(x & y & z & _ & HBe)]] _]; [discriminate| |discriminate]. rewrite sortE_edge in Exy.
        specialize (H c a b Hcin Hab ltac:(eauto)). lia.
      + intros f. apply seen_count, Hc.
      + exact HG.
      + assert (i * dpel + dpel <= length C * dpel) by (replace (i * dpel + dpel) with (S i * dpel) by (cbn; lia); apply Nat.mul_le_mono_r; lia). lia.
      + exact HI.
      + rewrite E. cbn [bind]. eexists. split; [reflexivity|]. set (st := fold_left (alloc1 (asg i)) (ents i c) (D, num)) in *. exists (fst st). split; [|split; [|split; [|split; [|split; [|split]]]]].
        * rewrite (seen_S i c Hc). destruct I' as (I1 & I2 & I3 & I4). split; [exact I1|]. split; [exact I2|]. split; [|exact I4]. intros Hp. specialize (I3 Hp).
          destruct (asg i) eqn:Ea; [destruct (asg (S i)); [exact I3|apply Rf_weaken, I3]|]. assert (asg (S i) = false) as -> by (unfold asg in *; apply Z.ltb_ge in Ea; apply Z.ltb_ge; lia). exact I3.
        * exact G'.
        * cbn [Nat.mul]. lia.
        * rewrite app_length, Hlen. cbn. lia.
        * intros j c' Hj Hj'. assert (j < i \/ j = i) as [Hji| ->] by lia.
          -- rewrite nth_error_app1 by lia. rewrite (Hrows j c' Hji Hj'). f_equal. symmetry. apply fold_stable. intros Ha. cbn [fst]. apply (Has j c' Hji); [|exact Hj']. unfold asg in *. apply Z.ltb_lt in Ha. apply Z.ltb_lt. lia.
          -- rewrite nth_error_app2, Hlen, Nat.sub_diag by lia. cbn [nth_error]. congruence.
        * intros j c' Hj Ha Hj'. assert (j < i \/ j = i) as [Hji| ->] by lia.
          -- apply fold_assigned. apply (Has j c' Hji Ha Hj').
          -- replace c' with c by congruence. apply A', Ha.
        * intros e He. apply fold_look_inv in He as [He|[Ha He]].
          -- destruct (Hown e He) as [H|(j & c' & Hj & Ha & Hj' & H)]; [left; exact H|]. right. exists j, c'. split; [lia|]. auto.
          -- right. exists i, c. split; [lia|]. auto.
    - rewrite E. destruct st as [[[[vs' eV'] fV'] num] dofs]. cbn [bind]. destruct HJ as (D & _ & HL). exists D, dofs, num. split; [reflexivity|exact HL].
  Qed.

  Theorem DoFMap_numbering : exists dofs num_dofs num_boundary_dofs,
    DoFMap md nv C bv be bf dpv dpe dpf dpc skip = Ok (dofs, num_dofs, num_boundary_dofs) /\
    num_boundary_dofs = Z.of_nat (length bv * dpv + length be * dpe + length bf * dpf) /\
    is_numbering pl C upto (on_boundary bv be bf) (dof_count dpv dpe dpf dpc) (- MAX_INT) dofs num_dofs num_boundary_dofs.
  Proof using All.
    destruct DoFMap_state as (D & dofs & num & E & HG & _ & Hlen & Hrows & Has & Hown). exists dofs, num, (- nb - 1)%Z. split; [exact E|].
    assert (Hnb : nb = (-1 - Z.of_nat (length bv * dpv + length be * dpe + length bf * dpf))%Z).
    { unfold bents. rewrite !bend_app. rewrite (bend_const _ _ _ _ _ _ dpf), (bend_const _ _ _ _ _ _ dpe), (bend_const _ _ _ _ _ _ dpv).
      - destruct (Nat.ltb_spec 0 dpv), (Nat.ltb_spec 0 dpe), (Nat.ltb_spec 0 dpf); cbn [length]; rewrite ?map_length; repeat match goal with H : ?x <= 0 |- _ => assert (x = 0) as -> by lia; clear H end; rewrite ?Nat.mul_0_r; lia.
      - intros e H. destruct (0 <? dpv); [|destruct H]. apply in_map_iff in H. destruct H as (? & <- & _). reflexivity.
      - intros e H. destruct (0 <? dpe); [|destruct H]. apply in_map_iff in H. destruct H as (? & <- & _). reflexivity.
      - intros e H. destruct (0 <? dpf); [|destruct H]. apply in_map_iff in H. destruct H as ([[? ?] ?] & <- & _). reflexivity. }
    split; [rewrite Hnb; lia|].
    assert (Hnum : forall p d, numbered pl C dofs p d -> d = val D p /\ exists i c, i < length C /\ nth_error C i = Some c /\ In (fst p) (ents i c) /\ snd p < sz (fst p)).
    { intros p d (i & c & row & j & H1 & H2 & H3 & H4). assert (Hi : i < length C) by (apply nth_error_Some; congruence). rewrite (Hrows i c Hi H1) in H2. injection H2 as <-.
      rewrite nth_error_map, H3 in H4. injection H4 as <-. split; [reflexivity|]. exists i, c. split; [exact Hi|]. split; [exact H1|]. apply places_ents. apply (nth_error_In _ _ H3). }
    assert (Hnum' : forall p i c, nth_error C i = Some c -> In (fst p) (ents i c) -> snd p < sz (fst p) -> numbered pl C dofs p (val D p)).
    { intros p i c H1 H2 H3. assert (Hi : i < length C) by (apply nth_error_Some; congruence). destruct (In_nth_error _ _ (proj2 (places_ents i c p) (conj H2 H3))) as (j & Hj).
      exists i, c, (map (val D) (pl i c)), j. split; [exact H1|]. split; [apply Hrows; assumption|]. split; [exact Hj|]. rewrite nth_error_map, Hj. reflexivity. }
    assert (Hcells : forall e k, in_cells pl C k e <-> exists i c, i < k /\ nth_error C i = Some c /\ In e (ents i c) /\ 0 < sz e).
    { intros e k. split.
      - intros (i & c & n & H1 & H2 & H3). apply places_ents in H3 as [H3 H4]. cbn [fst snd] in *. exists i, c. repeat split; auto. lia.
      - intros (i & c & H1 & H2 & H3 & H4). exists i, c, 0. split; [exact H1|]. split; [exact H2|]. apply places_ents. auto. }
    assert (Hgiven : forall e, 0 < sz e -> (on_boundary bv be bf e \/ in_cells pl C upto e <-> look D e <> None)).
    { intros e Hs. split.
      - intros [H|H].
        + assert (Hb : look B e <> None) by (apply B_in; auto). destruct HG as (Il & -> & _). rewrite look_app. destruct (look B e); congruence.
        + apply Hcells in H as (i & c & H1 & H2 & H3 & H4). assert (Hi : i < length C) by (apply nth_error_Some; congruence).
          apply (Has i c Hi (proj2 (asg_spec i Hi) H1) H2 (e, 0)). apply places_ents. auto.
      - intros H. destruct (Hown e H) as [Hb|(j & c & Hj & Ha & Hc & He)]; [left; apply B_in in Hb; apply Hb|]. right. apply Hcells. exists j, c. split; [apply asg_spec; assumption|]. auto. }
    assert (Hval : forall e n b, look D e = Some b -> n < sz e -> (look B e <> None /\ nb < val D (e, n) < 0)%Z \/ (look B e = None /\ 0 <= val D (e, n) < num)%Z).
    { intros e n b Hl Hn. destruct (good_look dpv dpe dpf dpc B nb HB D num e b HG Hl) as [_ [[Hb Hb']|[Hb Hb']]]; unfold val; cbn [fst snd]; rewrite Hl.
      - left. split; [congruence|]. rewrite (proj2 (Z.leb_gt 0 b)) by lia. destruct (blay_in _ _ _ _ _ _ _ _ _ HB (look_in _ _ _ Hb')) as [Q _]. lia.
      - right. split; [exact Hb'|]. rewrite (proj2 (Z.leb_le 0 b)) by lia. lia. }
    split; [exact Hlen|]. split; [|split; [|split; [|split; [|split; [|split]]]]].
    - intros i c row H1 H2. rewrite (Hrows i c) in H2 by (auto; apply nth_error_Some; congruence). injection H2 as <-. apply map_length.
    - intros [e n] d [e' n'] d' H1 H2 G1 G2. destruct (Hnum _ _ H1) as [-> (i & c & _ & _ & _ & Hn)], (Hnum _ _ H2) as [-> (i' & c' & _ & _ & _ & Hn')]. cbn [fst snd] in *.
      split; [|intros E'; injection E' as -> ->; reflexivity]. apply (val_inj dpv dpe dpf dpc B nb HB D num); auto; apply Hgiven; auto; lia.
    - intros [e n] d H1 G1. destruct (Hnum _ _ H1) as [-> (i & c & _ & _ & _ & Hn)]. cbn [fst snd] in *. assert (Hl : look D e <> None) by (apply Hgiven; [lia|auto]).
      destruct (look D e) as [b|] eqn:El; [|congruence]. destruct (Hval e n b El Hn) as [[_ Q]|[Q _]]; [lia|]. exfalso. assert (look B e <> None); [|congruence]. apply B_in. split; [exact G1|lia].
    - intros [e n] d H1 G1 G2. destruct (Hnum _ _ H1) as [-> (i & c & _ & _ & _ & Hn)]. cbn [fst snd] in *. assert (Hl : look D e <> None) by (apply Hgiven; [lia|auto]).
      destruct (look D e) as [b|] eqn:El; [|congruence]. destruct (Hval e n b El Hn) as [[Q _]|[_ Q]]; [|exact Q]. exfalso. apply G1. apply B_in in Q. apply Q.
    - intros [e n] d H1 G1. destruct (Hnum _ _ H1) as [-> (i & c & _ & _ & _ & Hn)]. cbn [fst snd] in *. unfold val. cbn [fst]. destruct (look D e) as [b|] eqn:El; [|reflexivity]. exfalso. apply G1. apply Hgiven; [lia|congruence].
    - intros d Hd. destruct HG as (Il & ED & HL & ND). destruct (lay_onto _ _ _ _ _ _ _ d HL Hd) as (e & b & Hin' & Hb).
      assert (Hl : look D e = Some b) by (apply look_some; [exact ND|]; rewrite ED, in_app_iff; auto).
      destruct (lay_in _ _ _ _ _ _ _ _ _ HL Hin') as [Hb0 Hs].
      assert (HBn : look B e = None).
      { apply look_none. intros H. rewrite ED, map_app in ND. apply (in_map fst) in Hin'. cbn [fst] in Hin'. clear -ND H Hin'. induction (map fst B) as [|x l IH]; cbn in *; [exact H|]. inversion ND as [|? ? N1 N2]; subst. destruct H as [->|H]; [|auto]. apply N1. rewrite in_app_iff. auto. }
      assert (Hnbd : ~ on_boundary bv be bf e) by (intros H; apply (proj2 (B_in e)); auto).
      destruct (Hown e ltac:(congruence)) as [H|(j & c & Hj & Ha & Hc & He)]; [congruence|].
      exists (e, Z.to_nat (d - b)). cbn [fst]. split; [exact Hnbd|]. split; [apply Hcells; exists j, c; split; [apply asg_spec; assumption|auto]|].
      assert (Ev : val D (e, Z.to_nat (d - b)) = d) by (unfold val; cbn [fst snd]; rewrite Hl, (proj2 (Z.leb_le 0 b)) by lia; lia). pose proof (Hnum' (e, Z.to_nat (d - b)) j c Hc He ltac:(cbn [fst snd]; lia)) as Q. rewrite Ev in Q. exact Q.
    - intros Hall d Hd. destruct (blay_onto _ _ _ _ _ _ _ d HB) as (e & b & Hin' & Hb); [lia|].
      destruct (blay_in _ _ _ _ _ _ _ _ _ HB Hin') as [Hb0 Hs].
      destruct HG as (Il & ED & HL & ND). assert (Hl : look D e = Some b) by (apply look_some; [exact ND|]; rewrite ED, in_app_iff; auto).
      assert (Hbd : on_boundary bv be bf e) by (apply (in_map fst) in Hin'; rewrite bl_fst in Hin'; cbn [fst] in Hin'; apply (bents_in dpv dpe dpf dpc) in Hin'; apply Hin').
      destruct (proj1 (Hcells e (length C)) (Hall e Hbd Hs)) as (j & c & Hj & Hc & He & _).
      exists (e, Z.to_nat (b - d)). cbn [fst]. split; [exact Hbd|].
      assert (Ev : val D (e, Z.to_nat (b - d)) = d) by (unfold val; cbn [fst snd]; rewrite Hl, (proj2 (Z.leb_gt 0 b)) by lia; lia). pose proof (Hnum' (e, Z.to_nat (b - d)) j c Hc He ltac:(cbn [fst snd]; lia)) as Q. rewrite Ev in Q. exact Q.
  Qed.
End Whole.
