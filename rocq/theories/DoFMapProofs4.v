(** Proofs about the numbering of degrees of freedom: the boundary and the whole mesh. *)
From Verif Require Import Util Lin MeshModel MeshProofs BoundaryProofs BoundaryProofs2 BoundaryProofs3 DoFMapModel DoFMapSpec DoFMapProofs DoFMapProofs2 DoFMapProofs3.
Set Default Proof Using "Type".

Local Notation unset := (- MAX_INT)%Z.

Section Mesh.
  Variables dpv dpe dpf dpc : nat.
  Local Notation sz := (sz dpv dpe dpf dpc).
  Local Notation alloc1 := (alloc1 dpv dpe dpf dpc).
  Local Notation lay := (lay dpv dpe dpf dpc).
  Local Notation blay := (blay dpv dpe dpf dpc).

  (** ** DoFs of the boundary *)
  Fixpoint bl (s : Z) (l : list entity) : list (entity * Z) :=
    match l with [] => [] | e :: l => (e, s) :: bl (s - Z.of_nat (sz e)) l end.
  Definition bend (s : Z) (l : list entity) : Z := (s - Z.of_nat (fold_right (fun e a => sz e + a)%nat 0%nat l))%Z.

  Lemma bl_fst s l : map fst (bl s l) = l.
  Proof. revert s. induction l as [|e l IH]; intros s; cbn; [reflexivity|]. f_equal. apply IH. Qed.
  Lemma bend_cons s e l : bend s (e :: l) = bend (s - Z.of_nat (sz e)) l.
  Proof. unfold bend. cbn. lia. Qed.
  Lemma bl_app s l l' : bl s (l ++ l') = bl s l ++ bl (bend s l) l'.
  Proof. revert s. induction l as [|e l IH]; intros s; cbn [app bl]; [unfold bend; cbn; f_equal; lia|]. rewrite IH, bend_cons. reflexivity. Qed.
  Lemma bend_app s l l' : bend s (l ++ l') = bend (bend s l) l'.
  Proof. revert s. induction l as [|e l IH]; intros s; cbn [app]; [unfold bend; cbn; lia|]. rewrite !bend_cons. apply IH. Qed.
  Lemma bl_blay s l : (forall e, In e l -> 0 < sz e) -> blay s (bl s l) (bend s l).
  Proof.
    revert s. induction l as [|e l IH]; intros s H; cbn [bl DoFMapProofs.blay]; [unfold bend; cbn; lia|]. split; [reflexivity|]. split; [apply H; left; reflexivity|].
    rewrite bend_cons. apply IH. intros e' He. apply H. right. exact He.
  Qed.
  Lemma bend_const s l n : (forall e, In e l -> sz e = n) -> bend s l = (s - Z.of_nat (length l * n)%nat)%Z.
  Proof.
    revert s. induction l as [|e l IH]; intros s H; [unfold bend; cbn; lia|]. rewrite bend_cons, IH by (intros e' He; apply H; right; exact He). rewrite (H e) by (left; reflexivity). cbn [length]. lia.
  Qed.
  Lemma look_skip D D' e : ~ In e (map fst D') -> look (D ++ D') e = look D e.
  Proof. intros H. rewrite look_app. destruct (look D e); [reflexivity|]. apply look_none. exact H. Qed.

  Variable nv : nat.
  Lemma bvertices bv : forall D vs b, Rv nv D vs -> NoDup bv -> (forall v, In v bv -> v < nv) -> (forall v, In v bv -> look D (EVertex v) = None) ->
    exists vs', for_list bv (fun v st => let '(vertices, b) := st in vertices <- aset vertices v b ;; Ok (vertices, (b - Z.of_nat dpv)%Z)) (vs, b) = Ok (vs', bend b (map EVertex bv)) /\
      Rv nv (D ++ bl b (map EVertex bv)) vs'.
  Proof.
    induction bv as [|v bv IH]; intros D vs b [HL HR] ND Hv HD.
    - exists vs. cbn. rewrite app_nil_r. split; [do 2 f_equal; unfold bend; cbn; lia|]. split; assumption.
    - assert (Hv0 : v < nv) by (apply Hv; left; reflexivity). inversion ND as [|? ? N1 N2]; subst. cbn [for_list]. rewrite aset_ok by lia. cbn [bind].
      destruct (IH (D ++ [(EVertex v, b)]) (upd vs v b) (b - Z.of_nat dpv)%Z) as (vs' & E & R').
      + split; [rewrite upd_length; reflexivity|]. intros w Hw. rewrite nth_error_upd, look_app, (HR w Hw). cbn [look]. destruct (Nat.eqb_spec v w) as [->|Hne].
        * destruct (Nat.ltb_spec w (length vs)); [|lia]. cbn [andb]. rewrite HD by (left; reflexivity). destruct (face_eq_dec (EVertex w) (EVertex w)); [reflexivity|congruence].
        * cbn [andb]. destruct (look D (EVertex w)); [reflexivity|]. destruct (face_eq_dec (EVertex v) (EVertex w)) as [E2|]; [injection E2; congruence|reflexivity].
      + exact N2.
      + intros w Hw. apply Hv. right. exact Hw.
      + intros w Hw. rewrite look_app, HD by (right; exact Hw). cbn [look]. destruct (face_eq_dec (EVertex v) (EVertex w)) as [E2|]; [injection E2 as ->; contradiction|reflexivity].
      + exists vs'. rewrite E. split; [cbn [map]; rewrite bend_cons; reflexivity|]. rewrite <- app_assoc in R'. exact R'.
  Qed.

  Lemma bedges be : forall D eV b, Re D eV -> NoDup (map (fun ab => the_edge (fst ab) (snd ab)) be) -> (forall ab, In ab be -> look D (the_edge (fst ab) (snd ab)) = None) ->
    let r := fold_left (fun st (e : nat * nat) => let '(eV, b) := st in (snd (enter_edge eV (sortE (fst e) (snd e)) b), (b - Z.of_nat dpe)%Z)) be (eV, b) in
    snd r = bend b (map (fun ab => the_edge (fst ab) (snd ab)) be) /\ Re (D ++ bl b (map (fun ab => the_edge (fst ab) (snd ab)) be)) (fst r).
  Proof.
    induction be as [|[x y] be IH]; intros D eV b [HN HR] ND HD.
    - cbn. rewrite app_nil_r. split; [unfold bend; cbn; lia|]. split; assumption.
    - cbn [map fst snd] in *. inversion ND as [|? ? N1 N2]; subst. cbn [fold_left fst snd].
      assert (H0 : look D (the_edge x y) = None) by (apply (HD (x, y)); left; reflexivity).
      assert (Hg : dget edge_eqb eV (sortE x y) = Err EKey) by (rewrite HR, sortE_edge, H0; reflexivity).
      assert (Ee : enter_edge eV (sortE x y) b = (b, dset edge_eqb eV (sortE x y) b)) by (unfold enter_edge; rewrite Hg; reflexivity). rewrite Ee. cbn [snd]. rewrite bend_cons. change (sz (the_edge x y)) with dpe.
      destruct (IH (D ++ [(the_edge x y, b)]) (dset edge_eqb eV (sortE x y) b) (b - Z.of_nat dpe)%Z) as (E & R').
      + split; [apply dset_nodup; [apply edge_eqb_spec|exact Hg|exact HN]|]. intros e. rewrite (dget_dset edge_eqb edge_eqb_spec), HR, look_app. cbn [look]. destruct (edge_eqb (sortE x y) e) eqn:Ef.
        * apply edge_eqb_spec in Ef. subst e. rewrite sortE_edge, H0. destruct (face_eq_dec (the_edge x y) (the_edge x y)); [reflexivity|congruence].
        * destruct (look D (ee e)); [reflexivity|]. destruct (face_eq_dec (the_edge x y) (ee e)) as [E2|]; [|reflexivity]. rewrite <- sortE_edge in E2. apply ee_inj in E2. subst e. rewrite (eqb_refl edge_eqb edge_eqb_spec) in Ef. discriminate.
      + exact N2.
      + intros ab Hab. rewrite look_app, HD by (right; exact Hab). cbn [look]. destruct (face_eq_dec (the_edge x y) (the_edge (fst ab) (snd ab))) as [E2|]; [|reflexivity]. exfalso. apply N1. rewrite E2. apply (in_map (fun ab => the_edge (fst ab) (snd ab)) be ab Hab).
      + split; [exact E|]. rewrite <- app_assoc in R'. exact R'.
  Qed.

  Definition sf (f : nat * nat * nat) : face := let '(x, y, z) := f in sortFace Nat.ltb x y z.
  Definition tf (f : nat * nat * nat) : entity := let '(x, y, z) := f in the_face x y z.
  Lemma sf_tf f : ff (sf f) = tf f.
  Proof. destruct f as [[x y] z]. apply sortFace_face. Qed.

  Lemma bfaces bf : forall seen D fV b, Rf true seen D 0 fV -> NoDup (map tf bf) -> (forall f, In f bf -> look D (tf f) = None) ->
    (forall f, In f bf -> ~ In (tf f) (map ff seen)) ->
    exists fV', for_list bf (fun f st => let '(fV, b) := st in let '(x, y, z) := f in
      '(_, fV) <- enter_face fV (sortFace Nat.ltb x y z) b ;; Ok (fV, (b - Z.of_nat dpf)%Z)) (fV, b) = Ok (fV', bend b (map tf bf)) /\
      Rf true (seen ++ map sf bf) (D ++ bl b (map tf bf)) 0 fV'.
  Proof.
    induction bf as [|f bf IH]; intros seen D fV b [HN HR] ND HD HS.
    - exists fV. cbn. rewrite !app_nil_r. split; [do 2 f_equal; unfold bend; cbn; lia|]. split; assumption.
    - cbn [map] in *. inversion ND as [|? ? N1 N2]; subst.
      assert (H0 : look D (tf f) = None) by (apply HD; left; reflexivity).
      assert (Hc : count_occ face_eq_dec (map ff seen) (ff (sf f)) = 0) by (apply count_occ_not_In; rewrite sf_tf; apply HS; left; reflexivity).
      assert (Hg : dget face_eqb fV (sf f) = Err EKey) by (pose proof (HR (sf f)) as Q; rewrite Hc in Q; apply Q).
      assert (Hcount : forall g, count_occ face_eq_dec (map ff (seen ++ [sf f])) (ff g) = count_occ face_eq_dec (map ff seen) (ff g) + if face_eq_dec (ff (sf f)) (ff g) then 1 else 0).
      { intros g. rewrite map_app, count_occ_app. change (map ff [sf f]) with [ff (sf f)]. destruct (face_eq_dec (ff (sf f)) (ff g)) as [E|E]; [rewrite count_occ_cons_eq by exact E|rewrite count_occ_cons_neq by exact E]; reflexivity. }
      cbn [for_list]. destruct f as [[x y] z]. cbn [sf tf] in *. unfold enter_face at 1. rewrite Hg. cbn [bind].
      destruct (IH (seen ++ [sortFace Nat.ltb x y z]) (D ++ [(the_face x y z, b)]) (dset face_eqb fV (sortFace Nat.ltb x y z) b) (b - Z.of_nat dpf)%Z) as (fV' & E & R').
      + split; [apply dset_nodup; [apply face_eqb_spec|exact Hg|exact HN]|]. intros g. rewrite Hcount. specialize (HR g). rewrite (dget_dset face_eqb face_eqb_spec), look_app. cbn [look].
        destruct (face_eqb (sortFace Nat.ltb x y z) g) eqn:Eg.
        * apply face_eqb_spec in Eg. subst g. rewrite Hc. destruct (face_eq_dec (ff (sortFace Nat.ltb x y z)) (ff (sortFace Nat.ltb x y z))); [|congruence]. cbn [Nat.add]. exists b. split; [reflexivity|]. left.
          rewrite sortFace_face, H0. destruct (face_eq_dec (the_face x y z) (the_face x y z)); [reflexivity|congruence].
        * assert (Hgne : ff (sortFace Nat.ltb x y z) <> ff g) by (intros E2; apply ff_inj in E2; subst g; rewrite (eqb_refl face_eqb face_eqb_spec) in Eg; discriminate).
          destruct (face_eq_dec (ff (sortFace Nat.ltb x y z)) (ff g)) as [E2|_]; [contradiction|]. rewrite Nat.add_0_r.
          destruct (count_occ face_eq_dec (map ff seen) (ff g)) as [|[|n]]; [|destruct HR as (b' & Hb & [H|(_ & _ & H)]); [exists b'; rewrite H; auto|discriminate]|exact HR].
          destruct HR as [HR1 HR2]. split; [exact HR1|]. rewrite HR2. rewrite sortFace_face in Hgne. destruct (face_eq_dec (the_face x y z) (ff g)); [contradiction|reflexivity].
      + exact N2.
      + intros g Hg'. rewrite look_app, HD by (right; exact Hg'). cbn [look]. destruct (face_eq_dec (the_face x y z) (tf g)) as [E2|]; [|reflexivity]. exfalso. apply N1. rewrite E2. apply in_map, Hg'.
      + intros g Hg'. rewrite map_app, in_app_iff. cbn [map]. rewrite sortFace_face. intros [H|[H|[]]]; [apply (HS g (or_intror Hg') H)|]. apply N1. rewrite H. apply in_map, Hg'.
      + exists fV'. rewrite E, bend_cons. rewrite <- !app_assoc in R'. split; [reflexivity|exact R'].
  Qed.

  (** The entities on the boundary that have DoFs *)
  Definition bents (bv : list nat) (be : list (nat * nat)) (bf : list (nat * nat * nat)) : list entity :=
    (if 0 <? dpv then map EVertex bv else []) ++ (if 0 <? dpe then map (fun ab => the_edge (fst ab) (snd ab)) be else []) ++ (if 0 <? dpf then map tf bf else []).
  Lemma bents_in bv be bf e : In e (bents bv be bf) <-> on_boundary bv be bf e /\ 0 < sz e.
  Proof.
    unfold bents, on_boundary. rewrite !in_app_iff. split.
    - intros [H|[H|H]].
      + destruct (Nat.ltb_spec 0 dpv) as [Hp|]; [|destruct H]. apply in_map_iff in H. destruct H as (v & <- & Hv). split; [left; eauto|exact Hp].
      + destruct (Nat.ltb_spec 0 dpe) as [Hp|]; [|destruct H]. apply in_map_iff in H. destruct H as ([a b] & <- & Hv). split; [right; left; eauto|exact Hp].
      + destruct (Nat.ltb_spec 0 dpf) as [Hp|]; [|destruct H]. apply in_map_iff in H. destruct H as ([[a b] c] & <- & Hv). split; [right; right; exists a, b, c; auto|exact Hp].
    - intros [[(v & Hv & ->)|[(a & b & Hv & ->)|(a & b & c & Hv & ->)]] Hp]; cbn in Hp.
      + left. destruct (Nat.ltb_spec 0 dpv); [|lia]. apply in_map, Hv.
      + right; left. destruct (Nat.ltb_spec 0 dpe); [|lia]. apply (in_map (fun ab => the_edge (fst ab) (snd ab)) be (a, b) Hv).
      + right; right. destruct (Nat.ltb_spec 0 dpf); [|lia]. apply (in_map tf bf (a, b, c) Hv).
  Qed.
  Lemma bents_NoDup bv be bf : NoDup bv -> NoDup (map (fun ab => the_edge (fst ab) (snd ab)) be) -> NoDup (map tf bf) -> NoDup (bents bv be bf).
  Proof.
    intros N1 N2 N3. unfold bents.
    assert (NApp : forall l l' : list entity, NoDup l -> NoDup l' -> (forall e, In e l -> ~ In e l') -> NoDup (l ++ l')).
    { clear. intros l l' H H'. induction H as [|x l Hx _ IH]; intros Hd; cbn; [exact H'|]. constructor.
      - rewrite in_app_iff. intros [G|G]; [auto|]. apply (Hd x); [left; reflexivity|exact G].
      - apply IH. intros e He. apply Hd. right. exact He. }
    apply NApp; [| |].
    - destruct (0 <? dpv); [|constructor]. apply FinFun.Injective_map_NoDup; [intros ? ? E; injection E; auto|exact N1].
    - apply NApp; [destruct (0 <? dpe); [exact N2|constructor]|destruct (0 <? dpf); [exact N3|constructor]|]. intros e He Hf.
      destruct (0 <? dpe); [|destruct He]. destruct (0 <? dpf); [|destruct Hf]. apply in_map_iff in He, Hf. destruct He as (? & <- & _), Hf as ([[? ?] ?] & Hf & _). discriminate.
    - intros e He Hf. destruct (0 <? dpv); [|destruct He]. apply in_map_iff in He. destruct He as (v & <- & _). apply in_app_iff in Hf as [Hf|Hf].
      + destruct (0 <? dpe); [|destruct Hf]. apply in_map_iff in Hf. destruct Hf as (? & Hf & _). discriminate.
      + destruct (0 <? dpf); [|destruct Hf]. apply in_map_iff in Hf. destruct Hf as ([[? ?] ?] & Hf & _). discriminate.
  Qed.

  Lemma boundary_ok md bv be bf : NoDup bv -> (forall v, In v bv -> v < nv) -> NoDup (map (fun ab => the_edge (fst ab) (snd ab)) be) -> NoDup (map tf bf) -> (md = 0 -> bv = []) ->
    exists vs fV,
      boundary_vertex_dofs dpv md nv bv (-1) = Ok (vs, bend (-1) (if 0 <? dpv then map EVertex bv else [])) /\
      let b1 := bend (-1) (if 0 <? dpv then map EVertex bv else []) in
      let r := boundary_edge_dofs dpe be b1 in
      snd r = bend b1 (if 0 <? dpe then map (fun ab => the_edge (fst ab) (snd ab)) be else []) /\
      boundary_face_dofs dpf bf (snd r) = Ok (fV, bend (-1) (bents bv be bf)) /\
      Inv dpf nv 0 true (map sf bf) (bl (-1) (bents bv be bf)) 0 vs (fst r) fV.
  Proof.
    intros N1 Hv N2 N3 H0.
    set (V := if 0 <? dpv then map EVertex bv else []). set (E := if 0 <? dpe then map (fun ab => the_edge (fst ab) (snd ab)) be else []). set (F := if 0 <? dpf then map tf bf else []).
    assert (Hvs : exists vs, boundary_vertex_dofs dpv md nv bv (-1) = Ok (vs, bend (-1) V) /\ Rv nv (bl (-1) V) vs).
    { assert (R0 : Rv nv [] (repeat MAX_INT nv)) by (split; [apply repeat_length|]; intros v Hv'; cbn [look]; clear -Hv'; revert v Hv'; induction nv as [|n IH]; intros [|v] H; cbn; try lia; [reflexivity|apply IH; lia]).
      unfold boundary_vertex_dofs, V. destruct (Nat.ltb_spec 0 dpv) as [Hp|Hp]; [destruct (Nat.ltb_spec 0 md) as [Hm|Hm]|]; cbn [andb].
      - destruct (bvertices bv [] (repeat MAX_INT nv) (-1)%Z R0 N1 Hv) as (vs & Ev & R1); [reflexivity|]. exists vs. split; [exact Ev|exact R1].
      - rewrite H0 by lia. exists (repeat MAX_INT nv). split; [reflexivity|exact R0].
      - exists (repeat MAX_INT nv). split; [reflexivity|exact R0]. }
    destruct Hvs as (vs & Ev & Rvs).
    assert (NV : forall e, (forall v, e <> EVertex v) -> ~ In e V) by (intros e He H; unfold V in H; destruct (0 <? dpv); [|destruct H]; apply in_map_iff in H; destruct H as (v & <- & _); apply (He v); reflexivity).
    assert (NE : forall e, (forall a b, e <> EEdge a b) -> ~ In e E) by (intros e He H; unfold E in H; destruct (0 <? dpe); [|destruct H]; apply in_map_iff in H; destruct H as (ab & <- & _); apply (He _ _ eq_refl)).
    assert (NF : forall e, (forall a b c, e <> EFace a b c) -> ~ In e F) by (intros e He H; unfold F in H; destruct (0 <? dpf); [|destruct H]; apply in_map_iff in H; destruct H as ([[a b] c] & <- & _); apply (He _ _ _ eq_refl)).
    set (b1 := bend (-1) V) in *.
    assert (Hes : snd (boundary_edge_dofs dpe be b1) = bend b1 E /\ Re (bl (-1) (V ++ E)) (fst (boundary_edge_dofs dpe be b1))).
    { assert (R0 : Re (bl (-1) V) []) by (split; [constructor|]; intros e; cbn; rewrite (proj2 (look_none _ _)); [reflexivity|rewrite bl_fst; apply NV; discriminate]).
      unfold boundary_edge_dofs, E. destruct (Nat.ltb_spec 0 dpe) as [Hp|Hp].
      - destruct (bedges be (bl (-1) V) [] b1 R0 N2) as (Es & R1); [intros ab _; apply look_none; rewrite bl_fst; apply NV; discriminate|]. split; [exact Es|]. rewrite bl_app. exact R1.
      - rewrite app_nil_r. split; [unfold bend; cbn; lia|exact R0]. }
    destruct Hes as (Es & Res).
    assert (Hfs : exists fV, boundary_face_dofs dpf bf (bend b1 E) = Ok (fV, bend (-1) (V ++ E ++ F)) /\ (0 < dpf -> Rf true (map sf bf) (bl (-1) (V ++ E ++ F)) 0 fV)).
    { unfold boundary_face_dofs, F. rewrite bend_app. fold b1. rewrite bend_app, (app_assoc V E), bl_app, bend_app. fold b1. destruct (Nat.ltb_spec 0 dpf) as [Hp|Hp].
      - assert (Hn : forall f, look (bl (-1) (V ++ E)) (ff f) = None) by (intros [[? ?] ?]; apply look_none; rewrite bl_fst, in_app_iff; intros [H|H]; [revert H; apply NV; discriminate|revert H; apply NE; discriminate]).
        assert (R0 : Rf true [] (bl (-1) (V ++ E)) 0 []) by (split; [constructor|]; intros f; cbn [map count_occ]; split; [reflexivity|apply Hn]).
        destruct (bfaces bf [] (bl (-1) (V ++ E)) [] (bend b1 E) R0 N3) as (fV & Ef & R1).
        + intros f _. rewrite <- sf_tf. apply Hn.
        + intros f _ [].
        + exists fV. split; [exact Ef|]. intros _. exact R1.
      - exists []. split; [do 2 f_equal; unfold bend; cbn; lia|lia]. }
    destruct Hfs as (fV & Ef & Rfs). exists vs, fV. split; [exact Ev|]. cbn zeta. rewrite Es. split; [reflexivity|]. split; [exact Ef|].
    change (bents bv be bf) with (V ++ E ++ F). split; [|split; [|split; [exact Rfs|]]].
    - destruct Rvs as [H1 H2]. split; [exact H1|]. intros v Hv'. rewrite (H2 v Hv'), bl_app, look_skip; [reflexivity|]. rewrite bl_fst, in_app_iff. intros [H|H]; [revert H; apply NE; discriminate|revert H; apply NF; discriminate].
    - destruct Res as [H1 H2]. split; [exact H1|]. intros e. rewrite (H2 e), (app_assoc V E), (bl_app _ (V ++ E)), (look_skip (bl (-1) (V ++ E))); [reflexivity|]. rewrite bl_fst. apply NF. discriminate.
    - intros j Hj. exfalso. apply Hj. apply look_none. rewrite bl_fst, !in_app_iff. intros [H|[H|H]]; revert H; [apply NV|apply NE|apply NF]; discriminate.
  Qed.

  (** ** Values *)
  Lemma lay_disjoint s Il t e b e' b' n n' : lay s Il t -> In (e, b) Il -> In (e', b') Il -> n < sz e -> n' < sz e' -> (b + Z.of_nat n = b' + Z.of_nat n')%Z -> e = e' /\ b = b'.
  Proof.
    revert s. induction Il as [|[x c] Il IH]; intros s; cbn [DoFMapProofs.lay]; [intros _ []|]. intros (-> & Hp & HL) [H|H] [H'|H'] Hn Hn' Hq.
    - injection H as <- <-. injection H' as <- <-. auto.
    - injection H as <- <-. destruct (lay_in _ _ _ _ _ _ _ _ _ HL H') as [Q _]. lia.
    - injection H' as <- <-. destruct (lay_in _ _ _ _ _ _ _ _ _ HL H) as [Q _]. lia.
    - apply (IH _ HL H H' Hn Hn' Hq).
  Qed.
  Lemma blay_disjoint s Il t e b e' b' n n' : blay s Il t -> In (e, b) Il -> In (e', b') Il -> n < sz e -> n' < sz e' -> (b - Z.of_nat n = b' - Z.of_nat n')%Z -> e = e' /\ b = b'.
  Proof.
    revert s. induction Il as [|[x c] Il IH]; intros s; cbn [DoFMapProofs.blay]; [intros _ []|]. intros (-> & Hp & HL) [H|H] [H'|H'] Hn Hn' Hq.
    - injection H as <- <-. injection H' as <- <-. auto.
    - injection H as <- <-. destruct (blay_in _ _ _ _ _ _ _ _ _ HL H') as [Q _]. lia.
    - injection H' as <- <-. destruct (blay_in _ _ _ _ _ _ _ _ _ HL H) as [Q _]. lia.
    - apply (IH _ HL H H' Hn Hn' Hq).
  Qed.
  Lemma lay_onto s Il t d : lay s Il t -> (s <= d < t)%Z -> exists e b, In (e, b) Il /\ (b <= d < b + Z.of_nat (sz e))%Z.
  Proof.
    revert s. induction Il as [|[x c] Il IH]; intros s; cbn [DoFMapProofs.lay]; [lia|]. intros (-> & Hp & HL) Hd. destruct (Z.ltb_spec d (s + Z.of_nat (sz x))).
    - exists x, s. split; [left; reflexivity|lia].
    - destruct (IH _ HL) as (e & b & H1 & H2); [lia|]. exists e, b. split; [right; exact H1|exact H2].
  Qed.
  Lemma blay_onto s Il t d : blay s Il t -> (t < d <= s)%Z -> exists e b, In (e, b) Il /\ (b - Z.of_nat (sz e) < d <= b)%Z.
  Proof.
    revert s. induction Il as [|[x c] Il IH]; intros s; cbn [DoFMapProofs.blay]; [lia|]. intros (-> & Hp & HL) Hd. destruct (Z.ltb_spec (s - Z.of_nat (sz x)) d).
    - exists x, s. split; [left; reflexivity|lia].
    - destruct (IH _ HL) as (e & b & H1 & H2); [lia|]. exists e, b. split; [right; exact H1|exact H2].
  Qed.

  Variable B : list (entity * Z).
  Variable nb : Z.
  Hypothesis HB : blay (-1) B nb.
  Local Notation good := (good dpv dpe dpf dpc B).

  Lemma val_inj D num e n e' n' : good D num -> look D e <> None -> look D e' <> None -> n < sz e -> n' < sz e' -> val D (e, n) = val D (e', n') -> (e, n) = (e', n').
  Proof using HB.
    intros HG H H' Hn Hn' Hv. destruct (look D e) as [b|] eqn:E; [|congruence]. destruct (look D e') as [b'|] eqn:E'; [|congruence]. clear H H'.
    destruct (good_look dpv dpe dpf dpc B nb HB D num e b HG E) as [_ Q]. destruct (good_look dpv dpe dpf dpc B nb HB D num e' b' HG E') as [_ Q'].
    unfold val in Hv. cbn [fst snd] in Hv. rewrite E, E' in Hv. destruct HG as (Il & -> & HL & ND).
    destruct Q as [[Hb HBe]|[Hb HBe]], Q' as [[Hb' HBe']|[Hb' HBe']].
    - rewrite !(proj2 (Z.leb_gt 0 _)) in Hv by lia. destruct (blay_disjoint _ _ _ _ _ _ _ _ _ HB (look_in _ _ _ HBe) (look_in _ _ _ HBe') Hn Hn' Hv) as [-> ->]. f_equal. lia.
    - rewrite (proj2 (Z.leb_gt 0 b)), (proj2 (Z.leb_le 0 b')) in Hv by lia. lia.
    - rewrite (proj2 (Z.leb_le 0 b)), (proj2 (Z.leb_gt 0 b')) in Hv by lia. lia.
    - rewrite !(proj2 (Z.leb_le 0 _)) in Hv by lia. rewrite look_app, HBe in E. rewrite look_app, HBe' in E'.
      destruct (lay_disjoint _ _ _ _ _ _ _ _ _ HL (look_in _ _ _ E) (look_in _ _ _ E') Hn Hn' Hv) as [-> ->]. f_equal. lia.
  Qed.
End Mesh.
