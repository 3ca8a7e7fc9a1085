(** Proofs about the numbering of degrees of freedom: vertices, edges and faces. *)
From Verif Require Import Util Lin MeshModel MeshProofs BoundaryProofs BoundaryProofs2 DoFMapModel DoFMapSpec DoFMapProofs.

Local Notation unset := (- MAX_INT)%Z.

Lemma face_eqb_spec f g : face_eqb f g = true <-> f = g.
Proof.
  destruct f as [[a b] c], g as [[x y] z]. cbn. rewrite !andb_true_iff, !Nat.eqb_eq. split; [intros [[-> ->] ->]; reflexivity|intros E; injection E as -> -> ->; auto].
Qed.

Section Dict.
  Context {K V : Type}.
  Variable eqb : K -> K -> bool.
  Hypothesis eqb_spec : forall a b, eqb a b = true <-> a = b.
  Lemma eqb_refl k : eqb k k = true.
  Proof using eqb_spec. apply eqb_spec. reflexivity. Qed.
  Lemma eqb_neq k k' : k <> k' -> eqb k k' = false.
  Proof using eqb_spec. intros H. destruct (eqb k k') eqn:E; [apply eqb_spec in E; contradiction|reflexivity]. Qed.

  Lemma dget_dset (d : list (K * V)) k v k' : dget eqb (dset eqb d k v) k' = if eqb k k' then Ok v else dget eqb d k'.
  Proof using eqb_spec.
    induction d as [|[y w] d IH]; cbn; [reflexivity|]. destruct (eqb y k) eqn:E; cbn.
    - apply eqb_spec in E. subst y. destruct (eqb k k'); reflexivity.
    - rewrite IH. destruct (eqb y k') eqn:E'; [|reflexivity]. apply eqb_spec in E'. subst k'. destruct (eqb k y) eqn:E2; [|reflexivity]. apply eqb_spec in E2. subst y. rewrite eqb_refl in E. discriminate.
  Qed.
  Lemma dget_err (d : list (K * V)) k e : dget eqb d k = Err e -> e = EKey.
  Proof. induction d as [|[y w] d IH]; cbn; [congruence|]. destruct (eqb y k); [discriminate|auto]. Qed.
  Lemma dset_nodup (d : list (K * V)) k v : NoDup (map fst d) -> NoDup (map fst (dset eqb d k v)).
  Proof using eqb_spec.
    intros N. destruct (dget_dec eqb eqb_spec d k) as [(w & Hw & _)|(Hw & _)].
    - assert (map fst (dset eqb d k v) = map fst d) as ->; [|exact N]. clear N Hw. induction d as [|[y u] d IH]; cbn in *.
      + Abort.
  Lemma dset_nodup (d : list (K * V)) k v : dget eqb d k = Err EKey -> NoDup (map fst d) -> NoDup (map fst (dset eqb d k v)).
  Proof using eqb_spec.
    intros H N. destruct (dget_dec eqb eqb_spec d k) as [(w & _ & Hw)|(Hw & _)]; [congruence|].
    rewrite (dset_notin eqb eqb_spec) by exact Hw. rewrite map_app. cbn. apply NoDup_app_one; auto.
  Qed.
  Lemma ddel_ok (d : list (K * V)) k v : NoDup (map fst d) -> dget eqb d k = Ok v ->
    exists d', ddel eqb d k = Ok d' /\ NoDup (map fst d') /\ forall k', dget eqb d' k' = if eqb k k' then Err EKey else dget eqb d k'.
  Proof using eqb_spec.
    induction d as [|[y w] d IH]; cbn; [discriminate|]. intros N H. inversion N as [|? ? N1 N2]; subst. destruct (eqb y k) eqn:E.
    - apply eqb_spec in E. subst y. exists d. split; [reflexivity|]. split; [exact N2|]. intros k'. destruct (eqb k k') eqn:E; [|reflexivity]. apply eqb_spec in E. subst k'. apply (dget_notin eqb eqb_spec). exact N1.
    - destruct (IH N2 H) as (d' & Ed & Nd & Hd). rewrite Ed. cbn. exists ((y, w) :: d'). split; [reflexivity|]. split.
      + cbn. constructor; [|exact Nd]. intros Hy. apply in_map_iff in Hy. destruct Hy as ([y' u] & Ey & Hy). cbn in Ey. subst y'.
        pose proof (dget_in eqb eqb_spec d' y u Nd Hy) as G. rewrite Hd in G. destruct (eqb k y) eqn:E2; [discriminate|].
        apply N1. destruct (dget_dec eqb eqb_spec d y) as [(z & Hz & _)|(_ & Hz)]; [|congruence]. apply in_map_iff. exists (y, z). auto.
      + intros k'. cbn. rewrite Hd. destruct (eqb y k') eqn:E1; [|reflexivity]. apply eqb_spec in E1. subst k'. destruct (eqb k y) eqn:E2; [|reflexivity]. apply eqb_spec in E2. subst y. rewrite eqb_refl in E. discriminate.
  Qed.
End Dict.

Section Steps.
  Variables dpv dpe dpf dpc : nat.
  Local Notation sz := (sz dpv dpe dpf dpc).
  Local Notation alloc1 := (alloc1 dpv dpe dpf dpc).
  Variable B : list (entity * Z).
  Variable nb : Z.
  Hypothesis HB : blay dpv dpe dpf dpc (-1) B nb.
  Local Notation good := (good dpv dpe dpf dpc B).

  (** ** Vertices *)
  Variable nv : nat.
  Definition Rv (D : list (entity * Z)) (vertices : list Z) : Prop :=
    length vertices = nv /\ forall v, v < nv -> nth_error vertices v = Some match look D (EVertex v) with Some b => b | None => MAX_INT end.

  Lemma Rv_other asg D num e vertices : (forall v, e <> EVertex v) -> Rv D vertices -> Rv (fst (alloc1 asg (D, num) e)) vertices.
  Proof. intros He [H1 H2]. split; [exact H1|]. intros v Hv. rewrite alloc1_look_other by (intros E; apply (He v); auto). apply H2, Hv. Qed.

  Lemma vertex_step asg c done v todo D num vertices row rest : c = done ++ v :: todo -> (forall v, In v c -> v < nv) -> 0 < dpv ->
    good D num -> (num + Z.of_nat dpv <= MAX_INT)%Z -> Rv D vertices -> length row = length done * dpv ->
    let st := alloc1 asg (D, num) (EVertex v) in
    exists vertices', (v0 <- aget c (length done) ;; dof <- aget vertices v0 ;;
      if negb (dof =? MAX_INT)%Z then
        r <- write_run (row ++ repeat unset dpv ++ rest) (length done * dpv) dpv dof (if (0 <=? dof)%Z then 1 else -1)%Z ;; Ok (vertices, r, num)
      else if asg then vertices <- aset vertices v0 num ;; r <- write_run (row ++ repeat unset dpv ++ rest) (length done * dpv) dpv num 1 ;; Ok (vertices, r, (num + Z.of_nat dpv)%Z)
      else Ok (vertices, row ++ repeat unset dpv ++ rest, num))
      = Ok (vertices', row ++ map (val (fst st)) (dofs_on (EVertex v) dpv false) ++ rest, snd st) /\ Rv (fst st) vertices'.
  Proof using HB.
    intros Hc Hnv Hpos HG HN [HL HR] Hrow st.
    assert (Hv : v < nv) by (apply Hnv; rewrite Hc, in_app_iff; right; left; reflexivity).
    rewrite (aget_ok c (length done) v) by (rewrite Hc, nth_error_app2, Nat.sub_diag by lia; reflexivity). cbn [bind].
    rewrite (aget_ok _ _ _ (HR v Hv)). cbn [bind]. subst st. unfold DoFMapProofs.alloc1. cbn [fst snd]. destruct (look D (EVertex v)) as [b|] eqn:E.
    - destruct (good_look dpv dpe dpf dpc B nb HB D num _ b HG E) as (Hs & Hb). cbn [DoFMapProofs.sz] in Hs, Hb.
      assert (Hne : (b =? MAX_INT)%Z = false) by (apply Z.eqb_neq; unfold MAX_INT in *; lia). rewrite Hne. cbn [negb fst snd].
      rewrite write_run_ok by (rewrite ?repeat_length; auto). cbn [bind]. exists vertices. split; [|split; assumption]. do 2 f_equal. f_equal. f_equal. f_equal.
      destruct (Z.leb_spec 0 b) as [Hb0|Hb0]; [rewrite (val_up D _ _ b E Hb0)|rewrite (val_down D _ _ b E Hb0)]; reflexivity.
    - rewrite Z.eqb_refl. cbn [negb]. destruct asg; cbn [fst snd].
      + rewrite aset_ok by lia. cbn [bind]. rewrite write_run_ok by (rewrite ?repeat_length; auto). cbn [bind]. eexists. split.
        * do 2 f_equal. f_equal. f_equal. f_equal. rewrite (val_up _ _ _ num); [reflexivity| |apply (good_num _ _ _ _ _ _ _ HG)].
          rewrite look_app, E. cbn [look]. destruct (face_eq_dec _ _); congruence.
        * split; [rewrite upd_length; exact HL|]. intros w Hw. rewrite nth_error_upd. rewrite look_app, (HR w Hw). cbn [look].
          destruct (Nat.eqb_spec v w) as [->|Hne].
          -- destruct (Nat.ltb_spec w (length vertices)); [|lia]. rewrite E. destruct (face_eq_dec (EVertex w) (EVertex w)); [reflexivity|congruence].
          -- destruct (look D (EVertex w)); [reflexivity|]. destruct (face_eq_dec (EVertex v) (EVertex w)) as [E2|]; [injection E2; congruence|reflexivity].
      + exists vertices. split; [|split; assumption]. rewrite (val_none D _ _ _ E). reflexivity.
  Qed.

  (** ** Edges *)
  Definition ee (e : edge) : entity := EEdge (fst e) (snd e).
  Definition Re (D : list (entity * Z)) (eV : list (edge * Z)) : Prop :=
    NoDup (map fst eV) /\ forall e, dget edge_eqb eV e = match look D (ee e) with Some b => Ok b | None => Err EKey end.
  Lemma ee_inj e f : ee e = ee f -> e = f.
  Proof. destruct e, f. unfold ee. cbn. intros H. injection H as -> ->. reflexivity. Qed.

  Lemma Re_other asg D num e eV : (forall f, e <> ee f) -> Re D eV -> Re (fst (alloc1 asg (D, num) e)) eV.
  Proof. intros He [H1 H2]. split; [exact H1|]. intros f. rewrite alloc1_look_other by (intros E; apply (He f); auto). apply H2. Qed.

  Lemma edge_step asg es done e o todo D num eV row rest base : es = done ++ (e, o) :: todo -> 0 < dpe ->
    ((o < 0)%Z -> look B (ee e) <> None -> dpe = 1) ->
    good D num -> Re D eV -> length row = base + length done * dpe ->
    let st := alloc1 asg (D, num) (ee e) in
    exists eV', ('(e, o) <- aget es (length done) ;;
      let '(dof, eV) := enter_edge eV e num in
      if (dof =? num)%Z then
        let dof := if (o <? 0)%Z then (dof + (Z.of_nat dpe - 1))%Z else dof in
        if asg then
          r <- write_run (row ++ repeat unset dpe ++ rest) (base + length done * dpe) dpe dof (if (o <? 0)%Z then -1 else 1)%Z ;;
          Ok (eV, r, (num + Z.of_nat dpe)%Z)
        else eV <- ddel edge_eqb eV e ;; Ok (eV, row ++ repeat unset dpe ++ rest, num)
      else if (0 <=? dof)%Z then
        let dof := if (o <? 0)%Z then (dof + (Z.of_nat dpe - 1))%Z else dof in
        r <- write_run (row ++ repeat unset dpe ++ rest) (base + length done * dpe) dpe dof (if (o <? 0)%Z then -1 else 1)%Z ;;
        Ok (eV, r, num)
      else
        let dof := if (o <? 0)%Z then (dof + (Z.of_nat dpe - 1))%Z else dof in
        r <- write_run (row ++ repeat unset dpe ++ rest) (base + length done * dpe) dpe dof (if (o <? 0)%Z then 1 else -1)%Z ;;
        Ok (eV, r, num))
      = Ok (eV', row ++ map (val (fst st)) (dofs_on (ee e) dpe (o <? 0)%Z) ++ rest, snd st) /\ Re (fst st) eV'.
  Proof using HB.
    intros Hes Hpos Ho HG [HN HR] Hrow st.
    rewrite (aget_ok es (length done) (e, o)) by (rewrite Hes, nth_error_app2, Nat.sub_diag by lia; reflexivity). cbn [bind].
    unfold enter_edge. rewrite HR. subst st. unfold DoFMapProofs.alloc1. cbn [fst snd]. destruct (look D (ee e)) as [b|] eqn:E.
    - destruct (good_look dpv dpe dpf dpc B nb HB D num _ b HG E) as (Hs & Hb). cbn [DoFMapProofs.sz ee] in Hs, Hb. pose proof (good_num _ _ _ _ _ _ _ HG) as H0.
      assert (Hne : (b =? num)%Z = false) by (apply Z.eqb_neq; unfold sz in *; cbn in *; lia). rewrite Hne. cbn [fst snd]. exists eV.
      destruct (Z.leb_spec 0 b) as [Hb0|Hb0].
      + cbn zeta. rewrite write_run_ok by (rewrite ?repeat_length; auto). cbn [bind]. split; [|split; assumption]. do 2 f_equal. f_equal. f_equal. f_equal.
        destruct (o <? 0)%Z; [rewrite (val_up_back D _ _ b E Hb0)|rewrite (val_up D _ _ b E Hb0)]; reflexivity.
      + cbn zeta. rewrite write_run_ok by (rewrite ?repeat_length; auto). cbn [bind]. split; [|split; assumption]. do 2 f_equal. f_equal. f_equal. f_equal.
        destruct (Z.ltb_spec o 0) as [Ho0|Ho0].
        * assert (E1 : dpe = 1) by (apply (Ho Ho0); destruct Hb as [[_ H]|[H _]]; [congruence|lia]). rewrite E1. cbn. unfold val. cbn [fst snd]. rewrite E. replace (0 <=? b)%Z with false by (symmetry; apply Z.leb_gt; exact Hb0). f_equal. lia.
        * rewrite (val_down D _ _ b E Hb0). reflexivity.
    - rewrite Z.eqb_refl. cbn zeta. destruct asg; cbn [fst snd].
      + rewrite write_run_ok by (rewrite ?repeat_length; auto). cbn [bind]. eexists. split.
        * do 2 f_equal. f_equal. f_equal. f_equal. assert (El : look (D ++ [(ee e, num)]) (ee e) = Some num) by (rewrite look_app, E; cbn [look]; destruct (face_eq_dec _ _); congruence).
          destruct (o <? 0)%Z; [rewrite (val_up_back _ _ _ num El (good_num _ _ _ _ _ _ _ HG))|rewrite (val_up _ _ _ num El (good_num _ _ _ _ _ _ _ HG))]; reflexivity.
        * split; [apply dset_nodup; [apply edge_eqb_spec|rewrite HR, E; reflexivity|exact HN]|]. intros f. rewrite (dget_dset edge_eqb edge_eqb_spec), HR, look_app. cbn [look].
          destruct (edge_eqb e f) eqn:Ef.
          -- apply edge_eqb_spec in Ef. subst f. rewrite E. destruct (face_eq_dec _ _); [reflexivity|congruence].
          -- destruct (look D (ee f)); [reflexivity|]. destruct (face_eq_dec (ee e) (ee f)) as [E2|]; [|reflexivity]. apply ee_inj in E2. subst f. rewrite (eqb_refl edge_eqb edge_eqb_spec) in Ef. discriminate.
      + destruct (ddel_ok edge_eqb edge_eqb_spec (dset edge_eqb eV e num) e num) as (eV' & Ed & Nd & Hd).
        * apply dset_nodup; [apply edge_eqb_spec|rewrite HR, E; reflexivity|exact HN].
        * rewrite (dget_dset edge_eqb edge_eqb_spec), (eqb_refl edge_eqb edge_eqb_spec). reflexivity.
        * rewrite Ed. cbn [bind]. exists eV'. split; [rewrite (val_none D _ _ _ E); reflexivity|]. split; [exact Nd|]. intros f. rewrite Hd, (dget_dset edge_eqb edge_eqb_spec).
          destruct (edge_eqb e f) eqn:Ef; [|apply HR]. apply edge_eqb_spec in Ef. subst f. rewrite E. reflexivity.
  Qed.

  (** ** Faces *)
  Definition ff (f : face) : entity := let '(x, y, z) := f in EFace x y z.
  Lemma ff_inj e f : ff e = ff f -> e = f.
  Proof. destruct e as [[? ?] ?], f as [[? ?] ?]. cbn. intros H. injection H as -> -> ->. reflexivity. Qed.
  (** [seen]: the uses of faces so far. Entries of faces without DoFs (only once no more
      DoFs are assigned) hold the current counter. *)
  Definition Rf (asg : bool) (seen : list face) (D : list (entity * Z)) (num : Z) (fV : list (face * Z)) : Prop :=
    NoDup (map fst fV) /\ forall f,
      match count_occ face_eq_dec (map ff seen) (ff f) with
      | 0 => dget face_eqb fV f = Err EKey /\ look D (ff f) = None
      | 1 => exists b, dget face_eqb fV f = Ok b /\ (look D (ff f) = Some b \/ (look D (ff f) = None /\ b = num /\ asg = false))
      | _ => dget face_eqb fV f = Err EKey
      end.

  Lemma Rf_other asg seen D num e fV : (forall f, e <> ff f) -> Rf asg seen D num fV ->
    Rf asg seen (fst (alloc1 asg (D, num) e)) (snd (alloc1 asg (D, num) e)) fV.
  Proof.
    intros He [H1 H2]. split; [exact H1|]. intros f. specialize (H2 f). rewrite alloc1_look_other by (intros E; apply (He f); auto).
    destruct (count_occ _ _ _) as [|[|n]]; [exact H2| |exact H2]. destruct H2 as (b & Hb & [H|(H & -> & Ha)]); eexists; (split; [exact Hb|]); [left; exact H|right].
    split; [exact H|]. split; [|exact Ha]. unfold DoFMapProofs.alloc1. cbn [fst snd]. subst asg. destruct (look D e); reflexivity.
  Qed.
  Lemma Rf_weaken seen D num fV : Rf true seen D num fV -> Rf false seen D num fV.
  Proof.
    intros [H1 H2]. split; [exact H1|]. intros f. specialize (H2 f). destruct (count_occ _ _ _) as [|[|n]]; [exact H2| |exact H2].
    destruct H2 as (b & Hb & [H|(_ & _ & H)]); [|discriminate]. exists b. auto.
  Qed.

  Lemma face_step asg seen fs done f todo D num fV row rest base : fs = done ++ f :: todo -> dpf = 1 ->
    count_occ face_eq_dec (map ff (seen ++ done)) (ff f) <= 1 ->
    good D num -> Rf asg (seen ++ done) D num fV -> length row = base + length done * dpf ->
    let st := alloc1 asg (D, num) (ff f) in
    exists fV', (f <- aget fs (length done) ;;
      '(dof, fV) <- enter_face fV f num ;;
      if (dof =? num)%Z then
        if asg then
          r <- write_run (row ++ repeat unset dpf ++ rest) (base + length done * dpf) dpf dof 1 ;;
          Ok (fV, r, (num + Z.of_nat dpf)%Z)
        else Ok (fV, row ++ repeat unset dpf ++ rest, num)
      else if (0 <=? dof)%Z then
        r <- write_run (row ++ repeat unset dpf ++ rest) (base + length done * dpf) dpf (dof + (Z.of_nat dpf - 1))%Z (-1) ;;
        Ok (fV, r, num)
      else
        r <- write_run (row ++ repeat unset dpf ++ rest) (base + length done * dpf) dpf dof (-1) ;;
        Ok (fV, r, num))
      = Ok (fV', row ++ map (val (fst st)) (dofs_on (ff f) dpf false) ++ rest, snd st) /\ Rf asg (seen ++ done ++ [f]) (fst st) (snd st) fV'.
  Proof using HB.
    intros Hfs H1 Hcnt HG [HN HR] Hrow st.
    rewrite (aget_ok fs (length done) f) by (rewrite Hfs, nth_error_app2, Nat.sub_diag by lia; reflexivity). cbn [bind].
    assert (Hcount : forall g, count_occ face_eq_dec (map ff (seen ++ done ++ [f])) (ff g) = count_occ face_eq_dec (map ff (seen ++ done)) (ff g) + if face_eq_dec (ff f) (ff g) then 1 else 0).
    { intros g. rewrite app_assoc, (map_app ff (seen ++ done)), count_occ_app. change (map ff [f]) with [ff f]. destruct (face_eq_dec (ff f) (ff g)) as [E|E]; [rewrite count_occ_cons_eq by exact E|rewrite count_occ_cons_neq by exact E]; reflexivity. }
    pose proof (good_num _ _ _ _ _ _ _ HG) as H0.
    pose proof (HR f) as Hf. unfold enter_face. subst st. destruct (count_occ face_eq_dec (map ff (seen ++ done)) (ff f)) as [|[|n]] eqn:Ec; [| |lia].
    - destruct Hf as [Ed El]. rewrite Ed. cbn [bind]. rewrite Z.eqb_refl. unfold DoFMapProofs.alloc1. cbn [fst snd]. rewrite El. destruct asg; cbn [fst snd].
      + rewrite write_run_ok by (rewrite ?repeat_length; auto). cbn [bind]. eexists. split.
        * do 2 f_equal; [f_equal; f_equal; f_equal|destruct f as [[? ?] ?]; reflexivity]. assert (E2 : look (D ++ [(ff f, num)]) (ff f) = Some num) by (rewrite look_app, El; cbn [look]; destruct (face_eq_dec _ _); congruence).
          rewrite (val_up _ _ _ num E2 H0). reflexivity.
        * split; [apply dset_nodup; [apply face_eqb_spec|exact Ed|exact HN]|]. intros g. rewrite Hcount. specialize (HR g).
          rewrite (dget_dset face_eqb face_eqb_spec), look_app. cbn [look]. destruct (face_eqb f g) eqn:Eg.
          -- apply face_eqb_spec in Eg. subst g. rewrite Ec, El. destruct (face_eq_dec (ff f) (ff f)); [|congruence]. cbn. exists num. auto.
          -- destruct (face_eq_dec (ff f) (ff g)) as [E2|]; [apply ff_inj in E2; subst g; rewrite (eqb_refl face_eqb face_eqb_spec) in Eg; discriminate|]. rewrite Nat.add_0_r.
             destruct (count_occ face_eq_dec (map ff (seen ++ done)) (ff g)) as [|[|n']]; [destruct HR as [HR1 HR2]; rewrite HR2; auto| |exact HR].
             destruct HR as (b & Hb & [H|(_ & _ & H)]); [|discriminate]. exists b. rewrite H. auto.
      + exists (dset face_eqb fV f num). split; [rewrite (val_none D _ _ _ El); reflexivity|]. split; [apply dset_nodup; [apply face_eqb_spec|exact Ed|exact HN]|].
        intros g. rewrite Hcount. specialize (HR g). rewrite (dget_dset face_eqb face_eqb_spec). destruct (face_eqb f g) eqn:Eg.
        * apply face_eqb_spec in Eg. subst g. rewrite Ec. destruct (face_eq_dec (ff f) (ff f)); [|congruence]. cbn. exists num. auto.
        * destruct (face_eq_dec (ff f) (ff g)) as [E2|]; [apply ff_inj in E2; subst g; rewrite (eqb_refl face_eqb face_eqb_spec) in Eg; discriminate|]. rewrite Nat.add_0_r. exact HR.
    - destruct Hf as (b & Ed & Hb). rewrite Ed. destruct (ddel_ok face_eqb face_eqb_spec fV f b HN Ed) as (fV' & Ed' & Nd & Hd). rewrite Ed'. cbn [bind].
      assert (HR' : forall D' num', (forall g, g <> f -> look D' (ff g) = look D (ff g)) -> (asg = false -> num' = num) -> Rf asg (seen ++ done ++ [f]) D' num' fV').
      { intros D' num' HD Hnum. split; [exact Nd|]. intros g. rewrite Hcount, Hd. specialize (HR g). destruct (face_eqb f g) eqn:Eg.
        - apply face_eqb_spec in Eg. subst g. rewrite Ec. destruct (face_eq_dec (ff f) (ff f)); [|congruence]. reflexivity.
        - destruct (face_eq_dec (ff f) (ff g)) as [E2|]; [apply ff_inj in E2; subst g; rewrite (eqb_refl face_eqb face_eqb_spec) in Eg; discriminate|]. rewrite Nat.add_0_r.
          assert (Hgf : g <> f) by (intros ->; rewrite (eqb_refl face_eqb face_eqb_spec) in Eg; discriminate). rewrite (HD g Hgf).
          destruct (count_occ face_eq_dec (map ff (seen ++ done)) (ff g)) as [|[|n']]; [exact HR| |exact HR].
          destruct HR as (b' & Hb' & [H|(H & -> & Ha)]); eexists; (split; [exact Hb'|]); [left; exact H|right]. rewrite (Hnum Ha). auto. }
      unfold DoFMapProofs.alloc1. cbn [fst snd]. destruct Hb as [El|(El & -> & ->)].
      + rewrite El. cbn [fst snd]. destruct (good_look dpv dpe dpf dpc B nb HB D num _ b HG El) as (Hs & Hb).
        assert (Es : sz (ff f) = dpf) by (destruct f as [[? ?] ?]; reflexivity). rewrite Es in *.
        assert (Hne : (b =? num)%Z = false) by (apply Z.eqb_neq; lia). rewrite Hne. exists fV'.
        assert (Ev : map (val D) (dofs_on (ff f) dpf false) = [b]).
        { rewrite H1. cbn. unfold val. cbn [fst snd]. rewrite El. f_equal. destruct (0 <=? b)%Z; lia. }
        rewrite Ev. split; [|apply HR'; auto].
        destruct (0 <=? b)%Z; rewrite write_run_ok by (rewrite ?repeat_length; auto); cbn [bind]; do 2 f_equal; f_equal; f_equal; f_equal; rewrite H1; cbn; f_equal; lia.
      + rewrite El, Z.eqb_refl. cbn [fst snd]. exists fV'. split; [rewrite (val_none D _ _ _ El); reflexivity|]. apply HR'; auto.
  Qed.
End Steps.
