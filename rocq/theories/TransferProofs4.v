(** The values of leaves. *)
From Verif Require Import Util Lin DenseModel DenseSpec DenseProofs H2Model H2Spec TransferModel TransferSpec TransferProofs TransferProofs2 TransferProofs3.
Local Open Scope nat_scope.
Set Default Proof Using "Type".

Lemma fold_prod m (f : nat -> Qc) (body : nat -> Qc -> res Qc) :
  (forall k t, k < m -> body k t = Ok (t * f k)%Qc) -> for_range 0 m body 1%Qc = Ok (prodf m f).
Proof.
  intros H. destruct (for_range_inv (fun k t => t = prodf k f) body 0 m 1%Qc) as (t & E & Ht); [lia|auto| |rewrite E, Ht; auto].
  intros k t Hk ->. exists (prodf k f * f k)%Qc. split; [apply H; lia|auto].
Qed.

Lemma position_some l z p : position l z = Some p -> p < length l /\ Z.of_nat (nth p l 0) = z.
Proof.
  revert p. induction l as [|a l IH]; intros p; cbn [position]; [discriminate|]. destruct (Z.eqb_spec (Z.of_nat a) z) as [E|E].
  - intros H. injection H as <-. cbn. split; [lia|auto].
  - destruct (position l z) as [q|]; [|discriminate]. cbn. intros H. injection H as <-. destruct (IH q eq_refl). split; [lia|auto].
Qed.
Lemma position_none l z p : position l z = None -> p < length l -> Z.of_nat (nth p l 0) <> z.
Proof.
  revert p. induction l as [|a l IH]; intros p; cbn [position length]; [lia|]. destruct (Z.eqb_spec (Z.of_nat a) z) as [E|E]; [discriminate|].
  destruct (position l z) as [q|]; [discriminate|]. intros _ Hp. destruct p; [auto|]. cbn. apply IH; auto. lia.
Qed.

Section Leaf.
  Variables (G : geo) (n : ginfo).
  Hypothesis (HG : wf_geo G) (Hn : wf_cluster G n) (Hcl : clear_leaf G n).
  Let m := order n.
  Let nd := length (gdofs n).
  Definition bval (i q : nat) : Qc := prodf m (fun k => if k =? i then 1 else node G n q i - node G n q k)%Qc.
  Definition oval (x : list Qc) (i q : nat) : Qc := prodf m (fun k => if k =? i then 1 else vat x q - node G n q k)%Qc.

  Lemma leaf_beta_ok xi b : is_array m (dim G) xi (fun i q => node G n q i) -> length b = m * dim G ->
    exists b', leaf_beta G m xi b = Ok b' /\ obuf m (dim G) b' (fun i q => Some (bval i q)).
  Proof using.
    intros Hx Hb. destruct (obuf_any _ _ _ Hb) as (P & HP). unfold leaf_beta.
    apply (obuf_loop m (dim G) P bval (fun l q be =>
      temp <- for_range 0 m (fun k temp => if k =? l then Ok temp else a <- dget xi l q ;; b <- dget xi k q ;; Ok (temp * (a - b))%Qc) 1%Qc ;;
      wr be (l * dim G + q) temp) b HP).
    intros i q b1 P1 Hi Hq H1 _. rewrite (fold_prod m (fun k => if k =? i then 1 else node G n q i - node G n q k)%Qc).
    - cbn [bind]. apply obuf_wr; auto.
    - intros k t Hk. destruct (k =? i); [f_equal; ring|].
      rewrite (array_get _ _ _ _ i q Hx) by auto. cbn [bind]. rewrite (array_get _ _ _ _ k q Hx) by auto. auto.
  Qed.

  Section Cell.
    Variables (cell : nat) (xi beta : dense).
    Hypothesis (Hcell : In cell (gcells n)) (Hxi : is_array m (dim G) xi (fun i q => node G n q i)) (Hbe : is_array m (dim G) beta bval).
    Let x := qnodes G m cell.

    Lemma leaf_omega_ok j b : j < num_nodes G m -> length b = m * dim G ->
      exists b', leaf_omega G m xi beta x j b = Ok b' /\ obuf m (dim G) b' (fun i q => Some (oval (qpoint G m cell j) i q)).
    Proof using HG Hcl Hcell Hxi Hbe.
      intros Hj Hb. destruct (obuf_any _ _ _ Hb) as (P & HP). unfold leaf_omega.
      apply (obuf_loop m (dim G) P (oval (qpoint G m cell j)) (fun l q om =>
        xj <- dget x j q ;; xl <- dget xi l q ;;
        v <- (if apart_by tol9 xj xl then
            for_range 0 m (fun k temp => if k =? l then Ok temp else b <- dget xi k q ;; Ok (temp * (xj - b))%Qc) 1%Qc
          else dget beta l q) ;;
        wr om (l * dim G + q) v) b HP).
      intros i q b1 P1 Hi Hq H1 _. pose proof (wg_nodes _ HG m cell) as Hw. fold x in Hw.
      rewrite (dget_ok _ _ x j q Hw) by auto. cbn [bind]. rewrite (array_get _ _ _ _ i q Hxi) by auto. cbn [bind].
      assert (Hv : vat (qpoint G m cell j) q = dmat x j q) by (unfold qpoint; rewrite vat_tab by auto; auto).
      destruct (apart_by tol9 (dmat x j q) (node G n q i)) eqn:Ea.
      - rewrite (fold_prod m (fun k => if k =? i then 1 else dmat x j q - node G n q k)%Qc).
        + cbn [bind]. unfold oval. rewrite Hv. apply obuf_wr; auto.
        + intros k t Hk. destruct (k =? i); [f_equal; ring|]. rewrite (array_get _ _ _ _ k q Hxi) by auto. auto.
      - apply (apart_false tol9) in Ea; [|apply (Hcl cell j q i); auto].
        rewrite (array_get _ _ _ _ i q Hbe) by auto. cbn [bind].
        replace (bval i q) with (oval (qpoint G m cell j) i q); [apply obuf_wr; auto|]. unfold oval, bval. rewrite Hv, Ea. auto.
    Qed.

    Lemma LT_ratio y I : (prodf (dim G) (fun q => oval y (digit m (dim G) I q) q) / prodf (dim G) (fun q => bval (digit m (dim G) I q) q))%Qc = LT G n I y.
    Proof using.
      rewrite <- prodf_div. unfold LT. apply prodf_ext. intros q Hq. unfold oval, bval, lag. fold m. rewrite <- prodf_div. apply prodf_ext. intros k Hk.
      destruct (k =? digit m (dim G) I q); auto.
    Qed.

    Definition term (k j : nat) (F : list Qc -> Qc) : Qc := (vol G cell * vat (weights G m) j * dmat (PHI G m) k j * F (qpoint G m cell j))%Qc.

    Lemma leaf_node_ok k lcl j pit om val V : k < dofs_per_element G -> lcl < nd -> j < num_nodes G m ->
      length pit = dim G -> length om = m * dim G -> obuf nd (m ^ dim G) val (fun d I => Some (V d I)) ->
      exists om' val', leaf_node G m m nd lcl cell k xi beta x j (pit, om, val) = Ok (repeat 0%Z (dim G), om', val') /\
        length om' = m * dim G /\ obuf nd (m ^ dim G) val' (fun d I => Some (V d I + if (d =? lcl)%nat then term k j (LT G n I) else 0)%Qc).
    Proof using HG Hn Hcl Hcell Hxi Hbe.
      intros Hk Hlcl Hj Hp Ho HV. unfold leaf_node.
      destruct (leaf_omega_ok j om Hj Ho) as (om' & E1 & O1). rewrite E1. cbn [bind].
      destruct (obuf_dense _ _ _ _ O1) as (omega & D1 & A1). rewrite D1. cbn [bind].
      rewrite (aget_nth _ j 0%Qc) by (rewrite (wg_weights _ HG); auto). cbn [bind].
      rewrite (dget_ok _ _ _ k j (wg_PHI _ HG m)) by auto. cbn [bind].
      rewrite (pit_loop_ok m (dim G)) by (auto; apply (wg_dim _ HG)).
      match goal with |- context [for_range 0 (m ^ dim G) ?body val] =>
        destruct (for_range_inv (fun K val => obuf nd (m ^ dim G) val (fun d I => Some (V d I + if (d =? lcl)%nat && (I <? K) then term k j (LT G n I) else 0)%Qc)) body 0 (m ^ dim G) val) as (val' & E & H') end.
      - lia.
      - eapply obuf_ext; [exact HV|]. intros d I _ _. cbn beta. destruct (Nat.ltb_spec I 0); [lia|]. rewrite andb_false_r. f_equal. ring.
      - intros I b HI Hb. cbn beta.
        destruct (for_range_inv (fun q st => st = (prodf q (fun q => bval (digit m (dim G) I q) q), prodf q (fun q => oval (qpoint G m cell j) (digit m (dim G) I q) q)))
          (fun q '(bSC, oSC) => i <- aget (digits m (dim G) I) q ;; o <- dget omega i q ;; b <- dget beta i q ;; Ok (bSC * b, oSC * o)%Qc) 0 (dim G) (1, 1)%Qc) as (st & Es & Hst).
        + lia.
        + auto.
        + intros q st Hq ->. rewrite (aget_nth _ q 0) by (rewrite digits_length; lia). cbn [bind]. unfold digits. rewrite nth_tab by lia.
          pose proof (wc_order _ _ Hn). assert (Hi : digit m (dim G) I q < m) by (apply digit_lt; auto).
          rewrite (array_get _ _ _ _ _ q A1) by lia. cbn [bind]. rewrite (array_get _ _ _ _ _ q Hbe) by lia. cbn [bind].
          eexists. split; reflexivity.
        + match type of Es with ?L = _ => match goal with |- context [for_range 0 (dim G) ?f ?s] => change (for_range 0 (dim G) f s) with L end end.
          rewrite Es, Hst. cbn [bind]. rewrite LT_ratio. rewrite ix_ok by (auto; lia). cbn [bind].
          destruct (obuf_addto nd (m ^ dim G) b _ lcl I (vol G cell * LT G n I (qpoint G m cell j) * dmat (PHI G m) k j * nth j (weights G m) 0)%Qc (V lcl I) Hb) as (b' & E' & Hb'); [auto|lia| |].
          { cbn beta. rewrite Nat.ltb_irrefl, andb_false_r. f_equal. ring. }
          exists b'. split; [exact E'|]. eapply obuf_ext; [exact Hb'|]. intros d I' _ _. unfold put.
          destruct (Nat.eqb_spec d lcl) as [->|]; cbn [andb]; [|auto].
          destruct (Nat.eqb_spec I' I) as [->|].
          * destruct (Nat.ltb_spec I (S I)); [|lia]. f_equal. unfold term, vat. ring.
          * destruct (Nat.ltb_spec I' I), (Nat.ltb_spec I' (S I)); auto; lia.
      - match type of E with ?L = _ => match goal with |- context [for_range 0 (m ^ dim G) ?f ?s] => change (for_range 0 (m ^ dim G) f s) with L end end.
        rewrite E. cbn [bind]. exists om', val'. split; [auto|]. split; [apply O1|].
        eapply obuf_ext; [exact H'|]. intros d I Hd HI. cbn beta. destruct (Nat.ltb_spec I (m ^ dim G)); [|lia]. rewrite andb_true_r. auto.
    Qed.

    (** What a cell adds to the entry (d, I). *)
    Definition gain (k : nat) (d I : nat) : Qc :=
      if (cell2dof G cell k =? Z.of_nat (nth d (gdofs n) 0%nat))%Z then sumf (num_nodes G m) (fun j => term k j (LT G n I)) else 0%Qc.

    Lemma leaf_cell_ok st V : length (fst (fst st)) = dim G -> length (snd (fst st)) = m * dim G -> obuf nd (m ^ dim G) (snd st) (fun d I => Some (V d I)) ->
      exists st', for_range 0 (dofs_per_element G) (fun k st =>
        let dof := cell2dof G cell k in
        if (dof <? 0)%Z then Ok st else
        match position (gdofs n) dof with
        | None => Ok st
        | Some lcl => for_range 0 (num_nodes G m) (fun j st => leaf_node G m m nd lcl cell k xi beta x j st) st
        end) st = Ok st' /\ length (fst (fst st')) = dim G /\ length (snd (fst st')) = m * dim G /\
        obuf nd (m ^ dim G) (snd st') (fun d I => Some (V d I + sumf (dofs_per_element G) (fun k => gain k d I))%Qc).
    Proof using HG Hn Hcl Hcell Hxi Hbe.
      intros Hp Ho HV.
      match goal with |- context [for_range 0 _ ?body st] =>
        apply (for_range_inv (fun K st' => length (fst (fst st')) = dim G /\ length (snd (fst st')) = m * dim G /\
          obuf nd (m ^ dim G) (snd st') (fun d I => Some (V d I + sumf K (fun k => gain k d I))%Qc)) body 0 (dofs_per_element G) st) end.
      - lia.
      - repeat split; auto; try apply HV. intros r c Hr Hc. rewrite (proj2 HV r c Hr Hc). cbn [sumf]. f_equal. f_equal. ring.
      - intros k s Hk (Hp1 & Ho1 & HV1). cbv zeta.
        assert (Hno : (forall d, d < nd -> Z.of_nat (nth d (gdofs n) 0) <> cell2dof G cell k) ->
          exists s1, Ok s = Ok s1 /\ length (fst (fst s1)) = dim G /\ length (snd (fst s1)) = m * dim G /\
            obuf nd (m ^ dim G) (snd s1) (fun d I => Some (V d I + sumf (S k) (fun k => gain k d I))%Qc)).
        { intros H. exists s. repeat split; auto; try apply HV1. intros r c Hr Hc. rewrite (proj2 HV1 r c Hr Hc). cbn [sumf]. do 2 f_equal. unfold gain at 3.
          destruct (Z.eqb_spec (cell2dof G cell k) (Z.of_nat (nth r (gdofs n) 0))) as [E|]; [exfalso; apply (H r Hr); auto|ring]. }
        destruct (Z.ltb_spec (cell2dof G cell k) 0) as [Hneg|Hpos]; [apply Hno; intros; lia|].
        destruct (position (gdofs n) (cell2dof G cell k)) as [lcl|] eqn:Epos.
        + destruct (position_some _ _ _ Epos) as (Hlcl & Elcl).
          destruct (for_range_inv (fun J st' => length (fst (fst st')) = dim G /\ length (snd (fst st')) = m * dim G /\
            obuf nd (m ^ dim G) (snd st') (fun d I => Some (V d I + sumf k (fun k => gain k d I) + if (d =? lcl)%nat then sumf J (fun j => term k j (LT G n I)) else 0)%Qc))
            (fun j st => leaf_node G m m nd lcl cell k xi beta x j st) 0 (num_nodes G m) s) as (s' & Es & Hp2 & Ho2 & HV2).
          * lia.
          * split; auto. split; auto. eapply obuf_ext; [exact HV1|]. intros d I _ _. cbn beta. cbn [sumf]. destruct (d =? lcl); f_equal; ring.
          * intros j ((pit & om) & val) Hj (Hp2 & Ho2 & HV2). cbn [fst snd] in *.
            destruct (leaf_node_ok k lcl j pit om val _ ltac:(lia) Hlcl ltac:(lia) Hp2 Ho2 HV2) as (om' & val' & E' & Ho3 & HV3).
            eexists. split; [exact E'|]. cbn [fst snd]. split; [apply repeat_length|]. split; [auto|].
            eapply obuf_ext; [exact HV3|]. intros d I _ _. cbn beta. cbn [sumf]. destruct (d =? lcl); f_equal; ring.
          * exists s'. split; [exact Es|]. split; auto. split; auto. eapply obuf_ext; [exact HV2|]. intros d I Hd _. cbn beta. cbn [sumf]. f_equal.
            unfold gain at 3. destruct (Nat.eqb_spec d lcl) as [->|Hne].
            -- rewrite Elcl, Z.eqb_refl. ring.
            -- destruct (Z.eqb_spec (cell2dof G cell k) (Z.of_nat (nth d (gdofs n) 0))) as [E|]; [|ring]. exfalso. apply Hne.
               pose proof (wc_dofs _ _ Hn) as Hnd. apply (proj1 (NoDup_nth (gdofs n) 0) Hnd); auto. lia.
        + apply Hno. intros d Hd. apply position_none; auto.
    Qed.
  End Cell.

  (** A work state left by earlier leaves. *)
  Definition lok (s : lstate) : Prop := length (s_pit s) = dim G /\
    (oldOrder s = 0 \/ length (s_xi s) = oldOrder s * dim G /\ length (s_beta s) = oldOrder s * dim G /\ length (s_omega s) = oldOrder s * dim G).

  Lemma leaf_value_ok s : lok s -> exists V s', leaf_value G n s = Ok (V, s') /\ lok s' /\
    is_array nd (m ^ dim G) V (fun d I => quad G n (nth d (gdofs n) 0) (LT G n I)).
  Proof using HG Hn Hcl.
    intros (Hs & Hs'). unfold leaf_value. fold m nd.
    set (s0 := if m =? oldOrder s then s else LS m (alloc (m * dim G)) (alloc (m * dim G)) (alloc (m * dim G)) (s_pit s)).
    assert (H0 : oldOrder s0 = m /\ length (s_pit s0) = dim G /\ length (s_xi s0) = m * dim G /\ length (s_beta s0) = m * dim G /\ length (s_omega s0) = m * dim G).
    { unfold s0. destruct (Nat.eqb_spec m (oldOrder s)) as [E|E].
      - pose proof (wc_order _ _ Hn). fold m in H. destruct Hs' as [Hs'|(H1 & H2 & H3)]; [lia|]. rewrite E. auto.
      - cbn [oldOrder s_pit s_xi s_beta s_omega]. rewrite !alloc_length. auto. }
    clearbody s0. destruct H0 as (E0 & Hp0 & Hx0 & Hb0 & Ho0). rewrite E0.
    destruct (points_ok G n (s_xi s0) Hn Hx0) as (xb & E1 & O1). fold m in E1, O1. rewrite E1. cbn [bind].
    destruct (obuf_dense _ _ _ _ O1) as (xi & D1 & A1). rewrite D1. cbn [bind].
    destruct (leaf_beta_ok xi (s_beta s0) A1 Hb0) as (bb & E2 & O2). rewrite E2. cbn [bind].
    destruct (obuf_dense _ _ _ _ O2) as (beta & D2 & A2). rewrite D2. cbn [bind].
    match goal with |- context [for_list (gcells n) ?body ?s1] =>
      destruct (for_list_inv (fun done st => length (fst (fst st)) = dim G /\ length (snd (fst st)) = m * dim G /\
        obuf nd (m ^ dim G) (snd st) (fun d I => Some (suml (map (fun cell => sumf (dofs_per_element G) (fun k => gain cell k d I)) done)))) body (gcells n) [] s1) as (((pit & om) & val) & E3 & Hp3 & Ho3 & HV3) end.
    - cbn [fst snd map suml]. split; auto. split; auto. apply (obuf_repeat nd (m ^ dim G) (Some 0%Qc)).
    - intros pr cell q st Hc (Hp & Ho & HV). cbn [app] in HV.
      destruct (leaf_cell_ok cell xi beta ltac:(rewrite Hc; apply in_elt) A1 A2 st _ Hp Ho HV) as (st' & E' & Hp' & Ho' & HV').
      exists st'. split; [exact E'|]. split; auto. split; auto. eapply obuf_ext; [exact HV'|]. intros d I _ _. cbn beta. cbn [app].
      rewrite map_app, suml_app. cbn [map suml]. f_equal. ring.
    - match type of E3 with ?L = _ => match goal with |- context [for_list (gcells n) ?f ?s] => change (for_list (gcells n) f s) with L end end.
      rewrite E3. cbn [bind fst snd app] in *.
      destruct (obuf_dense _ _ _ _ HV3) as (V & DV & (Hw & AV)). rewrite DV. cbn [bind]. eexists; eexists. split; [reflexivity|]. split.
      + split; cbn [s_pit oldOrder s_xi s_beta s_omega]; auto. right. split; [apply O1|]. split; [apply O2|auto].
      + split; auto. intros d I Hd HI. rewrite AV by auto. unfold quad.
        assert (Hex : existsb (Nat.eqb (nth d (gdofs n) 0)) (gdofs n) = true).
        { apply existsb_exists. exists (nth d (gdofs n) 0). split; [apply nth_In; auto|apply Nat.eqb_refl]. }
        rewrite Hex. reflexivity.
  Qed.
End Leaf.
