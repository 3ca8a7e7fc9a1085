(** The nested bases of a cluster tree and the blocks of the far field. *)
From Verif Require Import Util Lin DenseModel DenseSpec DenseProofs H2Model H2Spec H2Proofs TransferModel TransferSpec TransferProofs TransferProofs2 TransferProofs3 TransferProofs4.
Local Open Scope nat_scope.
Set Default Proof Using "Type".

Lemma gnode_ind' (P : gnode -> Prop) : (forall n cs, (forall c, In c cs -> P c) -> P (GNode n cs)) -> forall t, P t.
Proof.
  intros H. fix IH 1. intros [n cs]. apply H. induction cs as [|c cs IHc]; intros c' Hc; [destruct Hc|].
  destruct Hc as [<-|Hc]; [apply IH|apply IHc; auto].
Qed.

(** ** Linearity *)
Lemma suml_map_ext {A} (l : list A) f g : (forall x, In x l -> f x = g x) -> suml (map f l) = suml (map g l).
Proof. intros H. f_equal. apply map_ext_in. auto. Qed.
Lemma qpoint_length G m cell j : length (qpoint G m cell j) = dim G.
Proof. apply tab_length. Qed.
Lemma gpoint_length G n I : length (gpoint G n I) = dim G.
Proof. apply tab_length. Qed.
Lemma quad_ext G n d F F' : (forall x, length x = dim G -> F x = F' x) -> quad G n d F = quad G n d F'.
Proof.
  intros H. unfold quad. destruct existsb; auto. apply suml_map_ext. intros cell _. apply sumf_ext. intros k _. destruct Z.eqb; auto.
  apply sumf_ext. intros j _. rewrite (H _ (qpoint_length _ _ _ _)). auto.
Qed.
Lemma quad_sum G n d N (a : nat -> Qc) (F : nat -> list Qc -> Qc) :
  sumf N (fun J => a J * quad G n d (F J))%Qc = quad G n d (fun x => sumf N (fun J => a J * F J x))%Qc.
Proof.
  unfold quad. destruct existsb.
  - rewrite (sumf_ext N _ (fun J => suml (map (fun cell => sumf (dofs_per_element G) (fun k =>
      if (cell2dof G cell k =? Z.of_nat d)%Z then sumf (num_nodes G (order n)) (fun j => a J * (vol G cell * vat (weights G (order n)) j * dmat (PHI G (order n)) k j * F J (qpoint G (order n) cell j)))%Qc else 0%Qc)) (gcells n)))).
    + rewrite sumf_suml_swap. apply suml_map_ext. intros cell _. rewrite sumf_swap. apply sumf_ext. intros k _.
      destruct Z.eqb; [|apply sumf_0]. rewrite sumf_swap. apply sumf_ext. intros j _. rewrite <- sumf_scal. apply sumf_ext. intros J _. ring.
    + intros J _. rewrite <- suml_map_scal. apply suml_map_ext. intros cell _. rewrite <- sumf_scal. apply sumf_ext. intros k _.
      destruct Z.eqb; [|ring]. rewrite <- sumf_scal. auto.
  - apply sumf_zero. intros. ring.
Qed.
Lemma interpolate_ext G n F F' : (forall x, length x = dim G -> F x = F' x) -> forall x, interpolate G n F x = interpolate G n F' x.
Proof. intros H x. apply sumf_ext. intros I _. rewrite (H _ (gpoint_length _ _ _)). auto. Qed.
Lemma interpolate_sum G n N (a : nat -> Qc) (F : nat -> list Qc -> Qc) x :
  sumf N (fun J => a J * interpolate G n (F J) x)%Qc = interpolate G n (fun x => sumf N (fun J => a J * F J x))%Qc x.
Proof.
  unfold interpolate. rewrite (sumf_ext N _ (fun J => sumf (order n ^ dim G) (fun I => a J * (F J (gpoint G n I) * LT G n I x)))%Qc) by (intros; rewrite sumf_scal; auto).
  rewrite sumf_swap. apply sumf_ext. intros I _. rewrite <- sumf_scal_r. apply sumf_ext. intros J _. ring.
Qed.
Lemma nested_ext G t : forall d F F', (forall x, length x = dim G -> F x = F' x) -> nested G t d F = nested G t d F'.
Proof.
  induction t as [n cs IH] using gnode_ind'. intros d F F' H. cbn [nested]. destruct cs as [|c0 cs0]; [apply quad_ext; auto|].
  apply suml_map_ext. intros c Hc. apply IH; auto. intros x _. apply interpolate_ext; auto.
Qed.
Lemma nested_sum G t : forall d N (a : nat -> Qc) (F : nat -> list Qc -> Qc),
  sumf N (fun J => a J * nested G t d (F J))%Qc = nested G t d (fun x => sumf N (fun J => a J * F J x))%Qc.
Proof.
  induction t as [n cs IH] using gnode_ind'. intros d N a F. cbn [nested]. destruct cs as [|c0 cs0]; [apply quad_sum|].
  rewrite (sumf_ext N _ (fun J => suml (map (fun c => a J * nested G c d (interpolate G (ginf c) (F J)))%Qc (c0 :: cs0)))) by (intros; rewrite suml_map_scal; auto).
  rewrite sumf_suml_swap. apply suml_map_ext. intros c Hc. rewrite (IH c Hc). apply nested_ext. intros x _. apply interpolate_sum.
Qed.
Lemma integral_ext G t : forall d F F', (forall x, length x = dim G -> F x = F' x) -> integral G t d F = integral G t d F'.
Proof.
  induction t as [n cs IH] using gnode_ind'. intros d F F' H. cbn [integral]. destruct cs as [|c0 cs0]; [apply quad_ext; auto|].
  apply suml_map_ext. intros c Hc. apply IH; auto.
Qed.
Lemma integral_sum G t : forall d N (a : nat -> Qc) (F : nat -> list Qc -> Qc),
  sumf N (fun J => a J * integral G t d (F J))%Qc = integral G t d (fun x => sumf N (fun J => a J * F J x))%Qc.
Proof.
  induction t as [n cs IH] using gnode_ind'. intros d N a F. cbn [integral]. destruct cs as [|c0 cs0]; [apply quad_sum|].
  rewrite (sumf_ext N _ (fun J => suml (map (fun c => a J * integral G c d (F J))%Qc (c0 :: cs0)))) by (intros; rewrite suml_map_scal; auto).
  rewrite sumf_suml_swap. apply suml_map_ext. intros c Hc. apply (IH c Hc).
Qed.
Lemma poly_le m m' d f : m <= m' -> poly m d f -> poly m' d f.
Proof. intros Hm Hf l x Hl Hx. destruct (Hf l x Hl Hx) as (c & Hc & H). exists c. split; [lia|auto]. Qed.

Lemma gnode_self t : In t (gnodes t). Proof. destruct t. cbn. auto. Qed.
Lemma wf_kid G n cs c : wf_tree G (GNode n cs) -> In c cs -> wf_tree G c.
Proof.
  intros H Hc. assert (Hs : forall s, In s (gnodes c) -> In s (gnodes (GNode n cs))) by (intros s Hs; cbn; right; apply in_flat_map; exists c; auto).
  split; intros; [apply (wt_nodes _ _ H)|apply (wt_leaf _ _ H)|apply (wt_kid _ _ H)]; auto.
Qed.
Lemma grow_kid n cs c : orders_grow (GNode n cs) -> In c cs -> orders_grow c.
Proof. intros H Hc s c' Hs. apply H. cbn. right. apply in_flat_map. exists c. auto. Qed.

(** Nested interpolation of polynomials is exact as long as the orders do not become smaller. *)
Lemma nested_exact G t : forall d F, wf_tree G t -> orders_grow t -> poly (order (ginf t)) (dim G) F -> nested G t d F = integral G t d F.
Proof.
  induction t as [n cs IH] using gnode_ind'. intros d F Hw Hg HF. cbn [nested integral]. destruct cs as [|c0 cs0]; [auto|].
  apply suml_map_ext. intros c Hc. set (cs := c0 :: cs0) in *.
  assert (Ho : order n <= order (ginf c)) by (apply (Hg (GNode n cs) c); [apply gnode_self|auto]).
  assert (HFc : poly (order (ginf c)) (dim G) F) by (apply (poly_le (order n)); auto).
  rewrite <- (IH c Hc d F (wf_kid _ _ _ _ Hw Hc) (grow_kid _ _ _ Hg Hc) HFc). apply nested_ext. intros x Hx. apply interpolate_exact; auto.
  apply (wt_nodes _ _ (wf_kid _ _ _ _ Hw Hc)). apply gnode_self.
Qed.

(** ** The tree with transfer matrices and values *)
Notation corr := stands_for.
Record good (G : geo) (N : nat) (t : gnode) (h : hnode) : Prop := Good {
  gd_nodes : Forall2 (corr G) (gnodes t) (nodes h);
  gd_leaf : forall s, In s (nodes h) -> kids s = [] ->
    (forall d, In d (ldofs (inf s)) -> d < N) /\ length (value (inf s)) = 1 /\
    forall V, In V (value (inf s)) -> wf_dense (length (ldofs (inf s))) (ksize (inf s)) V;
  gd_transfer : forall s c, In s (nodes h) -> In c (kids s) ->
    exists T, transferOp (inf c) = Some T /\ wf_dense (ksize (inf s)) (ksize (inf c)) T }.
Definition transfers (G : geo) (parent : option ginfo) (t : gnode) (h : hnode) : Prop :=
  match parent with
  | None => transferOp (inf h) = None
  | Some p => exists T, transferOp (inf h) = Some T /\ is_array (order p ^ dim G) (order (ginf t) ^ dim G) T (fun I J => LT G p I (gpoint G (ginf t) J))
  end.
Definition sok (G : geo) (st : (list Z * list Z) * lstate) : Prop :=
  length (fst (fst st)) = dim G /\ length (snd (fst st)) = dim G /\ lok G (snd st).

Lemma Forall2_flat_map {A B} (R : A -> B -> Prop) (f : A -> list A) (g : B -> list B) l l' :
  Forall2 (fun a b => Forall2 R (f a) (g b)) l l' -> Forall2 R (flat_map f l) (flat_map g l').
Proof. induction 1 as [|a b l l' H _ IH]; cbn; [constructor|]. apply Forall2_app; auto. Qed.
Lemma Forall2_imp {A B} (R R' : A -> B -> Prop) l l' : (forall a b, R a b -> R' a b) -> Forall2 R l l' -> Forall2 R' l l'.
Proof. intros H. induction 1; constructor; auto. Qed.
Lemma Forall2_map_eq {A B C} (R : A -> B -> Prop) (f : A -> C) (g : B -> C) l l' : (forall a b, R a b -> g b = f a) -> Forall2 R l l' -> map g l' = map f l.
Proof. intros H. induction 1 as [|a b l l' Hab _ IH]; cbn; [auto|]. rewrite (H a b Hab), IH. auto. Qed.
Lemma Forall2_in_r {A B} (R : A -> B -> Prop) l l' b : Forall2 R l l' -> In b l' -> exists a, In a l /\ R a b.
Proof.
  induction 1 as [|a b' l l' Hab _ IH]; intros Hb; [destruct Hb|]. destruct Hb as [<-|Hb]; [exists a; cbn; auto|].
  destruct (IH Hb) as (a' & Ha & H). exists a'. cbn. auto.
Qed.
Lemma Forall2_in_l {A B} (R : A -> B -> Prop) l l' a : Forall2 R l l' -> In a l -> exists b, In b l' /\ R a b.
Proof.
  induction 1 as [|a' b l l' Hab _ IH]; intros Ha; [destruct Ha|]. destruct Ha as [<-|Ha]; [exists b; cbn; auto|].
  destruct (IH Ha) as (b' & Hb & H). exists b'. cbn. auto.
Qed.

Section Prepare.
  Variables (G : geo) (N : nat).
  Hypothesis HG : wf_geo G.

  Lemma leaf_bas n T V d I : wf_cluster G n -> is_array (length (gdofs n)) (order n ^ dim G) V (fun d I => quad G n (nth d (gdofs n) 0) (LT G n I)) ->
    I < order n ^ dim G -> bas 0 (HNode (NI (gid n) (order n ^ dim G) T (gdofs n) [V]) []) d I = quad G n d (LT G n I).
  Proof using.
    intros Hn (Hw & HV) HI. cbn [bas ldofs]. unfold leafval. cbn [value nth].
    destruct (existsb (Nat.eqb d) (gdofs n)) eqn:E.
    - apply existsb_exists in E. destruct E as (d' & Hin & Ed). apply Nat.eqb_eq in Ed. subst d'.
      destruct (In_nth _ _ 0 Hin) as (k & Hk & Ek). rewrite (sumf_single _ _ k Hk).
      + rewrite Ek, Nat.eqb_refl, HV, Ek by auto. auto.
      + intros i Hi Hne. destruct (Nat.eqb_spec (nth i (gdofs n) 0) d) as [E'|]; auto. exfalso. apply Hne.
        apply (proj1 (NoDup_nth (gdofs n) 0) (wc_dofs _ _ Hn)); auto. lia.
    - unfold quad. rewrite E. apply sumf_zero. intros i Hi. destruct (Nat.eqb_spec (nth i (gdofs n) 0) d) as [E'|]; auto.
      exfalso. assert (existsb (Nat.eqb d) (gdofs n) = true); [|congruence]. apply existsb_exists. exists d. split; [|apply Nat.eqb_refl].
      rewrite <- E'. apply nth_In; auto.
  Qed.

  Lemma inner_bas n cs hs id k T ds vs d I : cs <> [] -> Forall2 (fun c h => corr G c h /\ transfers G (Some n) c h) cs hs -> I < order n ^ dim G ->
    bas 0 (HNode (NI id k T ds vs) hs) d I = nested G (GNode n cs) d (LT G n I).
  Proof using.
    intros Hne HF HI. destruct hs as [|h0 hs0]; [inversion HF; subst; contradiction|]. destruct cs as [|c0 cs0]; [contradiction|].
    cbn [bas nested]. f_equal. apply (Forall2_map_eq _ (fun c => nested G c d (interpolate G (ginf c) (LT G n I))) (fun h => sumf (ksize (inf h)) (fun j => bas 0 h d j * tmat (inf h) I j)%Qc)) in HF; [exact HF|].
    intros c h ((_ & Hk & Hb) & (T' & ET & (_ & HT))). rewrite Hk. unfold tmat. rewrite ET.
    rewrite (sumf_ext _ _ (fun J => LT G n I (gpoint G (ginf c) J) * nested G c d (LT G (ginf c) J))%Qc).
    - rewrite nested_sum. apply nested_ext. intros x _. apply sumf_ext. intros J HJ. ring.
    - intros J HJ. rewrite Hb, HT by auto. ring.
  Qed.

  Lemma prepare_ok t : forall parent st, wf_tree G t -> (forall s d, In s (gnodes t) -> In d (gdofs (ginf s)) -> d < N) ->
    match parent with Some p => wf_cluster G p /\ clear_nodes G p (ginf t) | None => True end -> sok G st ->
    exists h st', prepare G parent t st = Ok (h, st') /\ sok G st' /\ good G N t h /\ transfers G parent t h.
  Proof using HG.
    induction t as [n cs IH] using gnode_ind'. intros parent st Hw HN Hp Hst. cbn [prepare].
    assert (Hn : wf_cluster G n) by (apply (wt_nodes _ _ Hw (GNode n cs)); apply gnode_self).
    assert (H1 : exists V st1, (match cs with [] => '(V, ls) <- leaf_value G n (snd st) ;; Ok ([V], (fst st, ls)) | _ => Ok ([], st) end) = Ok (V, st1) /\ sok G st1 /\
      (cs = [] -> exists V0, V = [V0] /\ is_array (length (gdofs n)) (order n ^ dim G) V0 (fun d I => quad G n (nth d (gdofs n) 0) (LT G n I)))).
    { destruct cs as [|c0 cs0].
      - destruct Hst as (Hs1 & Hs2 & Hs3). destruct (leaf_value_ok G n HG Hn (wt_leaf _ _ Hw (GNode n []) (gnode_self _) eq_refl) (snd st) Hs3) as (V & s' & E & Hs' & HV).
        rewrite E. cbn [bind]. exists [V], (fst st, s'). split; auto. split; [split; auto|]. intros _. exists V. auto.
      - exists [], st. split; auto. split; auto. discriminate. }
    destruct H1 as (V & st1 & E1 & Hst1 & HV).
    rewrite E1. cbn [bind]. rewrite for_each_list.
    match goal with |- context [for_list cs ?body ?s0] =>
      destruct (for_list_inv (fun done (s : list hnode * ((list Z * list Z) * lstate)) => sok G (snd s) /\ Forall2 (fun c h => good G N c h /\ transfers G (Some n) c h) done (fst s)) body cs [] s0) as ((hs & st2) & E2 & Hst2 & HF) end.
    - cbn [fst snd]. split; auto.
    - intros pr c q (hs & s) Hcs (Hs & HF). cbn [fst snd app] in *. assert (Hc : In c cs) by (rewrite Hcs; apply in_elt).
      destruct (IH c Hc (Some n) s) as (h & s' & E & Hs' & Hg & Ht).
      + apply (wf_kid _ _ _ _ Hw Hc).
      + intros s' d Hs' Hd. apply (HN s' d); auto. cbn. right. apply in_flat_map. exists c. auto.
      + split; auto. apply (wt_kid _ _ Hw (GNode n cs) c); [apply gnode_self|auto].
      + auto.
      + rewrite E. cbn [bind]. eexists. split; [reflexivity|]. cbn [fst snd]. split; auto. apply Forall2_app; auto.
    - match type of E2 with ?L = _ => match goal with |- context [for_list cs ?f ?s] => change (for_list cs f s) with L end end.
      rewrite E2. cbn [bind fst snd app] in *.
      assert (H3 : exists T pits, (match parent with None => Ok (None, fst st2) | Some p => '(T, pits) <- build G p n (fst st2) ;; Ok (Some T, pits) end) = Ok (T, pits) /\
        length (fst pits) = dim G /\ length (snd pits) = dim G /\
        match parent with None => T = None | Some p => exists T', T = Some T' /\ is_array (order p ^ dim G) (order n ^ dim G) T' (fun I J => LT G p I (gpoint G n J)) end).
      { destruct Hst2 as (Hs1 & Hs2 & _). destruct parent as [p|].
        - destruct Hp as (Hp & Hcl). destruct (build_ok G p n HG Hp Hn Hcl (fst st2) Hs1 Hs2) as (T & ET & HT). rewrite ET. cbn [bind].
          exists (Some T), (pits0 G). split; auto. unfold pits0. cbn [fst snd]. rewrite repeat_length. split; auto. split; auto. exists T. auto.
        - exists None, (fst st2). auto. }
      destruct H3 as (T & pits & E3 & Hp1 & Hp2 & HT). rewrite E3. cbn [bind].
      assert (HF1 : Forall2 (fun c h => corr G c h /\ transfers G (Some n) c h) cs hs).
      { eapply Forall2_imp; [|exact HF]. intros c h (Hg & Ht). split; auto. pose proof (gd_nodes _ _ _ _ Hg) as Hc. destruct c, h. cbn [gnodes nodes] in Hc. inversion Hc; auto. }
      eexists. eexists. split; [reflexivity|]. split; [|split].
      + split; auto. split; auto. apply Hst2.
      + split.
        * cbn [gnodes nodes]. constructor.
          -- split; [auto|]. split; [auto|]. intros d I HI. cbn [ginf] in *. destruct cs as [|c0 cs0].
             ++ inversion HF; subst. destruct (HV eq_refl) as (V0 & -> & HV0). cbn [nested]. apply leaf_bas; auto.
             ++ apply (inner_bas n (c0 :: cs0) hs); auto. discriminate.
          -- apply Forall2_flat_map. eapply Forall2_imp; [|exact HF]. intros c h (Hg & _). apply Hg.
        * intros s Hs Hk. cbn [nodes] in Hs. destruct Hs as [<-|Hs].
          -- cbn [kids inf ldofs value ksize] in *. subst hs. inversion HF; subst. destruct (HV eq_refl) as (V0 & -> & HV0). split; [|split; auto].
             ++ intros d Hd. apply (HN (GNode n []) d); auto. apply gnode_self.
             ++ intros V' [<-|[]]. apply HV0.
          -- apply in_flat_map in Hs. destruct Hs as (h & Hh & Hs). destruct (Forall2_in_r _ _ _ h HF Hh) as (c & _ & Hg & _). apply (gd_leaf _ _ _ _ Hg); auto.
        * intros s c Hs Hc. cbn [nodes] in Hs. destruct Hs as [<-|Hs].
          -- cbn [kids inf ksize] in *. destruct (Forall2_in_r _ _ _ c HF1 Hc) as (c' & _ & (_ & Hk & _) & (T' & ET & HT')). exists T'. split; auto. rewrite Hk. apply HT'.
          -- apply in_flat_map in Hs. destruct Hs as (h & Hh & Hs). destruct (Forall2_in_r _ _ _ h HF Hh) as (c' & _ & Hg & _). apply (gd_transfer _ _ _ _ Hg s); auto.
      + unfold transfers. cbn [inf transferOp ginf]. destruct parent as [p|]; auto.
  Qed.
End Prepare.
