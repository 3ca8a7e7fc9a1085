(** DoFMaps made by renumbering. *)
From Verif Require Import Util Lin CSRModel AssemblyProofs TransferProofs2 SubMapModel SubMapSpec SubMapProofs.
Local Open Scope Z_scope.
Set Default Proof Using "Type".

Definition gpos (dpe : nat) : nat * nat -> nat := fun '(i, k) => (i * dpe + k)%nat.
Definition gat (D : grid) : nat * nat -> Z := fun '(i, k) => D i k.
Lemma gpos_inj nc dpe (D : grid) x y : In x (positions (seq 0 nc) (seq 0 dpe)) -> In y (positions (seq 0 nc) (seq 0 dpe)) -> gpos dpe x = gpos dpe y -> gat D x = gat D y.
Proof.
  destruct x as [i k], y as [i' k']. rewrite !in_grid. intros (_ & Hk) (_ & Hk') E. destruct (pos_inj dpe i k i' k' Hk Hk' E) as (-> & ->). reflexivity.
Qed.
Lemma gpos_lt nc dpe x : In x (positions (seq 0 nc) (seq 0 dpe)) -> (gpos dpe x < nc * dpe)%nat.
Proof. destruct x as [i k]. rewrite in_grid. intros (Hi & Hk). apply pos_lt; auto. Qed.

(** One pass over all positions. *)
Lemma renumber_ok (D : grid) G cond nc dpe :
  (forall i k, (i < nc)%nat -> (k < dpe)%nat -> exists c, cond (D i k) = Ok c /\ (c = true <-> G (D i k))) ->
  exists dm, (st <- for_list (positions (seq 0 nc) (seq 0 dpe)) (fun '(i, k) st => number cond (D i k) (i * dpe + k)%nat st) (start nc dpe) ;; new_map nc dpe st) = Ok dm /\
    renumbers nc dpe D G dm.
Proof.
  intros Hc. destruct (number_loop (gat D) (gpos dpe) G (nc * dpe) cond (positions (seq 0 nc) (seq 0 dpe)) [] (start nc dpe)) as (st & E & I).
  - apply ninv_start.
  - intros x Hx. apply gpos_lt with (nc := nc). exact Hx.
  - intros x y Hx Hy. apply gpos_inj with (nc := nc); assumption.
  - intros [i k] p q El _. apply Hc; apply (in_grid nc dpe i k); rewrite El; apply in_or_app; right; left; reflexivity.
  - rewrite (for_list_ext (fun '(i, k) st => number cond (D i k) (i * dpe + k)%nat st) (fun x st => number cond (gat D x) (gpos dpe x) st)) by (intros [i k] s _; reflexivity).
    rewrite E. cbn [bind]. destruct (new_map_ok D G nc dpe _ st I) as (dm & Em & R); [apply in_grid|]. exists dm. auto.
Qed.

Lemma indicated_ok ind z : z < Z.of_nat (length ind) -> exists c, indicated ind z = Ok c /\ (c = true <-> 0 <= z /\ (0 < vat ind (Z.to_nat z))%Qc).
Proof.
  intros H. unfold indicated. destruct (Z.leb_spec 0 z) as [Hz|Hz].
  - rewrite (aget_nth ind (Z.to_nat z) 0%Qc) by lia. cbn [bind]. eexists; split; [reflexivity|]. unfold positive, vat.
    set (v := nth (Z.to_nat z) ind 0%Qc). rewrite negb_true_iff.
    destruct (Qle_bool v 0) eqn:E.
    + split; [discriminate|]. intros (_ & Hlt). apply Qle_bool_iff in E. exfalso. apply (Qcle_not_lt v 0 E). exact Hlt.
    + split; [intros _|reflexivity]. split; [exact Hz|]. destruct (Qclt_le_dec 0 v) as [L|L]; [exact L|].
      exfalso. unfold Qcle in L. apply Qle_bool_iff in L. cbn in L, E. congruence.
  - exists false. split; [reflexivity|]. split; [discriminate|]. lia.
Qed.

Lemma reset_ok dm ind : is_dofmap dm -> Z.of_nat (length ind) = num_dofs dm ->
  exists dm', resetUsingFEVector dm ind = Ok dm' /\ renumbers (num_cells dm) (dofs_per_element dm) (the_grid dm) (indicated_dofs ind) dm'.
Proof.
  intros (Hs & Hn) Hl. unfold resetUsingFEVector. rewrite nested_range.
  rewrite (for_list_ext _ (fun '(i, k) st => number (indicated ind) (the_grid dm i k) (i * dofs_per_element dm + k)%nat st)).
  - apply renumber_ok. intros i k Hi Hk. apply indicated_ok. rewrite Hl. destruct Hn as (_ & _ & Hr & _). pose proof (Hr i k Hi Hk). lia.
  - intros [i k] st Hx. apply in_grid in Hx. destruct Hx as (Hi & Hk). rewrite cell2dof_ok by assumption. cbn [bind].
    rewrite at_pos_ok by assumption. reflexivity.
Qed.
Lemma getSubMap_same dm ind : is_dofmap dm -> Z.of_nat (length ind) = num_dofs dm -> getSubMap dm ind = resetUsingFEVector dm ind.
Proof.
  intros (Hs & Hn) Hl. unfold getSubMap, resetUsingFEVector. rewrite (proj2 (Z.eqb_eq _ _) Hl). cbn [guard bind].
  rewrite !nested_range. f_equal. apply for_list_ext. intros [i k] [[[d n] b] a] Hx. apply in_grid in Hx. destruct Hx as (Hi & Hk).
  rewrite cell2dof_ok by assumption. cbn [bind]. rewrite at_pos_ok by assumption. cbn [bind]. unfold number.
  destruct (indicated_ok ind (the_grid dm i k)) as (c & Ec & _).
  { rewrite Hl. destruct Hn as (_ & _ & Hr & _). pose proof (Hr i k Hi Hk). lia. }
  rewrite Ec. cbn [bind]. reflexivity.
Qed.

Lemma on_cells_get dm sel i : shaped dm -> cells_of dm sel -> (i < length sel)%nat -> aget sel i = Ok (nth i sel O) /\ (nth i sel O < num_cells dm)%nat.
Proof. intros Hs Hc Hi. split; [apply aget_nth; exact Hi|]. apply Hc. apply nth_In. exact Hi. Qed.
Lemma splitter_ok dm sel : is_dofmap dm -> cells_of dm sel ->
  exists dm', splitter_getSubMap dm sel = Ok dm' /\ renumbers (length sel) (dofs_per_element dm) (on_cells (the_grid dm) sel) (fun z => 0 <= z) dm'.
Proof.
  intros (Hs & Hn) Hc. unfold splitter_getSubMap. rewrite nested_range.
  rewrite (for_list_ext _ (fun '(i, k) st => number (fun dof => Ok (0 <=? dof)) (on_cells (the_grid dm) sel i k) (i * dofs_per_element dm + k)%nat st)).
  - apply renumber_ok. intros i k Hi Hk. eexists; split; [reflexivity|]. apply Z.leb_le.
  - intros [i k] st Hx. apply in_grid in Hx. destruct Hx as (Hi & Hk). destruct (on_cells_get dm sel i Hs Hc Hi) as (E & H). rewrite E. cbn [bind].
    rewrite cell2dof_ok by assumption. cbn [bind]. rewrite at_pos_ok by assumption. reflexivity.
Qed.

(** Two passes: the selected cells first. *)
Lemma full_mesh_ok dm sel : is_dofmap dm -> cells_of dm sel ->
  exists dm', splitter_getSubMapOnFullMesh dm (Some sel) = Ok dm' /\ renumbers (num_cells dm) (dofs_per_element dm) (the_grid dm) (on_selected dm sel) dm'.
Proof.
  intros (Hs & Hn) Hc. unfold splitter_getSubMapOnFullMesh. cbn [bind]. set (dpe := dofs_per_element dm). set (nc := num_cells dm).
  set (L1 := positions sel (seq 0 dpe)). set (L2 := positions (seq 0 nc) (seq 0 dpe)).
  assert (IN1 : forall x, In x L1 -> In x L2).
  { intros [i k]. unfold L1, L2. rewrite in_positions, in_grid. intros (H1 & H2). apply in_seq in H2. split; [apply Hc; exact H1|lia]. }
  set (D := the_grid dm).
  destruct (number_loop (gat D) (gpos dpe) (on_selected dm sel) (nc * dpe) (fun dof => Ok (0 <=? dof)) L1 [] (start nc dpe)) as (st1 & E1 & I1).
  { apply ninv_start. }
  { intros x Hx. apply gpos_lt with (nc := nc). apply IN1. exact Hx. }
  { intros x y Hx Hy. apply gpos_inj with (nc := nc); apply IN1; assumption. }
  { intros [i k] p q El _. eexists; split; [reflexivity|]. rewrite Z.leb_le. cbn [gat].
    assert (Hx : In (i, k) L1) by (rewrite El; apply in_or_app; right; left; reflexivity). apply in_positions in Hx. destruct Hx as (Hi & Hk). apply in_seq in Hk.
    split; [intros H; split; [exact H|]|intros (H & _); exact H]. exists i, k. split; [exact Hi|]. split; [unfold dpe in Hk; lia|reflexivity]. }
  destruct (number_loop (gat D) (gpos dpe) (on_selected dm sel) (nc * dpe) (fun _ => Ok false) L2 L1 st1 I1) as (st2 & E2 & I2).
  { intros x Hx. apply gpos_lt with (nc := nc). apply in_app_or in Hx. destruct Hx as [Hx|Hx]; [apply IN1; exact Hx|exact Hx]. }
  { intros x y Hx Hy. apply in_app_or in Hx, Hy. apply gpos_inj with (nc := nc); [destruct Hx as [H|H]|destruct Hy as [H|H]]; try exact H; apply IN1; exact H. }
  { intros x p q El Hy. exists false. split; [reflexivity|]. split; [discriminate|]. intros (_ & c & k & Hsel & Hk & Ez). exfalso.
    apply (Hy (c, k)); [|exact Ez]. apply in_or_app. left. apply in_positions. split; [exact Hsel|]. apply in_seq. unfold dpe. lia. }
  match goal with |- context [bind ?e ?g] => assert (EE : e = Ok st1) end.
  { transitivity (for_list sel (fun i s => for_list (seq 0 dpe) ((fun i k st => number (fun dof => Ok (0 <=? dof)) (D i k) (i * dpe + k)%nat st) i) s) (start nc dpe));
      [|rewrite nested_list, <- E1; apply for_list_ext; intros [i k] s _; reflexivity].
    apply for_list_ext. intros i st Hi. rewrite for_range_list, Nat.sub_0_r. apply for_list_ext.
    intros k st' Hk. apply in_seq in Hk. rewrite cell2dof_ok; [|exact Hs|apply Hc; exact Hi|fold dpe; lia]. cbn [bind].
    rewrite at_pos_ok; [reflexivity|apply Hc; exact Hi|lia]. }
  rewrite EE. cbn [bind]. clear EE.
  match goal with |- context [bind ?e ?g] => assert (EE : e = Ok st2) end.
  { rewrite <- E2. rewrite nested_range. apply for_list_ext. intros [i k] st Hx. apply in_grid in Hx. destruct Hx as (Hi & Hk).
    rewrite cell2dof_ok by assumption. cbn [bind]. rewrite at_pos_ok by assumption. reflexivity. }
  rewrite EE. cbn [bind]. clear EE.
  apply (new_map_ok D (on_selected dm sel) nc dpe (L1 ++ L2) st2 I2).
  intros i k. rewrite in_app_iff. split.
  - intros [H|H]; [apply IN1 in H|]; apply in_grid in H; exact H.
  - intros H. right. apply in_grid. exact H.
Qed.

(** Only the boundary is numbered anew. *)
Lemma ninv_skip {X} (D : X -> Z) pos G N done d n b a p v : ninv D pos G N done (d, n, b, a) -> (forall y, In y done -> pos y <> p) ->
  ninv D pos G N done (d, n, b, upd a p v).
Proof.
  intros (La & Hn & Hb & Hd & H) Hp. unfold ninv. rewrite upd_length. split; [exact La|]. split; [exact Hn|]. split; [exact Hb|]. split; [|exact H].
  intros x Hx. destruct (Hd x Hx) as (w & E & Na). exists w. split; [exact E|]. rewrite nth_error_upd_neq; [exact Na|]. apply not_eq_sym. apply Hp. exact Hx.
Qed.
Definition sub_step (D : Z) (p : nat) (st : dict * Z * list (option Z)) : res (dict * Z * list (option Z)) :=
  let '(d, b, a) := st in
  if D <? 0 then
    match lookup d D with
    | Some v => a' <- wr a p v ;; Ok (d, b, a')
    | None => a' <- wr a p b ;; Ok ((D, b) :: d, b - 1, a')
    end
  else a' <- wr a p D ;; Ok (d, b, a').
Section Sub.
  Variables (D : grid) (nc dpe : nat).
  Let neg (x : nat * nat) : bool := gat D x <? 0.
  Definition sinv (done : list (nat * nat)) (st : dict * Z * list (option Z)) : Prop :=
    let '(d, b, a) := st in
    ninv (gat D) (gpos dpe) (fun _ => False) (nc * dpe) (filter neg done) (d, 0, b, a) /\
    (forall x, In x done -> 0 <= gat D x -> nth_error a (gpos dpe x) = Some (Some (gat D x))).
  Lemma sub_loop l : forall done st, sinv done st -> (forall x, In x (done ++ l) -> In x (positions (seq 0 nc) (seq 0 dpe))) -> NoDup (done ++ l) ->
    exists st', for_list l (fun x st => sub_step (gat D x) (gpos dpe x) st) st = Ok st' /\ sinv (done ++ l) st'.
  Proof using Type.
    induction l as [|x l IH]; intros done st Hinv HG ND; cbn [for_list].
    - exists st. rewrite app_nil_r. auto.
    - assert (EA : done ++ x :: l = (done ++ [x]) ++ l) by (rewrite <- app_assoc; reflexivity).
      assert (ST : exists st1, sub_step (gat D x) (gpos dpe x) st = Ok st1 /\ sinv (done ++ [x]) st1).
      { destruct st as [[d b] a]. destruct Hinv as (Hi & Hd).
        assert (HX : In x (positions (seq 0 nc) (seq 0 dpe))) by (apply HG; apply in_or_app; right; left; reflexivity).
        assert (APART : forall y, In y done -> gpos dpe y <> gpos dpe x).
        { intros y Hy E. assert (HY : In y (positions (seq 0 nc) (seq 0 dpe))) by (apply HG; apply in_or_app; left; exact Hy).
          destruct x as [i k], y as [i' k']. apply in_grid in HX, HY. destruct (pos_inj dpe i' k' i k (proj2 HY) (proj2 HX) E) as (-> & ->).
          apply (NoDup_remove_2 _ _ _ ND). apply in_or_app. left. exact Hy. }
        assert (LT : (gpos dpe x < length a)%nat) by (rewrite (proj1 Hi); apply gpos_lt with (nc := nc); exact HX).
        unfold sub_step. destruct (Z.ltb_spec (gat D x) 0) as [Hx|Hx].
        - destruct (number_inv (gat D) (gpos dpe) (fun _ => False) (nc * dpe) (filter neg done) x (d, 0, b, a) (fun _ => Ok false) Hi) as (st1 & E1 & I1).
          + apply gpos_lt with (nc := nc). exact HX.
          + intros y Hy E. apply filter_In in Hy. exfalso. apply (APART y (proj1 Hy) E).
          + intros _. exists false. split; [reflexivity|]. split; [discriminate|intros []].
          + unfold number in E1. cbn [fst] in E1. cbn [bind] in E1.
            assert (FE : filter neg (done ++ [x]) = filter neg done ++ [x]).
            { rewrite filter_app. f_equal. cbn [filter]. unfold neg at 1. rewrite (proj2 (Z.ltb_lt _ _) Hx). reflexivity. }
            assert (GEN : forall v, forall y, In y (done ++ [x]) -> 0 <= gat D y -> nth_error (upd a (gpos dpe x) v) (gpos dpe y) = Some (Some (gat D y))).
            { intros v y Hy Hy0. apply in_app_or in Hy. destruct Hy as [Hy|[<-|[]]]; [|lia]. rewrite nth_error_upd_neq by (apply not_eq_sym, APART, Hy). apply Hd; assumption. }
            destruct (lookup d (gat D x)) as [v|]; rewrite wr_ok in E1 |- * by exact LT; cbn [bind] in E1 |- *; injection E1 as <-; eexists; (split; [reflexivity|]);
              (split; [rewrite FE; exact I1|apply GEN]).
        - rewrite wr_ok by exact LT. cbn [bind]. eexists; split; [reflexivity|]. split.
          + rewrite filter_app. cbn [filter]. unfold neg at 2. rewrite (proj2 (Z.ltb_ge _ _) Hx), app_nil_r. apply ninv_skip; [exact Hi|].
            intros y Hy. apply filter_In in Hy. apply APART. exact (proj1 Hy).
          + intros y Hy Hy0. apply in_app_or in Hy. destruct Hy as [Hy|[<-|[]]].
            * rewrite nth_error_upd_neq by (apply not_eq_sym, APART, Hy). apply Hd; assumption.
            * apply nth_error_upd_eq. exact LT. }
      destruct ST as (st1 & E1 & I1). rewrite E1. cbn [bind]. rewrite EA in *. apply IH; assumption.
  Qed.
End Sub.
Lemma NoDup_positions is ks : NoDup is -> NoDup ks -> NoDup (positions is ks).
Proof.
  intros Hi Hk. unfold positions. induction Hi as [|i is Hn _ IH]; cbn [flat_map]; [constructor|].
  assert (AP : forall (l1 l2 : list (nat * nat)), NoDup l1 -> NoDup l2 -> (forall x, In x l1 -> ~ In x l2) -> NoDup (l1 ++ l2)).
  { induction l1 as [|x l1 IH1]; intros l2 N1 N2 H; cbn [app]; [exact N2|]. inversion N1 as [|? ? Nx N1']; subst. constructor.
    - rewrite in_app_iff. intros [Hx|Hx]; [exact (Nx Hx)|apply (H x); [left; reflexivity|exact Hx]].
    - apply IH1; [exact N1'|exact N2|]. intros y Hy. apply H. right. exact Hy. }
  apply AP; [|exact IH|].
  - apply FinFun.Injective_map_NoDup; [|exact Hk]. intros a b E. injection E as ->. reflexivity.
  - intros [a b] Ha Hb. apply in_map_iff in Ha. destruct Ha as (k & E & _). injection E as <- <-. apply in_flat_map in Hb. destruct Hb as (j & Hj & Hb).
    apply in_map_iff in Hb. destruct Hb as (k' & E & _). injection E as <- <-. exact (Hn Hj).
Qed.
Lemma onSubMesh_ok dm sel : shaped dm -> cells_of dm sel ->
  exists sub, onSubMesh dm sel = Ok sub /\ keeps (length sel) (dofs_per_element dm) (on_cells (the_grid dm) sel) (num_dofs dm) sub.
Proof.
  intros Hs Hc. unfold onSubMesh. set (nc := length sel). set (dpe := dofs_per_element dm). set (D := on_cells (the_grid dm) sel).
  set (L := positions (seq 0 nc) (seq 0 dpe)).
  destruct (sub_loop D nc dpe L [] ([], -1, alloc (nc * dpe))) as ([[d b] a] & E & (Hi & Hd)).
  { split; [|intros x []]. apply (ninv_start (gat D) (gpos dpe) (fun _ => False) nc dpe). }
  { intros x Hx. exact Hx. }
  { apply NoDup_positions; apply seq_NoDup. }
  cbn [app] in Hi, Hd.
  match goal with |- context [bind ?e ?g] => assert (EE : e = Ok (d, b, a)) end.
  { rewrite <- E. rewrite nested_range. apply for_list_ext. intros [i k] [[d' b'] a'] Hx. apply in_grid in Hx. destruct Hx as (Hi' & Hk).
    destruct (on_cells_get dm sel i Hs Hc Hi') as (Es & H). rewrite Es. cbn [bind]. rewrite cell2dof_ok by assumption. cbn [bind].
    rewrite at_pos_ok by assumption. cbn [bind]. reflexivity. }
  rewrite EE. cbn [bind]. clear EE E.
  destruct Hi as (La & Hn & Hb & Hl & Hk & Hr & Hj & Hsur).
  assert (AT : forall i k, (i < nc)%nat -> (k < dpe)%nat -> (0 <= D i k -> nth_error a (i * dpe + k) = Some (Some (D i k))) /\
     (D i k < 0 -> exists v, lookup d (D i k) = Some v /\ nth_error a (i * dpe + k) = Some (Some v))).
  { intros i k H1 H2. assert (IX : In (i, k) L) by (apply in_grid; auto). split.
    - intros H. apply (Hd (i, k) IX H).
    - intros H. apply (Hl (i, k)). apply filter_In. split; [exact IX|]. apply Z.ltb_lt. exact H. }
  destruct (all_init_ok 0 a) as (lst & E & Ea).
  { intros p Hp. rewrite La in Hp. assert (Hdpe : (0 < dpe)%nat) by (destruct dpe; lia).
    assert (H1 : (p / dpe < nc)%nat) by (apply Nat.div_lt_upper_bound; lia). assert (H2 : (p mod dpe < dpe)%nat) by (apply Nat.mod_upper_bound; lia).
    destruct (AT _ _ H1 H2) as (A1 & A2). rewrite Nat.mul_comm, <- Nat.div_mod in A1, A2 by lia.
    destruct (Z.lt_ge_cases (D (p / dpe)%nat (p mod dpe)%nat) 0) as [H|H]; [destruct (A2 H) as (v & _ & Hv); exists v; exact Hv|eexists; apply A1; exact H]. }
  rewrite E. cbn [bind]. eexists; split; [reflexivity|].
  assert (LL : length lst = (nc * dpe)%nat) by (rewrite <- La, Ea, map_length; reflexivity).
  assert (RD : forall p v, nth_error a p = Some (Some v) -> nth p lst 0 = v).
  { intros p v Na. rewrite Ea, nth_error_map in Na. destruct (nth_error lst p) as [w|] eqn:Ew; cbn [option_map] in Na; [|discriminate]. injection Na as ->.
    apply nth_error_nth with (1 := Ew). }
  assert (V1 : forall i k, (i < nc)%nat -> (k < dpe)%nat -> 0 <= D i k -> nth (i * dpe + k) lst 0 = D i k).
  { intros i k H1 H2 H. apply RD. apply (AT i k H1 H2). exact H. }
  assert (V2 : forall i k, (i < nc)%nat -> (k < dpe)%nat -> D i k < 0 -> lookup d (D i k) = Some (nth (i * dpe + k) lst 0)).
  { intros i k H1 H2 H. destruct (proj2 (AT i k H1 H2) H) as (v & Hv & Na). rewrite Hv. f_equal. symmetry. apply RD. exact Na. }
  assert (NEG : forall z v, lookup d z = Some v -> b < v < 0) by (intros z v Hz; apply (Hr z v Hz)).
  unfold keeps, shaped, the_grid at 1 2 3 4. cbn [num_cells dofs_per_element dofs num_dofs num_boundary_dofs].
  split; [reflexivity|]. split; [reflexivity|]. split; [exact LL|]. split; [reflexivity|]. split; [lia|]. split; [|split].
  - intros i k H1 H2. split; [intros H; apply V1; assumption|]. intros H. pose proof (NEG _ _ (V2 i k H1 H2 H)). lia.
  - intros i k i' k' H1 H2 H3 H4. cbn [the_grid dofs_per_element dofs].
    destruct (Z.lt_ge_cases (D i k) 0) as [P|P], (Z.lt_ge_cases (D i' k') 0) as [Q|Q].
    + pose proof (V2 i k H1 H2 P) as A1. pose proof (V2 i' k' H3 H4 Q) as A2. split.
      * intros EQ. rewrite EQ in A1. unfold the_grid. cbn [dofs_per_element dofs]. congruence.
      * unfold the_grid. cbn [dofs_per_element dofs]. intros EQ. rewrite EQ in A1. apply (Hj _ _ _ A1 A2).
    + pose proof (NEG _ _ (V2 i k H1 H2 P)). unfold the_grid. cbn [dofs_per_element dofs]. rewrite (V1 i' k' H3 H4 Q). lia.
    + pose proof (NEG _ _ (V2 i' k' H3 H4 Q)). unfold the_grid. cbn [dofs_per_element dofs]. rewrite (V1 i k H1 H2 P). lia.
    + unfold the_grid. cbn [dofs_per_element dofs]. rewrite (V1 i' k' H3 H4 Q), (V1 i k H1 H2 P). tauto.
  - intros v Hv. destruct (Hsur v ltac:(lia)) as (z & Hz). destruct (Hk z v Hz) as ([i k] & Hx & Ez).
    apply filter_In in Hx. destruct Hx as (Hx & Hneg). apply in_grid in Hx. destruct Hx as (H1 & H2). apply Z.ltb_lt in Hneg. cbn [gat] in *.
    exists i, k. split; [exact H1|]. split; [exact H2|]. pose proof (V2 i k H1 H2 Hneg) as A. rewrite Ez in A. unfold the_grid. cbn [dofs_per_element dofs]. congruence.
Qed.
