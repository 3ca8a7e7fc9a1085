(** Selected cells, complements, unions. *)
From Verif Require Import Util Lin CSRModel AssemblyProofs TransferProofs2 SubMapModel SubMapSpec SubMapProofs SubMapProofs2.
Local Open Scope Z_scope.
Set Default Proof Using "Type".

Lemma has_dof_ok dm i ks : shaped dm -> (i < num_cells dm)%nat -> (forall k, In k ks -> (k < dofs_per_element dm)%nat) ->
  has_dof dm i ks = Ok (existsb (fun k => 0 <=? the_grid dm i k) ks).
Proof.
  intros Hs Hi. induction ks as [|k ks IH]; intros Hk; cbn [has_dof existsb]; [reflexivity|].
  rewrite cell2dof_ok; [|exact Hs|exact Hi|apply Hk; left; reflexivity]. cbn [bind].
  destruct (0 <=? the_grid dm i k); cbn [orb]; [reflexivity|]. apply IH. intros k' H. apply Hk. right. exact H.
Qed.
Lemma collect {A} (f : A -> bool) (body : A -> list A -> res (list A)) l : forall acc,
  (forall x acc, In x l -> body x acc = Ok (if f x then acc ++ [x] else acc)) -> for_list l body acc = Ok (acc ++ filter f l).
Proof.
  induction l as [|x l IH]; intros acc H; cbn [for_list filter]; [rewrite app_nil_r; reflexivity|].
  rewrite (H x acc (or_introl eq_refl)). cbn [bind]. rewrite IH by (intros y a Hy; apply H; right; exact Hy).
  destruct (f x); [rewrite <- app_assoc|]; reflexivity.
Qed.
Definition chosen (dm : dofmap) : list nat := filter (fun i => existsb (fun k => 0 <=? the_grid dm i k) (seq 0 (dofs_per_element dm))) (seq 0 (num_cells dm)).
Lemma selectCells_ok dm : shaped dm -> selectCells dm = Ok (chosen dm).
Proof.
  intros Hs. unfold selectCells, chosen. rewrite for_range_list, Nat.sub_0_r.
  rewrite (collect (fun i => existsb (fun k => 0 <=? the_grid dm i k) (seq 0 (dofs_per_element dm)))); [reflexivity|].
  intros i acc Hi. apply in_seq in Hi. rewrite has_dof_ok; [reflexivity|exact Hs|lia|]. intros k Hk. apply in_seq in Hk. lia.
Qed.
Lemma in_chosen dm c : In c (chosen dm) <-> (c < num_cells dm)%nat /\ exists k, (k < dofs_per_element dm)%nat /\ 0 <= the_grid dm c k.
Proof.
  unfold chosen. rewrite filter_In, in_seq, existsb_exists. split.
  - intros (H1 & k & H2 & H3). apply in_seq in H2. apply Z.leb_le in H3. split; [lia|]. exists k. split; [lia|exact H3].
  - intros (H1 & k & H2 & H3). split; [lia|]. exists k. split; [apply in_seq; lia|apply Z.leb_le; exact H3].
Qed.
Lemma NoDup_chosen dm : NoDup (chosen dm).
Proof. apply NoDup_filter. apply seq_NoDup. Qed.
(** If every degree of freedom is in a selected cell, none is lost. *)
Lemma keeps_dofmap dm sel sub : is_dofmap dm -> cells_of dm sel ->
  keeps (length sel) (dofs_per_element dm) (on_cells (the_grid dm) sel) (num_dofs dm) sub ->
  (forall v, 0 <= v < num_dofs dm -> exists c k, In c sel /\ (k < dofs_per_element dm)%nat /\ the_grid dm c k = v) -> is_dofmap sub.
Proof.
  intros (Hs & Hn & Hnb & Hr & Hsur) Hc (E1 & E2 & Hsh & E3 & Hb & Hv & _ & Hbs) Hall. split; [exact Hsh|]. rewrite E1, E2, E3.
  split; [exact Hn|]. split; [exact Hb|]. split.
  - intros i k Hi Hk. destruct (Hv i k Hi Hk) as (H1 & H2). destruct (on_cells_get dm sel i Hs Hc Hi) as (_ & HC).
    pose proof (Hr _ _ HC Hk) as HR. change (the_grid dm (nth i sel O) k) with (on_cells (the_grid dm) sel i k) in HR.
    destruct (Z.lt_ge_cases (on_cells (the_grid dm) sel i k) 0) as [L|L]; [pose proof (H2 L); lia|rewrite (H1 L); lia].
  - intros v Hv'. destruct (Z.lt_ge_cases v 0) as [L|L]; [apply Hbs; lia|].
    destruct (Hall v ltac:(lia)) as (c & k & Hin & Hk & Ev). destruct (In_nth sel c O Hin) as (i & Hi & Ei).
    exists i, k. split; [exact Hi|]. split; [exact Hk|]. rewrite (proj1 (Hv i k Hi Hk)); unfold on_cells; rewrite Ei, Ev; [reflexivity|exact L].
Qed.
Lemma getSubMapOnSubMesh_ok dm : is_dofmap dm ->
  exists sel sub, getSubMapOnSubMesh dm = Ok sub /\ selectCells dm = Ok sel /\ NoDup sel /\
    (forall c, In c sel <-> (c < num_cells dm)%nat /\ exists k, (k < dofs_per_element dm)%nat /\ 0 <= the_grid dm c k) /\
    keeps (length sel) (dofs_per_element dm) (on_cells (the_grid dm) sel) (num_dofs dm) sub /\ is_dofmap sub.
Proof.
  intros HD. assert (HC : cells_of dm (chosen dm)) by (intros c Hc; apply in_chosen in Hc; apply Hc).
  destruct (onSubMesh_ok dm (chosen dm) (proj1 HD) HC) as (sub & E & K). exists (chosen dm), sub.
  unfold getSubMapOnSubMesh. rewrite (selectCells_ok dm (proj1 HD)). cbn [bind].
  split; [exact E|]. split; [reflexivity|]. split; [apply NoDup_chosen|]. split; [apply in_chosen|]. split; [exact K|].
  apply (keeps_dofmap dm (chosen dm) sub HD HC K). intros v Hv. destruct HD as (_ & _ & Hnb & _ & Hsur).
  destruct (Hsur v ltac:(lia)) as (i & k & Hi & Hk & Ev). exists i, k. split; [|auto]. apply in_chosen. split; [exact Hi|]. exists k. split; [exact Hk|lia].
Qed.
Lemma reduced_ok dm sel : is_dofmap dm -> cells_of dm sel ->
  ((forall v, 0 <= v < num_dofs dm -> exists c k, In c sel /\ (k < dofs_per_element dm)%nat /\ the_grid dm c k = v) ->
     exists sub, getReducedMeshDoFMap dm (Some sel) = Ok sub /\
       keeps (length sel) (dofs_per_element dm) (on_cells (the_grid dm) sel) (num_dofs dm) sub /\ is_dofmap sub) /\
  ((exists v, 0 <= v < num_dofs dm /\ forall c k, In c sel -> (k < dofs_per_element dm)%nat -> the_grid dm c k <> v) ->
     getReducedMeshDoFMap dm (Some sel) = Err EAssert).
Proof.
  intros HD HC. pose proof HD as (Hs & Hn & Hnb & Hr & Hsur). unfold getReducedMeshDoFMap.
  set (L := positions sel (seq 0 (dofs_per_element dm))). set (N := Z.to_nat (num_dofs dm)).
  assert (LOOP : forall l done a, (forall x, In x l -> (fst x < num_cells dm)%nat /\ (snd x < dofs_per_element dm)%nat) ->
     length a = N -> (forall v, (v < N)%nat -> nth v a false = true <-> exists x, In x done /\ gat (the_grid dm) x = Z.of_nat v) ->
     exists a', for_list l (fun '(c, k) a => dof <- cell2dof dm c k ;; if 0 <=? dof then aset a (Z.to_nat dof) true else Ok a) a = Ok a' /\ length a' = N /\
       (forall v, (v < N)%nat -> nth v a' false = true <-> exists x, In x (done ++ l) /\ gat (the_grid dm) x = Z.of_nat v)).
  { induction l as [|[c k] l IH]; intros done a Hl La Ha; cbn [for_list].
    - exists a. rewrite app_nil_r. auto.
    - destruct (Hl (c, k) (or_introl eq_refl)) as (H1 & H2). cbn [fst snd] in H1, H2. rewrite cell2dof_ok by assumption. cbn [bind].
      assert (EA : done ++ (c, k) :: l = (done ++ [(c, k)]) ++ l) by (rewrite <- app_assoc; reflexivity). rewrite EA.
      pose proof (Hr c k H1 H2) as HR. destruct (Z.leb_spec 0 (the_grid dm c k)) as [P|P].
      + rewrite aset_ok by (unfold N in La; lia). cbn [bind]. apply IH.
        * intros x Hx. apply Hl. right. exact Hx.
        * rewrite upd_length. exact La.
        * intros v Hv. destruct (Nat.eq_dec (Z.to_nat (the_grid dm c k)) v) as [Ev|Nv].
          -- subst v. rewrite nth_upd_eq by (rewrite La; exact Hv). split; [intros _|reflexivity]. exists (c, k). split; [apply in_or_app; right; left; reflexivity|]. cbn [gat]. lia.
          -- rewrite nth_upd_neq by exact Nv. rewrite (Ha v Hv). split; intros (x & Hx & Ex).
             ++ exists x. split; [apply in_or_app; left; exact Hx|exact Ex].
             ++ apply in_app_or in Hx. destruct Hx as [Hx|[<-|[]]]; [exists x; auto|]. cbn [gat] in Ex. lia.
      + cbn [bind]. apply IH; [intros x Hx; apply Hl; right; exact Hx|exact La|]. intros v Hv. rewrite (Ha v Hv). split; intros (x & Hx & Ex).
        * exists x. split; [apply in_or_app; left; exact Hx|exact Ex].
        * apply in_app_or in Hx. destruct Hx as [Hx|[<-|[]]]; [exists x; auto|]. cbn [gat] in Ex. lia. }
  destruct (LOOP L [] (repeat false N)) as (a & E & La & Ha).
  { intros [c k] Hx. apply in_positions in Hx. destruct Hx as (H1 & H2). apply in_seq in H2. cbn [fst snd]. split; [apply HC; exact H1|lia]. }
  { apply repeat_length. }
  { intros v Hv. rewrite nth_repeat. split; [discriminate|]. intros (x & [] & _). }
  cbn [app] in Ha.
  assert (EE : for_list sel (fun c a => for_range 0 (dofs_per_element dm) (fun k a => dof <- cell2dof dm c k ;; if 0 <=? dof then aset a (Z.to_nat dof) true else Ok a) a) (repeat false N) = Ok a).
  { rewrite <- E. unfold L. rewrite <- (nested_list (fun c k a => dof <- cell2dof dm c k ;; if 0 <=? dof then aset a (Z.to_nat dof) true else Ok a)).
    apply for_list_ext. intros c s _. rewrite for_range_list, Nat.sub_0_r. reflexivity. }
  rewrite EE. cbn [bind].
  assert (HL : forall v, (v < N)%nat -> nth v a false = true <-> exists c k, In c sel /\ (k < dofs_per_element dm)%nat /\ the_grid dm c k = Z.of_nat v).
  { intros v Hv. rewrite (Ha v Hv). split.
    - intros ([c k] & Hx & Ex). apply in_positions in Hx. destruct Hx as (H1 & H2). apply in_seq in H2. exists c, k. split; [exact H1|]. split; [lia|exact Ex].
    - intros (c & k & H1 & H2 & H3). exists (c, k). split; [apply in_positions; split; [exact H1|apply in_seq; lia]|exact H3]. }
  split.
  - intros Hall. assert (EF : forallb (fun x => x) a = true).
    { apply forallb_forall. intros x Hx. destruct (In_nth a x false Hx) as (v & Hv & <-). rewrite La in Hv. apply HL; [exact Hv|].
      destruct (Hall (Z.of_nat v)) as (c & k & H); [unfold N in Hv; lia|]. exists c, k. exact H. }
    rewrite EF. cbn [guard bind]. destruct (onSubMesh_ok dm sel Hs HC) as (sub & Eo & K). exists sub. split; [exact Eo|]. split; [exact K|].
    apply (keeps_dofmap dm sel sub HD HC K Hall).
  - intros (v & Hv & Hno). assert (EF : forallb (fun x => x) a = false).
    { apply not_true_is_false. intros F. rewrite forallb_forall in F. assert (Hv' : (Z.to_nat v < N)%nat) by (unfold N; lia).
      assert (Q : nth (Z.to_nat v) a false = true) by (apply F; apply nth_In; rewrite La; exact Hv').
      apply HL in Q; [|exact Hv']. destruct Q as (c & k & H1 & H2 & H3). apply (Hno c k H1 H2). lia. }
    rewrite EF. reflexivity.
Qed.

(** Loops that overwrite every entry once. *)
Lemma overwrite_loop (g : nat * nat -> Z -> Z) (dpe nc : nat) (a0 : list Z) l : forall done a,
  length a0 = (nc * dpe)%nat -> length a = (nc * dpe)%nat -> (forall x, In x (done ++ l) -> In x (positions (seq 0 nc) (seq 0 dpe))) -> NoDup (done ++ l) ->
  (forall x, In x done -> nth (gpos dpe x) a 0 = g x (nth (gpos dpe x) a0 0)) -> (forall x, In x l -> nth (gpos dpe x) a 0 = nth (gpos dpe x) a0 0) ->
  exists a', for_list l (fun x a => v <- aget a (gpos dpe x) ;; aset a (gpos dpe x) (g x v)) a = Ok a' /\ length a' = (nc * dpe)%nat /\
    (forall x, In x (done ++ l) -> nth (gpos dpe x) a' 0 = g x (nth (gpos dpe x) a0 0)).
Proof.
  induction l as [|x l IH]; intros done a L0 La HG ND Hd Hl; cbn [for_list].
  - exists a. rewrite app_nil_r. auto.
  - assert (HX : In x (positions (seq 0 nc) (seq 0 dpe))) by (apply HG; apply in_or_app; right; left; reflexivity).
    pose proof (gpos_lt nc dpe x HX) as LT. rewrite (aget_nth a (gpos dpe x) 0) by lia. cbn [bind]. rewrite aset_ok by lia. cbn [bind].
    assert (APART : forall y, In y (done ++ l) -> gpos dpe x <> gpos dpe y).
    { intros y Hy E. assert (HY : In y (positions (seq 0 nc) (seq 0 dpe))) by (apply HG; apply in_app_or in Hy; apply in_or_app; destruct Hy; [left|right; right]; assumption).
      destruct x as [i k], y as [i' k']. apply in_grid in HX, HY. destruct (pos_inj dpe i k i' k' (proj2 HX) (proj2 HY) E) as (-> & ->).
      apply (NoDup_remove_2 _ _ _ ND). exact Hy. }
    assert (EA : done ++ x :: l = (done ++ [x]) ++ l) by (rewrite <- app_assoc; reflexivity). rewrite EA in *. apply IH; try assumption.
    + rewrite upd_length. exact La.
    + intros y Hy. apply in_app_or in Hy. destruct Hy as [Hy|[<-|[]]].
      * rewrite nth_upd_neq by (apply APART; apply in_or_app; left; exact Hy). apply Hd. exact Hy.
      * rewrite nth_upd_eq by lia. rewrite (Hl x (or_introl eq_refl)). reflexivity.
    + intros y Hy. rewrite nth_upd_neq by (apply APART; apply in_or_app; right; exact Hy). apply Hl. right. exact Hy.
Qed.
Lemma overwrite_all g dpe nc a0 : length a0 = (nc * dpe)%nat ->
  exists a', for_list (positions (seq 0 nc) (seq 0 dpe)) (fun x a => v <- aget a (gpos dpe x) ;; aset a (gpos dpe x) (g x v)) a0 = Ok a' /\ length a' = (nc * dpe)%nat /\
    (forall i k, (i < nc)%nat -> (k < dpe)%nat -> nth (i * dpe + k) a' 0 = g (i, k) (nth (i * dpe + k) a0 0)).
Proof.
  intros L0. destruct (overwrite_loop g dpe nc a0 (positions (seq 0 nc) (seq 0 dpe)) [] a0 L0 L0) as (a' & E & La & H).
  - intros x Hx. exact Hx.
  - apply NoDup_positions; apply seq_NoDup.
  - intros x [].
  - reflexivity.
  - exists a'. split; [exact E|]. split; [exact La|]. intros i k Hi Hk. apply (H (i, k)). apply in_grid. auto.
Qed.
Lemma complement_ok dm : is_dofmap dm ->
  exists dm', getComplementDoFMap dm = Ok dm' /\ num_cells dm' = num_cells dm /\ dofs_per_element dm' = dofs_per_element dm /\
    num_dofs dm' = num_boundary_dofs dm /\ num_boundary_dofs dm' = num_dofs dm /\ is_dofmap dm' /\
    (forall i k, (i < num_cells dm)%nat -> (k < dofs_per_element dm)%nat -> the_grid dm' i k = - the_grid dm i k - 1) /\
    getComplementDoFMap dm' = Ok dm.
Proof.
  intros (Hs & Hn & Hnb & Hr & Hsur). set (nc := num_cells dm) in *. set (dpe := dofs_per_element dm) in *.
  assert (STEP : forall a, length a = (nc * dpe)%nat -> exists a',
     for_range 0 nc (fun i a => for_range 0 dpe (fun k a => p <- at_pos nc dpe i k ;; v <- aget a p ;; aset a p (- v - 1)) a) a = Ok a' /\ length a' = (nc * dpe)%nat /\
     (forall i k, (i < nc)%nat -> (k < dpe)%nat -> nth (i * dpe + k) a' 0 = - nth (i * dpe + k) a 0 - 1)).
  { intros a La. destruct (overwrite_all (fun _ v => - v - 1) dpe nc a La) as (a' & E & La' & H). exists a'. split; [|auto].
    rewrite nested_range, <- E. apply for_list_ext. intros [i k] s Hx. apply in_grid in Hx. destruct Hx as (Hi & Hk). rewrite at_pos_ok by assumption. reflexivity. }
  destruct (STEP (dofs dm) Hs) as (a & E & La & Ha). unfold getComplementDoFMap at 1. fold nc dpe. rewrite E. cbn [bind]. eexists; split; [reflexivity|].
  unfold is_dofmap, shaped, the_grid. cbn [num_cells dofs_per_element dofs num_dofs num_boundary_dofs]. fold dpe.
  split; [reflexivity|]. split; [reflexivity|]. split; [reflexivity|]. split; [reflexivity|]. split; [|split; [exact Ha|]].
  - split; [exact La|]. split; [exact Hnb|]. split; [exact Hn|]. split.
    + intros i k Hi Hk. rewrite (Ha i k Hi Hk). pose proof (Hr i k Hi Hk) as H. unfold the_grid in H. fold dpe in H. lia.
    + intros v Hv. destruct (Hsur (- v - 1) ltac:(lia)) as (i & k & Hi & Hk & Ev). exists i, k. split; [exact Hi|]. split; [exact Hk|].
      rewrite (Ha i k Hi Hk). unfold the_grid in Ev. fold dpe in Ev. lia.
  - unfold getComplementDoFMap. cbn [num_cells dofs_per_element dofs num_dofs num_boundary_dofs]. destruct (STEP a La) as (b & Eb & Lb & Hb). rewrite Eb. cbn [bind].
    assert (EQ : b = dofs dm).
    { apply (nth_ext b (dofs dm) 0 0); [rewrite Lb; symmetry; exact Hs|]. intros p Hp. rewrite Lb in Hp. assert (Hdpe : (0 < dpe)%nat) by (destruct dpe; lia).
      assert (H1 : (p / dpe < nc)%nat) by (apply Nat.div_lt_upper_bound; lia). assert (H2 : (p mod dpe < dpe)%nat) by (apply Nat.mod_upper_bound; lia).
      pose proof (Hb _ _ H1 H2) as B1. pose proof (Ha _ _ H1 H2) as B2. rewrite Nat.mul_comm, <- Nat.div_mod in B1, B2 by lia. lia. }
    rewrite EQ. unfold nc, dpe. destruct dm; reflexivity.
Qed.
(** The union of two maps that complement each other. *)
Lemma combine_ok dm1 dm2 : is_dofmap dm1 -> is_dofmap dm2 -> num_cells dm2 = num_cells dm1 -> dofs_per_element dm2 = dofs_per_element dm1 ->
  num_dofs dm1 = num_boundary_dofs dm2 -> num_boundary_dofs dm1 = num_dofs dm2 ->
  same_classes (num_cells dm1) (dofs_per_element dm1) (the_grid dm1) (the_grid dm2) ->
  (forall i k, (i < num_cells dm1)%nat -> (k < dofs_per_element dm1)%nat -> (0 <= the_grid dm1 i k <-> the_grid dm2 i k < 0)) ->
  exists dm, combine_maps dm1 dm2 = Ok dm /\ full_of dm1 dm /\ num_dofs dm = num_dofs dm1 + num_dofs dm2 /\
    (forall i k, (i < num_cells dm1)%nat -> (k < dofs_per_element dm1)%nat ->
       (0 <= the_grid dm1 i k -> the_grid dm i k = the_grid dm1 i k) /\ (0 <= the_grid dm2 i k -> the_grid dm i k = num_dofs dm1 + the_grid dm2 i k)).
Proof.
  intros (Hs1 & N1 & NB1 & R1 & S1) (Hs2 & N2 & NB2 & R2 & S2) EC ED E1 E2 SC HX. unfold combine_maps.
  rewrite (proj2 (Z.eqb_eq _ _) E1), (proj2 (Z.eqb_eq _ _) E2). cbn [guard bind]. set (nc := num_cells dm1) in *. set (dpe := dofs_per_element dm1) in *.
  set (g := fun (x : nat * nat) (_ : Z) => if 0 <=? gat (the_grid dm1) x then gat (the_grid dm1) x else num_dofs dm1 + gat (the_grid dm2) x).
  destruct (overwrite_all g dpe nc (dofs dm1) Hs1) as (a & E & La & Ha).
  match goal with |- context [bind ?e ?h] => assert (EE : e = Ok a) end.
  { rewrite nested_range, <- E. apply for_list_ext. intros [i k] s Hx. apply in_grid in Hx. destruct Hx as (Hi & Hk). rewrite at_pos_ok by assumption. cbn [bind].
    rewrite cell2dof_ok by assumption. cbn [bind]. rewrite cell2dof_ok; [|exact Hs2|rewrite EC; exact Hi|rewrite ED; exact Hk]. cbn [bind gpos].
    assert (AG : forall w, bind (aget s (i * dpe + k)%nat) (fun v => aset s (i * dpe + k)%nat w) = aset s (i * dpe + k)%nat w).
    { intros w. unfold aget. destruct (nth_error s (i * dpe + k)%nat) eqn:En; cbn [bind]; [reflexivity|]. apply nth_error_None in En.
      unfold aset. rewrite (proj2 (Nat.ltb_ge _ _) En). reflexivity. }
    unfold g. cbn [gat]. rewrite AG. pose proof (HX i k Hi Hk) as H. destruct (Z.leb_spec 0 (the_grid dm1 i k)) as [P|P].
    - rewrite (proj2 (Z.ltb_lt _ _) (proj1 H P)). reflexivity.
    - assert (Q : 0 <= the_grid dm2 i k) by (destruct (Z.lt_ge_cases (the_grid dm2 i k) 0) as [Q|Q]; [apply H in Q; lia|exact Q]).
      rewrite (proj2 (Z.ltb_lt _ _) P), (proj2 (Z.leb_le _ _) Q). reflexivity. }
  rewrite EE. cbn [bind]. eexists; split; [reflexivity|].
  unfold full_of, is_dofmap, shaped. cbn [num_cells dofs_per_element dofs num_dofs num_boundary_dofs].
  set (D := the_grid (DM nc dpe a (num_dofs dm1 + num_dofs dm2) 0)).
  assert (VAL : forall i k, (i < nc)%nat -> (k < dpe)%nat -> D i k = if 0 <=? the_grid dm1 i k then the_grid dm1 i k else num_dofs dm1 + the_grid dm2 i k).
  { intros i k Hi Hk. unfold D, the_grid at 1. cbn [dofs_per_element dofs]. rewrite (Ha i k Hi Hk). reflexivity. }
  assert (R2' : forall i k, (i < nc)%nat -> (k < dpe)%nat -> - num_boundary_dofs dm2 <= the_grid dm2 i k < num_dofs dm2) by (rewrite <- EC, <- ED; exact R2).
  split; [|split; [reflexivity|]].
  - split; [reflexivity|]. split; [reflexivity|]. split; [|split; [reflexivity|]].
    + split; [exact La|]. split; [lia|]. split; [lia|]. split.
      * intros i k Hi Hk. rewrite (VAL i k Hi Hk). pose proof (R1 i k Hi Hk). pose proof (R2' i k Hi Hk). pose proof (HX i k Hi Hk). destruct (Z.leb_spec 0 (the_grid dm1 i k)); lia.
      * intros v Hv. destruct (Z.lt_ge_cases v (num_dofs dm1)) as [L|L].
        -- destruct (S1 v ltac:(lia)) as (i & k & Hi & Hk & Ev). exists i, k. split; [exact Hi|]. split; [exact Hk|]. rewrite (VAL i k Hi Hk), Ev.
           rewrite (proj2 (Z.leb_le _ _)) by lia. reflexivity.
        -- destruct (S2 (v - num_dofs dm1) ltac:(lia)) as (i & k & Hi & Hk & Ev). rewrite EC in Hi. rewrite ED in Hk. exists i, k. split; [exact Hi|]. split; [exact Hk|].
           rewrite (VAL i k Hi Hk), Ev. pose proof (HX i k Hi Hk). rewrite (proj2 (Z.leb_gt _ _)) by lia. lia.
    + intros i k i' k' H1 H2 H3 H4. rewrite (VAL i k H1 H2), (VAL i' k' H3 H4). pose proof (R1 i k H1 H2). pose proof (R1 i' k' H3 H4).
      pose proof (HX i k H1 H2). pose proof (HX i' k' H3 H4). pose proof (SC i k i' k' H1 H2 H3 H4).
      destruct (Z.leb_spec 0 (the_grid dm1 i k)), (Z.leb_spec 0 (the_grid dm1 i' k')); lia.
  - intros i k Hi Hk. rewrite (VAL i k Hi Hk). pose proof (HX i k Hi Hk). destruct (Z.leb_spec 0 (the_grid dm1 i k)); lia.
Qed.
