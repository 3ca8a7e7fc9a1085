(** Shape functions and nodes in terms of the places of the DoFs. *)
From Verif Require Import Util Lin MeshSpec DoFMapSpec MeshModel LocalModel LocalSpec LocalProofs RestrictionModel RestrictionSpec.
Set Default Proof Using "Type".
Local Open Scope Qc_scope.

(** ** Local DoFs *)
Inductive lplace := LV (a : nat) | LE (a b m : nat) | LF (a b c : nat) | LC (m : nat).
Definition lplaces (e : fe) (d : nat) : list lplace :=
  match e, d with
  | P0, _ => [LC 0]
  | P1, _ => map LV (seq 0 (S d))
  | P2, 1%nat => [LV 0; LV 1; LC 0]
  | P2, _ => map LV (seq 0 (S d)) ++ map (fun ab => LE (fst ab) (snd ab) 0) (local_edges d)
  | P3, 1%nat => [LV 0; LV 1; LC 0; LC 1]
  | P3, 2%nat => map LV (seq 0 3) ++ flat_map (fun ab => [LE (fst ab) (snd ab) 0; LE (fst ab) (snd ab) 1]) (local_edges 2) ++ [LC 0]
  | P3, _ => map LV (seq 0 (S d)) ++ flat_map (fun ab => [LE (fst ab) (snd ab) 0; LE (fst ab) (snd ab) 1]) (local_edges d) ++
             map (fun f => LF (fst (fst f)) (snd (fst f)) (snd f)) (local_faces d)
  end.
Definition per_edge (e : fe) : nat := match e with P3 => 2 | _ => 1 end.
Definition gplace (n i : nat) (nm : nat -> nat) (lp : lplace) : place :=
  match lp with
  | LV a => (EVertex (nm a), O)
  | LE a b m => (the_edge (nm a) (nm b), if (nm b <? nm a)%nat then (n - 1 - m)%nat else m)
  | LF a b c => (the_face (nm a) (nm b) (nm c), O)
  | LC m => (ECell i, m)
  end.
Definition at_cell (c : list nat) (a : nat) : nat := nth a c 0%nat.

Lemma fe_places_eq e d i c : (1 <= d <= 3)%nat -> length c = S d ->
  fe_places e d i c = map (gplace (per_edge e) i (at_cell c)) (lplaces e d).
Proof.
  intros Hd Hc. destruct d as [|[|[|[|d]]]]; try lia; (destruct c as [|v0 [|v1 [|v2 [|v3 [|v4 c]]]]]; try discriminate Hc); destruct e; reflexivity.
Qed.

(** ** Values of the shape functions *)
Definition edge_shape (m : nat) (x y : Qc) : Qc :=
  match m with O => qf 27 2 * x * y * (x - qf 1 3) | _ => qf 27 2 * y * x * (y - qf 1 3) end.
(** The shape function of a place at the point with coordinates X v, v a vertex. *)
Definition shape_at (e : fe) (C : list (list nat)) (p : place) (X : nat -> Qc) : Qc :=
  match e, fst p with
  | P0, _ => 1
  | P1, EVertex v => X v
  | P2, EVertex v => X v * (qz 2 * X v - 1)
  | P2, EEdge a b => qz 4 * X a * X b
  | P2, ECell i => match nth i C [] with [a; b] => qz 4 * X a * X b | _ => 0 end
  | P3, EVertex v => qf 9 2 * X v * (X v - qf 1 3) * (X v - qf 2 3)
  | P3, EEdge a b => edge_shape (snd p) (X a) (X b)
  | P3, EFace a b c => qz 27 * X a * X b * X c
  | P3, ECell i => match nth i C [] with [a; b] => edge_shape (snd p) (X a) (X b) | [a; b; c] => qz 27 * X a * X b * X c | _ => 0 end
  | _, _ => 0
  end.

Definition lshape (e : fe) (d : nat) (lp : lplace) : list Qc -> Qc :=
  match e, lp with
  | P0, _ => shapeP0
  | P1, LV a => shapeP1 a
  | P2, LV a => shapeP2_vertex a
  | P2, LE a b _ => shapeP2_edge a b
  | P2, LC _ => shapeP2_edge 0 1
  | P3, LV a => shapeP3_vertex a
  | P3, LE a b m => match m with O => shapeP3_edge a b | _ => shapeP3_edge b a end
  | P3, LF a b c => shapeP3_face a b c
  | P3, LC m => match d with 1%nat => match m with O => shapeP3_edge 0 1 | _ => shapeP3_edge 1 0 end | _ => shapeP3_face 0 1 2 end
  | _, _ => fun _ => 0
  end.
Lemma lshape_eq e d l : (1 <= d <= 3)%nat -> map (fun f => f l) (fe_shapes e d) = map (fun lp => lshape e d lp l) (lplaces e d).
Proof.
  intros Hd. destruct d as [|[|[|[|d]]]]; try lia; destruct e; try reflexivity;
    cbn [fe_shapes lplaces shapesP2 shapesP3 map app seq local_edges local_faces flat_map lshape fst snd]; unfold shapeP2_edge, shapeP3_face;
    repeat (apply f_equal2; [try reflexivity; ring|]); try reflexivity.
Qed.
Lemma lplaces_length e d : (1 <= d <= 3)%nat -> length (lplaces e d) = length (fe_shapes e d).
Proof. intros Hd. destruct d as [|[|[|[|d]]]]; try lia; destruct e; reflexivity. Qed.

(** the vertices of the entity of a local DoF *)
Definition lvertices (d : nat) (lp : lplace) : list nat :=
  match lp with LV a => [a] | LE a b _ => [a; b] | LF a b c => [a; b; c] | LC _ => seq 0 (S d) end.
Lemma lvertices_le e d lp a : (1 <= d <= 3)%nat -> In lp (lplaces e d) -> In a (lvertices d lp) -> (a <= d)%nat.
Proof.
  intros Hd. assert (H : forallb (fun lp => forallb (fun a => (a <=? d)%nat) (lvertices d lp)) (lplaces e d) = true).
  { destruct d as [|[|[|[|d]]]]; try lia; destruct e; reflexivity. }
  rewrite forallb_forall in H. intros Hl Ha. specialize (H lp Hl). rewrite forallb_forall in H. apply Nat.leb_le, H, Ha.
Qed.

Lemma face_sorted {A} (f : nat -> nat -> nat -> A) a b c :
  (forall a b c, f a b c = f b a c) -> (forall a b c, f a b c = f a c b) ->
  exists x y z, the_face a b c = EFace x y z /\ f x y z = f a b c.
Proof.
  intros H1 H2. unfold the_face. eexists _, _, _. split; [reflexivity|].
  assert (T : forall lo m hi, (lo = Nat.min a (Nat.min b c))%nat -> (hi = Nat.max a (Nat.max b c))%nat -> (m = a + b + c - lo - hi)%nat -> f lo m hi = f a b c).
  { intros lo m hi El Eh Em.
    assert (K : ((lo = a /\ m = b /\ hi = c) \/ (lo = a /\ m = c /\ hi = b) \/ (lo = b /\ m = a /\ hi = c) \/ (lo = b /\ m = c /\ hi = a) \/
                 (lo = c /\ m = a /\ hi = b) \/ (lo = c /\ m = b /\ hi = a))%nat).
    { clear H1 H2. destruct (Nat.le_ge_cases a b) as [L1|L1], (Nat.le_ge_cases b c) as [L2|L2], (Nat.le_ge_cases a c) as [L3|L3];
        first [left; lia|right; left; lia|right; right; left; lia|right; right; right; left; lia|right; right; right; right; left; lia|do 5 right; lia]. }
    clear El Eh Em. destruct K as [(-> & -> & ->)|[(-> & -> & ->)|[(-> & -> & ->)|[(-> & -> & ->)|[(-> & -> & ->)|(-> & -> & ->)]]]]].
    - reflexivity.
    - apply H2.
    - apply H1.
    - rewrite H2. apply H1.
    - rewrite H1. apply H2.
    - rewrite H2, H1. apply H2. }
  apply T; reflexivity.
Qed.

(** ** The value depends on the place only *)
Lemma shape_place e d C i c lp l X : (1 <= d <= 3)%nat -> length c = S d -> nth i C [] = c -> In lp (lplaces e d) ->
  (forall a, (a <= d)%nat -> vat l a = X (at_cell c a)) ->
  lshape e d lp l = shape_at e C (gplace (per_edge e) i (at_cell c) lp) X.
Proof.
  intros Hd Hc Hi Hin HX. pose proof (lvertices_le e d lp) as HV.
  assert (HX' : forall a, In a (lvertices d lp) -> vat l a = X (at_cell c a)) by (intros a Ha; apply HX, (HV a); auto).
  destruct lp as [a|a b m|a b c'|m].
  - cbn in HX'. specialize (HX' a (or_introl eq_refl)).
    destruct e; cbn; unfold shapeP0, shapeP1, shapeP2_vertex, shapeP3_vertex; rewrite ?HX'; reflexivity.
  - assert (Ha := HX' a (or_introl eq_refl)). assert (Hb := HX' b (or_intror (or_introl eq_refl))). cbn [gplace]. unfold the_edge.
    destruct e; try reflexivity.
    + cbn [lshape shape_at fst]. unfold shapeP2_edge. rewrite Ha, Hb.
      destruct (Nat.le_ge_cases (at_cell c a) (at_cell c b)) as [L|L]; [rewrite Nat.min_l, Nat.max_r by lia|rewrite Nat.min_r, Nat.max_l by lia]; ring.
    + assert (Hm : (m = 0 \/ m = 1)%nat).
      { assert (H : forallb (fun lp => match lp with LE _ _ m => (m <? 2)%nat | _ => true end) (lplaces P3 d) = true).
        { destruct d as [|[|[|[|d]]]]; try lia; reflexivity. }
        rewrite forallb_forall in H. specialize (H _ Hin). cbv beta iota in H. apply Nat.ltb_lt in H. lia. }
      cbn [lshape shape_at fst snd per_edge]. unfold shapeP3_edge, edge_shape. destruct (Nat.ltb_spec (at_cell c b) (at_cell c a)) as [L|L].
      * rewrite Nat.min_r, Nat.max_l by lia. destruct Hm as [-> | ->]; cbn; rewrite Ha, Hb; ring.
      * rewrite Nat.min_l, Nat.max_r by lia. destruct Hm as [-> | ->]; cbn; rewrite Ha, Hb; ring.
  - assert (Ha := HX' a (or_introl eq_refl)). assert (Hb := HX' b (or_intror (or_introl eq_refl))). assert (Hc' := HX' c' (or_intror (or_intror (or_introl eq_refl)))).
    cbn [gplace]. destruct (face_sorted (fun x y z => qz 27 * X x * X y * X z) (at_cell c a) (at_cell c b) (at_cell c c')) as (x & y & z & -> & E); try (intros; ring).
    destruct e; try reflexivity. cbn [lshape shape_at fst]. rewrite E. unfold shapeP3_face. rewrite Ha, Hb, Hc'. reflexivity.
  - cbn [gplace]. assert (H0 := HX 0%nat ltac:(lia)). assert (H1 := HX 1%nat ltac:(lia)).
    destruct e; try reflexivity; cbn [lshape shape_at fst snd]; rewrite Hi.
    + assert (d = 1%nat) as ->. { destruct d as [|[|[|[|d]]]]; try lia; cbn in Hin; repeat (destruct Hin as [Hin|Hin]; [discriminate Hin|]); destruct Hin. }
      destruct c as [|v0 [|v1 [|v2 c]]]; try discriminate Hc. unfold shapeP2_edge. rewrite H0, H1. reflexivity.
    + destruct d as [|[|[|[|d]]]]; try lia.
      * destruct c as [|v0 [|v1 [|v2 c]]]; try discriminate Hc. unfold edge_shape. destruct m; unfold shapeP3_edge; rewrite H0, H1; reflexivity.
      * destruct c as [|v0 [|v1 [|v2 [|v3 c]]]]; try discriminate Hc. assert (H2 := HX 2%nat ltac:(lia)). unfold shapeP3_face. rewrite H0, H1, H2. reflexivity.
      * exfalso. cbn in Hin. repeat (destruct Hin as [Hin|Hin]; [discriminate Hin|]). destruct Hin.
Qed.

Lemma Qc_prod_neq0 a b : a * b <> 0 -> a <> 0 /\ b <> 0.
Proof. intros H. split; intros ->; apply H; ring. Qed.
(** Where the value is not zero all vertices of the entity have a positive part. *)
Lemma shape_support e C p X : e <> P0 -> shape_at e C p X <> 0 -> forall v, In v (vertices_of C (fst p)) -> X v <> 0.
Proof.
  intros He H v Hv. destruct p as [x m]. cbn [fst] in Hv. unfold shape_at in H. cbn [fst snd] in H. unfold edge_shape in H.
  destruct e; [congruence| | |]; destruct x as [w|a b|a b c|i]; cbn [vertices_of] in Hv; try (destruct H; reflexivity).
  - destruct Hv as [<-|[]]. auto.
  - destruct Hv as [<-|[]]. apply Qc_prod_neq0 in H. tauto.
  - apply Qc_prod_neq0 in H as [H H']. apply Qc_prod_neq0 in H as [_ H]. destruct Hv as [<-|[<-|[]]]; auto.
  - destruct (nth i C []) as [|a [|b [|c l]]]; try (destruct H; reflexivity). apply Qc_prod_neq0 in H as [H H']. apply Qc_prod_neq0 in H as [_ H]. destruct Hv as [<-|[<-|[]]]; auto.
  - destruct Hv as [<-|[]]. apply Qc_prod_neq0 in H as [H _]. apply Qc_prod_neq0 in H as [H _]. apply Qc_prod_neq0 in H as [_ H]. auto.
  - destruct m; apply Qc_prod_neq0 in H as [H _]; apply Qc_prod_neq0 in H as [H H']; apply Qc_prod_neq0 in H as [_ H]; destruct Hv as [<-|[<-|[]]]; auto.
  - apply Qc_prod_neq0 in H as [H H1]. apply Qc_prod_neq0 in H as [H H2]. apply Qc_prod_neq0 in H as [_ H]. destruct Hv as [<-|[<-|[<-|[]]]]; auto.
  - destruct (nth i C []) as [|a [|b [|c [|c' l]]]]; try (destruct H; reflexivity).
    + destruct m; apply Qc_prod_neq0 in H as [H _]; apply Qc_prod_neq0 in H as [H H']; apply Qc_prod_neq0 in H as [_ H]; destruct Hv as [<-|[<-|[]]]; auto.
    + apply Qc_prod_neq0 in H as [H H1]. apply Qc_prod_neq0 in H as [H H2]. apply Qc_prod_neq0 in H as [_ H]. destruct Hv as [<-|[<-|[<-|[]]]]; auto.
Qed.

(** ** Nodes *)
Definition edge_weight (e : fe) (m : nat) : Qc := match e with P3 => match m with O => qf 2 3 | _ => qf 1 3 end | _ => qf 1 2 end.
(** The coordinates of a node, when vertex x has coordinates H x. *)
Definition node_at (e : fe) (F : list (list nat)) (H : nat -> nat -> Qc) (q : place) (v : nat) : Qc :=
  match fst q with
  | EVertex x => H x v
  | EEdge a b => edge_weight e (snd q) * H a v + (1 - edge_weight e (snd q)) * H b v
  | EFace a b c => qf 1 3 * (H a v + H b v + H c v)
  | ECell k =>
      match e, nth k F [] with
      | P2, [a; b] | P3, [a; b] => edge_weight e (snd q) * H a v + (1 - edge_weight e (snd q)) * H b v
      | P3, [a; b; c] => qf 1 3 * (H a v + H b v + H c v)
      | _, t => suml (map (fun x => H x v) t) / qz (Z.of_nat (length t))
      end
  end.

Definition lnode (e : fe) (d : nat) (lp : lplace) (g : nat -> Qc) : Qc :=
  match lp with
  | LV a => g a
  | LE a b m => edge_weight e m * g a + (1 - edge_weight e m) * g b
  | LF a b c => qf 1 3 * (g a + g b + g c)
  | LC m =>
      match e, d with
      | P2, _ => edge_weight e m * g 0%nat + (1 - edge_weight e m) * g 1%nat
      | P3, 1%nat => edge_weight e m * g 0%nat + (1 - edge_weight e m) * g 1%nat
      | P3, _ => qf 1 3 * (g 0%nat + g 1%nat + g 2%nat)
      | _, _ => sumf (S d) g / qz (Z.of_nat (S d))
      end
  end.
(** All barycentric coordinates of a node, through the value of linear functions. *)
Lemma node_value e d g : (1 <= d <= 3)%nat ->
  map (fun nd => sumf (S d) (fun a => vat nd a * g a)) (fe_nodes e d) = map (fun lp => lnode e d lp g) (lplaces e d).
Proof.
  intros Hd. assert (T : 1 - qf 2 3 = qf 1 3) by (apply Qc_is_canon; reflexivity). assert (T' : 1 - qf 1 3 = qf 2 3) by (apply Qc_is_canon; reflexivity).
  assert (T2 : 1 - qf 1 2 = qf 1 2) by (apply Qc_is_canon; reflexivity).
  destruct d as [|[|[|[|d]]]]; try lia; destruct e;
    cbn [fe_nodes lplaces nodesP1 nodesP2 nodesP3 map app seq local_edges local_faces flat_map lnode fst snd sumf vat nth tab edge_weight Nat.eqb];
    rewrite ?T, ?T', ?T2; repeat (apply f_equal2; [unfold vat; cbn [nth]; unfold o, h, t1, t2, qf, one_half, Qcdiv; ring|]); reflexivity.
Qed.

Lemma node_place e d F H k t lp v : (1 <= d <= 3)%nat -> length t = S d -> nth k F [] = t -> In lp (lplaces e d) ->
  node_at e F H (gplace (per_edge e) k (at_cell t) lp) v = lnode e d lp (fun a => H (at_cell t a) v).
Proof.
  intros Hd Ht Hk Hin.
  assert (T : 1 - qf 2 3 = qf 1 3) by (apply Qc_is_canon; reflexivity). assert (T' : 1 - qf 1 3 = qf 2 3) by (apply Qc_is_canon; reflexivity).
  destruct lp as [a|a b m|a b c'|m].
  - reflexivity.
  - cbn [gplace lnode]. unfold node_at, the_edge. cbn [fst snd].
    assert (Hm : e = P2 /\ m = 0%nat \/ e = P3 /\ (m = 0 \/ m = 1)%nat).
    { assert (K : forallb (fun lp => match lp, e with LE _ _ m, P2 => (m =? 0)%nat | LE _ _ m, P3 => (m <? 2)%nat | LE _ _ _, _ => false | _, _ => true end) (lplaces e d) = true).
      { destruct d as [|[|[|[|d]]]]; try lia; destruct e; reflexivity. }
      rewrite forallb_forall in K. specialize (K _ Hin). cbv beta iota in K. destruct e; try discriminate K.
      - left. apply Nat.eqb_eq in K. auto.
      - right. apply Nat.ltb_lt in K. split; auto; lia. }
    destruct (Nat.ltb_spec (at_cell t b) (at_cell t a)) as [L|L]; [rewrite Nat.min_r, Nat.max_l by lia|rewrite Nat.min_l, Nat.max_r by lia];
      destruct Hm as [(-> & ->)|(-> & [-> | ->])]; cbn [edge_weight per_edge Nat.sub]; rewrite ?T, ?T'; try ring.
    assert (T2 : 1 - qf 1 2 = qf 1 2) by (apply Qc_is_canon; reflexivity). rewrite T2. ring.
  - cbn [gplace lnode].
    destruct (face_sorted (fun x y z => qf 1 3 * (H x v + H y v + H z v)) (at_cell t a) (at_cell t b) (at_cell t c')) as (x & y & z & -> & E); try (intros; ring).
    unfold node_at. cbn [fst]. exact E.
  - cbn [gplace lnode]. unfold node_at. cbn [fst snd]. rewrite Hk.
    destruct d as [|[|[|[|d]]]]; try lia; (destruct t as [|v0 [|v1 [|v2 [|v3 [|v4 t]]]]]; try discriminate Ht); destruct e; unfold at_cell; cbn [nth map suml sumf length];
      try reflexivity; try (unfold Qcdiv; ring);
      exfalso; cbn in Hin; repeat (destruct Hin as [Hin|Hin]; [discriminate Hin|]); destruct Hin.
Qed.

(** The vertices that a node lies between. *)
Lemma node_support e F H q v : node_at e F H q v <> 0 -> exists x, In x (vertices_of F (fst q)) /\ H x v <> 0.
Proof.
  intros Hn.
  assert (Z : ~ (forall x, In x (vertices_of F (fst q)) -> H x v = 0)).
  { intros K. apply Hn. unfold node_at. destruct (fst q) as [x|a b|a b c|k]; cbn [vertices_of] in K.
    - apply K. left; auto.
    - rewrite (K a), (K b) by (cbn; auto). ring.
    - rewrite (K a), (K b), (K c) by (cbn; auto). ring.
    - assert (S0 : suml (map (fun x => H x v) (nth k F [])) = 0) by (apply suml_map_zero, K).
      assert (S1 : suml (map (fun x => H x v) (nth k F [])) / qz (Z.of_nat (length (nth k F []))) = 0) by (rewrite S0; unfold Qcdiv; ring).
      revert S1 K. clear. destruct e, (nth k F []) as [|a [|b [|c [|c' t]]]]; intros S1 K; try exact S1;
        rewrite ?(K a), ?(K b), ?(K c) by (cbn; auto); ring. }
  assert (D : forall l, ~ (forall x, In x l -> H x v = 0) -> exists x, In x l /\ H x v <> 0).
  { induction l as [|x l IH]; intros N; [destruct N; intros x []|].
    destruct (Qc_eq_dec (H x v) 0) as [Ex|Ex]; [|exists x; split; [left; auto|auto]].
    destruct IH as (y & Hy & Ey); [|exists y; split; [right; auto|auto]].
    intros K. apply N. intros y [<-|Hy]; auto. }
  apply D, Z.
Qed.
