(** Numbering of edges and the refinement of 1D and 2D meshes. *)
From Coq Require Import Permutation.
From Verif Require Import Util Lin TupleDictModel TupleDictSpec TupleDictProofs TupleDictProofs2 TupleDictProofs3 MeshModel MeshSpec MeshProofs.

(** ** Lists of different edges *)
Definition addE (E : list edge) (e : edge) : list edge := if existsb (edge_eqb e) E then E else E ++ [e].
Definition uniq (l : list edge) : list edge := fold_left addE l [].

Lemma existsb_edge e E : existsb (edge_eqb e) E = true <-> In e E.
Proof.
  rewrite existsb_exists. split; [intros (f & H & Ef); apply edge_eqb_spec in Ef; subst; auto|].
  intros H. exists e. split; auto. apply edge_eqb_spec. auto.
Qed.
Lemma addE_in E e : In e E -> addE E e = E.
Proof. intros H. unfold addE. rewrite (proj2 (existsb_edge e E) H). auto. Qed.
Lemma addE_notin E e : ~ In e E -> addE E e = E ++ [e].
Proof. intros H. unfold addE. destruct (existsb (edge_eqb e) E) eqn:X; auto. apply existsb_edge in X. tauto. Qed.
Lemma In_edge_dec (e : edge) E : In e E \/ ~ In e E.
Proof. destruct (existsb (edge_eqb e) E) eqn:X; [left|right]; rewrite <- existsb_edge; congruence. Qed.

Lemma addE_spec E e f : In f (addE E e) <-> In f E \/ f = e.
Proof.
  destruct (In_edge_dec e E) as [H|H].
  - rewrite addE_in by auto. split; [auto|]. intros [| ->]; auto.
  - rewrite addE_notin by auto. rewrite in_app_iff. cbn. intuition.
Qed.
Lemma addE_nodup E e : NoDup E -> NoDup (addE E e).
Proof.
  intros H. destruct (In_edge_dec e E) as [H1|H1]; [rewrite addE_in; auto|]. rewrite addE_notin by auto.
  apply NoDup_app_intro; auto; [repeat constructor; auto|]. intros x Hx [<-|[]]. auto.
Qed.
Lemma fold_addE_spec l : forall E f, In f (fold_left addE l E) <-> In f E \/ In f l.
Proof.
  induction l as [|e l IH]; intros E f; cbn [fold_left In]; [tauto|]. rewrite IH, addE_spec. intuition.
Qed.
Lemma fold_addE_nodup l : forall E, NoDup E -> NoDup (fold_left addE l E).
Proof. induction l as [|e l IH]; intros E H; cbn [fold_left]; auto. apply IH. apply addE_nodup; auto. Qed.
Lemma uniq_in l f : In f (uniq l) <-> In f l.
Proof. unfold uniq. rewrite fold_addE_spec. cbn. tauto. Qed.
Lemma uniq_nodup l : NoDup (uniq l).
Proof. apply fold_addE_nodup. constructor. Qed.
Lemma uniq_app a b : uniq (a ++ b) = fold_left addE b (uniq a).
Proof. apply fold_left_app. Qed.

(** ** Reading cells *)
Lemma firstn_flat {B} (f : list nat -> list B) C i c : nth_error C i = Some c ->
  flat_map f (firstn (S i) C) = flat_map f (firstn i C) ++ f c.
Proof. intros H. destruct (cut_at _ _ _ H) as (-> & _ & _). rewrite flat_map_app. cbn. rewrite app_nil_r. reflexivity. Qed.

(** A loop over the cells that enters the edges of each of them. *)
Section Numbering.
  Context {S : Type}.
  Variable R : list edge -> S -> Prop.
  Variable step : edge -> S -> res S.
  Variable all : list edge.
  Hypothesis Hstep : forall E s e, R E s -> In e all -> (forall f, In f (addE E e) -> In f all) -> exists s', step e s = Ok s' /\ R (addE E e) s'.

  Lemma enter_list l : forall E s, R E s -> (forall e, In e l -> In e all) -> (forall e, In e E -> In e all) ->
    exists s', for_list l step s = Ok s' /\ R (fold_left addE l E) s'.
  Proof using Hstep.
    induction l as [|e l IH]; intros E s HR Hl HE; cbn [for_list fold_left]; [eauto|].
    assert (HE' : forall f, In f (addE E e) -> In f all).
    { intros f Hf. apply addE_spec in Hf as [Hf| ->]; auto. apply Hl; left; auto. }
    destruct (Hstep E s e HR) as (s1 & E1 & H1); auto. { apply Hl. left; auto. }
    rewrite E1. cbn [bind]. apply IH; auto. intros f Hf. apply Hl. right; auto.
  Qed.

  Lemma enter_cells C (ce : list nat -> list edge) (body : nat -> S -> res S) s0 :
    (forall i c s, nth_error C i = Some c -> body i s = for_list (ce c) step s) ->
    R [] s0 -> (forall e, In e (flat_map ce C) -> In e all) ->
    exists s, for_range 0 (length C) body s0 = Ok s /\ R (uniq (flat_map ce C)) s.
  Proof using Hstep.
    intros Hb H0 Hall.
    loop_inv (fun i s => R (uniq (flat_map ce (firstn i C))) s) st E HI.
    3: { intros i s Hi HR. destruct (nth_error_lt C i) as [c Hc]; [lia|]. rewrite (Hb _ _ _ Hc).
         rewrite (firstn_flat _ _ _ _ Hc), uniq_app. apply enter_list; auto.
         - intros e He. apply Hall. apply in_flat_map. exists c. split; auto. eapply nth_error_In; eauto.
         - intros e He. apply Hall. rewrite uniq_in in He. apply in_flat_map in He as (c' & Hc' & He).
           apply in_flat_map. exists c'. split; auto. rewrite <- (firstn_skipn i C). apply in_or_app; auto. }
    - lia.
    - exact H0.
    - exists st. rewrite firstn_all in HI. auto.
  Qed.
End Numbering.

Definition items (nv : nat) (E : list edge) : list (edge * nat) := combine E (seq nv (length E)).

Lemma combine_snoc {A B} (a : list A) (b : list B) x y : length a = length b -> combine (a ++ [x]) (b ++ [y]) = combine a b ++ [(x, y)].
Proof. revert b. induction a as [|u a IH]; intros [|v b] H; cbn in *; try discriminate; auto. f_equal. apply IH. lia. Qed.
Lemma combine_map_fst {A B} (a : list A) (b : list B) : length a = length b -> map fst (combine a b) = a.
Proof. revert b. induction a as [|u a IH]; intros [|v b] H; cbn in *; try discriminate; auto. f_equal. apply IH. lia. Qed.
Lemma seq_snoc a n : seq a (n + 1) = seq a n ++ [a + n].
Proof. rewrite seq_app. reflexivity. Qed.
Lemma items_snoc nv E e : items nv (E ++ [e]) = items nv E ++ [(e, nv + length E)].
Proof. unfold items. rewrite app_length. cbn [length]. rewrite seq_snoc. apply combine_snoc. rewrite seq_length. auto. Qed.
Lemma items_fst nv E : map fst (items nv E) = E.
Proof. apply combine_map_fst. rewrite seq_length. auto. Qed.
Lemma items_in nv E e j : In (e, j) (items nv E) <-> exists k, nth_error E k = Some e /\ j = nv + k.
Proof.
  unfold items. split.
  - intros H. apply In_nth_error in H as [k Hk].
    assert (Hlt : k < length (combine E (seq nv (length E)))) by (apply nth_error_Some; congruence).
    rewrite combine_length, seq_length in Hlt. exists k. destruct (nth_error_lt E k) as [e' He']; [lia|].
    assert (Hk' : nth_error (combine E (seq nv (length E))) k = Some (e', nv + k)).
    { rewrite (nth_error_nth' _ (e', 0)) by (rewrite combine_length, seq_length; lia).
      rewrite combine_nth by (rewrite seq_length; auto). rewrite (nth_error_nth _ _ _ He'), seq_nth by lia. reflexivity. }
    rewrite Hk in Hk'. inversion Hk'; subst. auto.
  - intros (k & Hk & ->). assert (Hlt : k < length E) by (apply nth_error_Some; congruence).
    apply (nth_error_In _ k). rewrite (nth_error_nth' _ (e, 0)) by (rewrite combine_length, seq_length; lia).
    rewrite combine_nth by (rewrite seq_length; auto). rewrite (nth_error_nth _ _ _ Hk), seq_nth by lia. reflexivity.
Qed.
Lemma items_nodup nv E : NoDup (items nv E).
Proof.
  unfold items. apply (NoDup_map_inv snd).
  assert (X : forall (a : list edge) (b : list nat), length a = length b -> map snd (combine a b) = b).
  { induction a as [|x a IH]; intros [|y b] H; cbn in *; try discriminate; auto. f_equal. apply IH. lia. }
  rewrite X by (rewrite seq_length; auto). apply seq_NoDup.
Qed.

Definition enc_items (l : list (edge * nat)) : list (Z * nat) := map (fun ej => (enc (fst ej), snd ej)) l.

(** Edges whose vertex numbers fit into the index type. *)
Definition smallE (E : list edge) : Prop := forall e, In e E -> small (fst e) /\ small (snd e).
Lemma enc_nodup E : smallE E -> NoDup E -> NoDup (map enc E).
Proof.
  intros Hs Hn. induction E as [|e E IH]; cbn; constructor.
  - intros H. apply in_map_iff in H as (f & Ef & Hf). inversion Hn; subst.
    apply enc_inj in Ef; [subst; auto| | | |]; apply Hs; cbn; auto.
  - inversion Hn; subst. apply IH; auto. intros f Hf. apply Hs. right; auto.
Qed.
Lemma enc_items_fst l : map fst (enc_items l) = map enc (map fst l).
Proof. unfold enc_items. rewrite !map_map. reflexivity. Qed.

Lemma lookup_get nv E e k : smallE E -> NoDup E -> nth_error E k = Some e -> dget Z.eqb (enc_items (items nv E)) (enc e) = Ok (nv + k).
Proof.
  intros Hs Hn Hk. apply dget_in.
  - apply Zeqb_spec.
  - rewrite enc_items_fst, items_fst. apply enc_nodup; auto.
  - apply in_map_iff. exists (e, nv + k). split; auto. apply items_in. eauto.
Qed.

(** Decoding the items. *)
Lemma for_list_map {A B S} (g : A -> B) (f : B -> S -> res S) (l : list A) s : for_list (map g l) f s = for_list l (fun a => f (g a)) s.
Proof. revert s. induction l as [|a l IH]; intros s; cbn; auto. destruct (f (g a) s); cbn; auto. Qed.
Lemma for_list_ext {A S} (f g : A -> S -> res S) (l : list A) s : (forall a s', In a l -> f a s' = g a s') -> for_list l f s = for_list l g s.
Proof.
  revert s. induction l as [|a l IH]; intros s H; cbn; auto. rewrite H by (left; auto). destruct (g a s); cbn; auto.
  apply IH. intros; apply H; right; auto.
Qed.
Lemma decoded_items {S} (f : edge -> nat -> S -> res S) l s : smallE (map fst l) ->
  for_list (enc_items l) (fun hj new => f (dec (fst hj)) (snd hj) new) s = for_list l (fun ej new => f (fst ej) (snd ej) new) s.
Proof.
  intros Hs. unfold enc_items. rewrite for_list_map. apply for_list_ext. intros [e j] s' H. cbn [fst snd].
  destruct (Hs e) as [H1 H2]. { apply in_map_iff. exists (e, j); auto. } rewrite dec_enc; auto.
Qed.

(** ** The new cells *)
Lemma cells_ok (k w : nat) (C : list (list nat)) (body : nat -> list (buf nat) -> res (list (buf nat))) (children : list nat -> list (list nat) -> Prop) :
  (forall i c done m, nth_error C i = Some c -> length done = k * i ->
     exists ch, children c ch /\ length ch = k /\
       body i (map (map Some) done ++ alloc2 (k + m) w) = Ok (map (map Some) (done ++ ch) ++ alloc2 m w)) ->
  exists C', for_range 0 (length C) body (alloc2 (k * length C) w) = Ok (map (map Some) C') /\ children_of k C C' children.
Proof.
  intros Hb.
  loop_inv (fun i nc => exists done, length done = k * i /\ nc = map (map Some) done ++ @alloc2 nat (k * (length C - i)) w /\
     forall i' c, i' < i -> nth_error C i' = Some c ->
       exists ch, children c ch /\ length ch = k /\ forall j, j < k -> nth_error done (k * i' + j) = nth_error ch j) st E HI.
  3: { intros i nc Hi (done & Hl & -> & Hd). destruct (nth_error_lt C i) as [c Hc]; [lia|].
       replace (k * (length C - i)) with (k + k * (length C - S i)) by nia.
       destruct (Hb i c done (k * (length C - S i)) Hc Hl) as (ch & H1 & H2 & H3).
       eexists. split; [exact H3|]. exists (done ++ ch). split; [rewrite app_length; nia|]. split; [auto|].
       intros i' c' Hi' Hc'. destruct (Nat.eq_dec i' i) as [-> |Hne].
       - rewrite Hc in Hc'. inversion Hc'; subst c'. exists ch. repeat split; auto. intros j Hj.
         rewrite nth_error_app2 by lia. f_equal. lia.
       - destruct (Hd i' c') as (ch' & A1 & A2 & A3); auto; [lia|]. exists ch'. repeat split; auto. intros j Hj.
         rewrite nth_error_app1 by nia. auto. }
  - lia.
  - exists []. cbn. rewrite Nat.sub_0_r, Nat.mul_0_r. repeat split; auto. intros; lia.
  - destruct HI as (done & Hl & Hst & Hd). exists done. rewrite E, Hst. split.
    + rewrite Nat.sub_diag, Nat.mul_0_r. cbn. rewrite app_nil_r. reflexivity.
    + split; auto. intros i c Hc. apply Hd; auto. apply nth_error_Some. congruence.
Qed.

Lemma mesh_cell dim k V C i c : mesh_ok dim k V C -> nth_error C i = Some c -> length c = k /\ forall v, In v c -> v < length V.
Proof. intros [_ H] Hc. apply H. eapply nth_error_In; eauto. Qed.

(** ** Edges of cells *)
Definition edges1 (c : list nat) : list edge := match c with [a; b] => [sortE a b] | _ => [] end.
Definition edges2 (c : list nat) : list edge := match c with [a; b; d] => [sortE a b; sortE a d; sortE b d] | _ => [] end.

Lemma edges1_joins a b e : In e (edges1 [a; b]) <-> joins [a; b] e.
Proof.
  cbn [edges1 In]. rewrite sortE_minmax. unfold joins. split.
  - intros [<-|[]]. exists 0, 1, a, b. repeat split; auto.
  - intros (i & j & x & y & Hij & Hx & Hy & ->). left.
    destruct i as [|[|[|i]]]; destruct j as [|[|[|j]]]; cbn in *; try lia; try discriminate.
    inversion Hx; inversion Hy; subst; auto.
Qed.
Lemma edges2_joins a b c e : In e (edges2 [a; b; c]) <-> joins [a; b; c] e.
Proof.
  cbn [edges2 In]. rewrite !sortE_minmax. unfold joins. split.
  - intros [<-|[<-|[<-|[]]]]; [exists 0, 1, a, b|exists 0, 2, a, c|exists 1, 2, b, c]; repeat split; auto.
  - intros (i & j & x & y & Hij & Hx & Hy & ->).
    destruct i as [|[|[|i]]]; destruct j as [|[|[|j]]]; cbn in *; try lia; try discriminate.
    all: try (destruct i; discriminate). all: try (destruct j; discriminate).
    all: inversion Hx; inversion Hy; subst; auto.
Qed.

Lemma edge_list_uniq C ce : (forall c, In c C -> forall e, In e (ce c) <-> joins c e) -> edge_list C (uniq (flat_map ce C)).
Proof.
  intros H. split; [apply uniq_nodup|]. intros e. rewrite uniq_in, in_flat_map. unfold edge_of.
  split; intros (c & Hc & He); exists c; split; auto; apply (H c Hc); auto.
Qed.

Lemma edge_range dim k V C e : mesh_ok dim k V C -> edge_of C e -> fst e < length V /\ snd e < length V.
Proof.
  intros [_ H] (c & Hc & (i & j & a & b & _ & Ha & Hb & ->)). destruct (H c Hc) as [_ Hv]. cbn.
  apply nth_error_In in Ha, Hb. apply Hv in Ha, Hb. lia.
Qed.
Lemma edge_small dim k V C E : mesh_ok dim k V C -> fits_index V -> (forall e, In e E -> edge_of C e) -> smallE E.
Proof.
  intros HM HV HE e He. destruct (edge_range _ _ _ _ _ HM (HE e He)). unfold small, fits_index, MAX_VAL_EDGE in *. lia.
Qed.

Lemma mid_intro V E a b k : nth_error E k = Some (sortE a b) -> mid V E a b (length V + k).
Proof. intros H. exists k. rewrite sortE_minmax in H. auto. Qed.

Lemma length1 (c : list nat) : length c = 2 -> exists a b, c = [a; b].
Proof. destruct c as [|a [|b [|? ?]]]; cbn; intros; try discriminate; eauto. Qed.
Lemma length2 (c : list nat) : length c = 3 -> exists a b d, c = [a; b; d].
Proof. destruct c as [|a [|b [|d [|? ?]]]]; cbn; intros; try discriminate; eauto. Qed.
Lemma length3 (c : list nat) : length c = 4 -> exists a b d e, c = [a; b; d; e].
Proof. destruct c as [|a [|b [|d [|e [|? ?]]]]]; cbn; intros; try discriminate. do 4 eexists; eauto. Qed.

Ltac read_cell Hc :=
  match type of Hc with
  | nth_error ?C ?i = Some ?c =>
      repeat match goal with
             | |- context [get2 C i ?k] => let v := eval cbn in (nth k c 0) in rewrite (get2_ok C i k c v Hc eq_refl); cbn [bind]
             end
  end.

(** The children of the triangles, for any way of looking up the midpoints. *)
Lemma quarters_ok dim V C E (get : edge -> res nat) (body : nat -> list (buf nat) -> res (list (buf nat))) :
  mesh_ok dim 3 V C -> edge_list C E ->
  (forall e k, nth_error E k = Some e -> get e = Ok (length V + k)) ->
  (forall i a b c nc, nth_error C i = Some [a; b; c] -> body i nc =
     (nv0 <- get (sortE a b) ;; nv1 <- get (sortE b c) ;; nv2 <- get (sortE a c) ;; put_children2 i a b c nv0 nv1 nv2 nc)) ->
  exists C', for_range 0 (length C) body (alloc2 (4 * length C) 3) = Ok (map (map Some) C') /\ children_of 4 C C' (quarters V E).
Proof.
  intros HM [HN HE] Hget Hbody. apply cells_ok. intros i c done m Hc Hl.
  destruct (mesh_cell _ _ _ _ _ _ HM Hc) as [Lc Hv]. destruct (length2 c Lc) as (v0 & v1 & v2 & ->).
  assert (Hpos : forall e, In e (edges2 [v0; v1; v2]) -> exists k, nth_error E k = Some e).
  { intros e He. apply In_nth_error. apply HE. exists [v0; v1; v2]. split; [eapply nth_error_In; eauto|]. apply edges2_joins; auto. }
  destruct (Hpos (sortE v0 v1)) as [k01 H01]; [cbn; auto|].
  destruct (Hpos (sortE v0 v2)) as [k02 H02]; [cbn; auto|].
  destruct (Hpos (sortE v1 v2)) as [k12 H12]; [cbn; auto|].
  rewrite (Hbody _ _ _ _ _ Hc), (Hget _ _ H01). cbn [bind]. rewrite (Hget _ _ H12). cbn [bind]. rewrite (Hget _ _ H02). cbn [bind].
  set (m01 := length V + k01). set (m12 := length V + k12). set (m02 := length V + k02).
  exists [[v0; m01; m02]; [v1; m12; m01]; [v2; m02; m12]; [m01; m12; m02]]. split; [|split; [reflexivity|]].
  - exists v0, v1, v2, m01, m12, m02. repeat split; auto; apply mid_intro; auto.
  - unfold put_children2. cbn [Nat.add].
    rewrite put_row_next by (auto; lia). cbn [bind].
    rewrite put_row_next by (auto; rewrite app_length; cbn [length]; lia). cbn [bind].
    rewrite put_row_next by (auto; rewrite !app_length; cbn [length]; lia). cbn [bind].
    rewrite put_row_next by (auto; rewrite !app_length; cbn [length]; lia).
    rewrite <- !app_assoc. reflexivity.
Qed.

(** ** The dictionary of refineCy2Dhash *)
Lemma hash_step nv E s e : s = (items nv E, nv + length E) -> NoDup E ->
  exists s', hash_new e s = Ok s' /\ s' = (items nv (addE E e), nv + length (addE E e)).
Proof.
  intros -> HN. unfold hash_new. cbn [fst snd].
  destruct (dget_dec edge_eqb edge_eqb_spec (items nv E) e) as [(v & H1 & ->)|(H1 & ->)].
  - rewrite addE_in; [eauto|]. rewrite <- (items_fst nv E). apply in_map_iff. exists (e, v); auto.
  - eexists. split; [reflexivity|]. rewrite (dset_notin edge_eqb edge_eqb_spec) by auto.
    rewrite items_fst in H1. rewrite addE_notin by auto. rewrite items_snoc, app_length. cbn [length]. f_equal. lia.
Qed.

Lemma refine2_hash V C : mesh_ok 2 3 V C ->
  exists E C', refineCy2Dhash V C = Ok (refined_vertices V E, C', items (length V) E) /\
    edge_list C E /\ children_of 4 C C' (quarters V E).
Proof.
  intros HM. set (E := uniq (flat_map edges2 C)).
  assert (HE : edge_list C E).
  { apply edge_list_uniq. intros c Hc e. destruct HM as [_ HM]. destruct (HM c Hc) as [Lc _].
    destruct (length2 c Lc) as (a & b & d & ->). apply edges2_joins. }
  unfold refineCy2Dhash.
  destruct (enter_cells (fun E s => s = (items (length V) E, length V + length E) /\ NoDup E) hash_new (flat_map edges2 C)) with
    (C := C) (ce := edges2) (s0 := (@nil (edge * nat), length V))
    (body := fun i st => c0 <- get2 C i 0 ;; c1 <- get2 C i 1 ;; c2 <- get2 C i 2 ;;
       st <- hash_new (sortE c0 c1) st ;; st <- hash_new (sortE c0 c2) st ;; hash_new (sortE c1 c2) st)
    as (s & Es & -> & Hn).
  - intros E0 s e [-> Hn] _ _. destruct (hash_step (length V) E0 _ e eq_refl Hn) as (s' & H1 & H2). exists s'. split; [auto|].
    split; auto. apply addE_nodup; auto.
  - intros i c s Hc. destruct (mesh_cell _ _ _ _ _ _ HM Hc) as [Lc _]. destruct (length2 c Lc) as (a & b & d & ->).
    read_cell Hc. cbn [edges2 for_list]. destruct (hash_new (sortE a b) s); cbn [bind]; auto.
    destruct (hash_new (sortE a d) a0); cbn [bind]; auto. destruct (hash_new (sortE b d) a1); cbn [bind]; auto.
  - split; [cbn; f_equal; lia|constructor].
  - auto.
  - rewrite Es. cbn [bind]. fold E in Hn |- *. rewrite copy_vertices_ok by apply HM. cbn [bind].
    destruct HE as [HEn HEi].
    assert (X := vertices_ok 2 V E (items (length V) E) (proj1 HM) (fun e He => edge_range _ _ _ _ _ HM (proj1 (HEi e) He)) (Permutation_refl _)).
    unfold edge in X |- *. rewrite X. cbn [bind]. clear X.
    destruct (quarters_ok 2 V C E (dget edge_eqb (items (length V) E)) (fun i nc => c0 <- get2 C i 0 ;; c1 <- get2 C i 1 ;; c2 <- get2 C i 2 ;;
       nv0 <- dget edge_eqb (items (length V) E) (sortE c0 c1) ;; nv1 <- dget edge_eqb (items (length V) E) (sortE c1 c2) ;;
       nv2 <- dget edge_eqb (items (length V) E) (sortE c0 c2) ;; put_children2 i c0 c1 c2 nv0 nv1 nv2 nc) HM (conj HEn HEi)) as (C' & EC & HC).
    + intros e k Hk. apply dget_in; [apply edge_eqb_spec|rewrite items_fst; auto|]. apply items_in. eauto.
    + intros i a b c nc Hc. read_cell Hc. reflexivity.
    + unfold edge in EC |- *. rewrite EC. cbn [bind]. rewrite !all_init2_some. cbn [bind]. exists E, C'. split; [reflexivity|]. split; [split; auto|auto].
Qed.
