(** Refinement of 3D meshes. *)
From Coq Require Import Permutation QArith.
From Verif Require Import Util Lin TupleDictModel MeshModel MeshSpec MeshProofs MeshProofs2 MeshProofs3 MeshProofs4.
Local Open Scope nat_scope.

Lemma face_edges_in a b c e : In e (face_edges (sortFace Nat.ltb a b c)) <-> e = sortE a b \/ e = sortE a c \/ e = sortE b c.
Proof.
  rewrite !sortE_minmax. unfold sortFace.
  destruct (Nat.ltb_spec a b), (Nat.ltb_spec a c), (Nat.ltb_spec b c); cbn [face_edges In]; try lia.
  all: repeat match goal with
       | |- context [Nat.min ?x ?y] => first [rewrite (Nat.min_l x y) by lia | rewrite (Nat.min_r x y) by lia]
       | |- context [Nat.max ?x ?y] => first [rewrite (Nat.max_l x y) by lia | rewrite (Nat.max_r x y) by lia]
       end.
  all: split; intros X; repeat destruct X as [X|X]; subst; auto 6; try contradiction.
Qed.

Definition edges3 (c : list nat) : list edge := match c with [a; b; d; e] => cell_edges3 a b d e | _ => [] end.

Lemma edges3_in a b c d e : In e (edges3 [a; b; c; d]) <->
  e = sortE a b \/ e = sortE a c \/ e = sortE a d \/ e = sortE b c \/ e = sortE b d \/ e = sortE c d.
Proof.
  unfold edges3, cell_edges3. cbn [flat_map]. rewrite !in_app_iff, !face_edges_in. cbn [In]. tauto.
Qed.

Lemma edges3_joins a b c d e : In e (edges3 [a; b; c; d]) <-> joins [a; b; c; d] e.
Proof.
  rewrite edges3_in, !sortE_minmax. unfold joins. split.
  - intros [->|[->|[->|[->|[->| ->]]]]]; [exists 0, 1, a, b|exists 0, 2, a, c|exists 0, 3, a, d|exists 1, 2, b, c|exists 1, 3, b, d|exists 2, 3, c, d]; repeat split; auto.
  - intros (i & j & x & y & Hij & Hx & Hy & ->).
    destruct i as [|[|[|[|i]]]]; destruct j as [|[|[|[|j]]]]; cbn in *; try lia; try discriminate.
    all: try (destruct i; discriminate). all: try (destruct j; discriminate).
    all: inversion Hx; inversion Hy; subst; auto 8.
Qed.

Lemma qlt_spec a b : reflect (a < b)%Qc (qlt a b).
Proof.
  unfold qlt. destruct (Qle_bool b a) eqn:E; cbn; constructor; unfold Qclt.
  - apply Qle_bool_iff in E. apply Qle_not_lt. auto.
  - apply Qnot_le_lt. intros X. apply Qle_bool_iff in X. congruence.
Qed.

Lemma rd2_row V a k p : nth_error V a = Some p -> k < length p -> rd2 (map (map Some) V) a k = Ok (vat p k).
Proof.
  intros Ha Hk. unfold rd2, aget. rewrite nth_error_map, Ha. cbn [option_map bind]. unfold rd, aget.
  destruct (nth_error_lt p k Hk) as [x Hx]. rewrite nth_error_map, Hx. cbn. unfold vat. f_equal. symmetry. apply nth_error_nth. auto.
Qed.

Lemma diagonal2_ok V a b : a < length V -> b < length V -> (forall p, In p V -> length p = 3) ->
  diagonal2 (map (map Some) V) a b = Ok (dist2 (point V a) (point V b)).
Proof.
  intros Ha Hb HV. destruct (nth_error_lt V a Ha) as [p Hp]. destruct (nth_error_lt V b Hb) as [q Hq].
  assert (Lp : length p = 3) by (apply HV; eapply nth_error_In; eauto).
  assert (Lq : length q = 3) by (apply HV; eapply nth_error_In; eauto).
  unfold diagonal2, for_range. cbn [Nat.sub for_n].
  rewrite !(rd2_row V a _ p) by (auto; lia). cbn [bind]. rewrite !(rd2_row V b _ q) by (auto; lia). cbn [bind].
  unfold point. rewrite (nth_error_nth _ _ _ Hp), (nth_error_nth _ _ _ Hq). f_equal. unfold dist2. ring.
Qed.

Lemma refined_length V E : length (refined_vertices V E) = length V + length E.
Proof. unfold refined_vertices. rewrite app_length, map_length. auto. Qed.

Lemma refined_dim dim V E : (forall p, In p V -> length p = dim) -> (forall e, In e E -> fst e < length V) ->
  forall p, In p (refined_vertices V E) -> length p = dim.
Proof.
  intros HV HE p Hp. apply in_app_or in Hp as [Hp|Hp]; auto. apply in_map_iff in Hp as (e & <- & He).
  unfold midpoint. rewrite tab_length. apply HV. unfold point. apply nth_In. auto.
Qed.

Lemma interior3_ok V E v0 v1 v2 v3 m01 m02 m03 m12 m13 m23 :
  let d := fun a b => dist2 (point (refined_vertices V E) a) (point (refined_vertices V E) b) in
  mid V E v0 v1 m01 -> mid V E v0 v2 m02 -> mid V E v0 v3 m03 -> mid V E v1 v2 m12 -> mid V E v1 v3 m13 -> mid V E v2 v3 m23 ->
  let inner := interior3 (d m01 m23) (d m02 m13) (d m03 m12) m01 m02 m03 m12 m13 m23 in
  eighths V E [v0; v1; v2; v3] ([[v0; m01; m02; m03]; [m01; v1; m12; m13]; [m02; m12; v2; m23]; [m03; m13; m23; v3]] ++ inner) /\
  exists c0 c1 c2 c3, inner = [c0; c1; c2; c3] /\ length c0 = 4 /\ length c1 = 4 /\ length c2 = 4 /\ length c3 = 4.
Proof.
  intros d H01 H02 H03 H12 H13 H23 inner. split.
  - exists v0, v1, v2, v3, m01, m02, m03, m12, m13, m23, inner. do 8 (split; [auto|]). unfold inner, interior3. fold d.
    destruct (qlt_spec (d m01 m23) (d m02 m13)) as [A|A], (qlt_spec (d m01 m23) (d m03 m12)) as [B|B], (qlt_spec (d m02 m13) (d m03 m12)) as [D|D]; cbn [andb].
    all: try apply Qcnot_lt_le in A; try apply Qcnot_lt_le in B; try apply Qcnot_lt_le in D.
    1,2: left; auto.
    all: right.
    all: first [left; split; [reflexivity|]; split; auto; fail | right; split; [reflexivity|]; split; auto; fail | idtac].
    + left. split; [reflexivity|]. split; auto. apply Qclt_le_weak. eapply Qclt_le_trans; eauto.
    + right. split; [reflexivity|]. split; auto. eapply Qcle_trans; eauto.
  - unfold inner, interior3. destruct (_ && _); [|destruct (qlt _ _)]; do 4 eexists; repeat split.
Qed.

Lemma refine3 V C : mesh_ok 3 4 V C -> fits_index V -> few_neighbours C ->
  exists E C' lookup, refineCy3DedgeVals V C = Ok (refined_vertices V E, C', lookup) /\
    edge_list C E /\ children_of 8 C C' (eighths V E) /\ Permutation lookup (enc_items (items (length V) E)).
Proof.
  intros HM HF Hfew. set (E := uniq (flat_map edges3 C)).
  assert (HE : edge_list C E).
  { apply edge_list_uniq. intros c Hc e. destruct HM as [_ HM]. destruct (HM c Hc) as [Lc _].
    destruct (length3 c Lc) as (a & b & d & f & ->). apply edges3_joins. }
  assert (HE' := HE). destruct HE' as [HEn HEi].
  assert (Hr : forall e, In e E -> fst e < length V /\ snd e < length V) by (intros e He; eapply edge_range; eauto; apply HEi; auto).
  unfold refineCy3DedgeVals.
  destruct (enter_cells (fun E s => holds (length V) E (fst s) /\ snd s = length V + length E) eV_new E) with
    (C := C) (ce := edges3) (s0 := (eV_init (length V), length V))
    (body := fun i st => v0 <- get2 C i 0 ;; v1 <- get2 C i 1 ;; v2 <- get2 C i 2 ;; v3 <- get2 C i 3 ;; for_list (cell_edges3 v0 v1 v2 v3) eV_new st)
    as ([d n] & Es & Hd & Hn).
  - intros E0 [d n] e [Hd Hn] He Hall. cbn [fst snd] in *. subst n.
    apply (eV_step (length V) E0 d e Hd); [apply Hr; auto|]. apply (few_incl _ E); auto. eapply few_neighbours_few; eauto.
  - intros i c s Hc. destruct (mesh_cell _ _ _ _ _ _ HM Hc) as [Lc _]. destruct (length3 c Lc) as (a & b & d & f & ->).
    read_cell Hc. reflexivity.
  - split; [apply eV_init_holds|cbn; lia].
  - intros e He. apply uniq_in. auto.
  - rewrite Es. cbn [bind]. fold E in Hn, Hd. cbn [fst snd] in Hn, Hd. subst n. rewrite copy_vertices_ok by apply HM. cbn [bind].
    assert (Hs : smallE E) by (eapply edge_small; eauto; intros e He; apply HEi; auto).
    destruct (insert_midpoints_ok 3 V E d) as (lookup & El & Hl); auto; [apply HM|]. unfold edge in El |- *. rewrite El. cbn [bind].
    set (V' := refined_vertices V E) in *.
    destruct (cells_ok 8 4 C (fun i nc => v0 <- get2 C i 0 ;; v1 <- get2 C i 1 ;; v2 <- get2 C i 2 ;; v3 <- get2 C i 3 ;;
       v01 <- eV_get d (sortE v0 v1) ;; v02 <- eV_get d (sortE v0 v2) ;; v03 <- eV_get d (sortE v0 v3) ;;
       v12 <- eV_get d (sortE v1 v2) ;; v13 <- eV_get d (sortE v1 v3) ;; v23 <- eV_get d (sortE v2 v3) ;;
       l0123 <- diagonal2 (map (map Some) V') v01 v23 ;;
       l0213 <- diagonal2 (map (map Some) V') v02 v13 ;;
       l0312 <- diagonal2 (map (map Some) V') v03 v12 ;;
       nc <- put_row nc (8 * i) [v0; v01; v02; v03] ;;
       nc <- put_row nc (8 * i + 1) [v01; v1; v12; v13] ;;
       nc <- put_row nc (8 * i + 2) [v02; v12; v2; v23] ;;
       nc <- put_row nc (8 * i + 3) [v03; v13; v23; v3] ;;
       let inner := interior3 l0123 l0213 l0312 v01 v02 v03 v12 v13 v23 in
       for_range 0 4 (fun k nc => c <- aget inner k ;; put_row nc (8 * i + 4 + k) c) nc) (eighths V E)) as (C' & EC & HC).
    + intros i c done m Hc Hlen.
      destruct (mesh_cell _ _ _ _ _ _ HM Hc) as [Lc Hv]. destruct (length3 c Lc) as (v0 & v1 & v2 & v3 & ->). read_cell Hc.
      assert (Hpos : forall a b, In (sortE a b) (edges3 [v0; v1; v2; v3]) -> exists m, eV_get d (sortE a b) = Ok m /\ mid V E a b m /\ m < length V').
      { intros a b He. assert (Hin : In (sortE a b) E).
        { apply HEi. exists [v0; v1; v2; v3]. split; [eapply nth_error_In; eauto|]. apply edges3_joins; auto. }
        destruct (In_nth_error _ _ Hin) as [k Hk]. exists (length V + k). split; [|split].
        - eapply eV_get_ok; eauto. apply Hr; auto.
        - apply mid_intro; auto.
        - unfold V'. rewrite refined_length. assert (X : k < length E) by (apply nth_error_Some; unfold edge in *; congruence). unfold edge in X. lia. }
      destruct (Hpos v0 v1) as (m01 & G01 & M01 & L01); [apply edges3_in; auto|].
      destruct (Hpos v0 v2) as (m02 & G02 & M02 & L02); [apply edges3_in; auto|].
      destruct (Hpos v0 v3) as (m03 & G03 & M03 & L03); [apply edges3_in; auto|].
      destruct (Hpos v1 v2) as (m12 & G12 & M12 & L12); [apply edges3_in; auto|].
      destruct (Hpos v1 v3) as (m13 & G13 & M13 & L13); [apply edges3_in; auto 6|].
      destruct (Hpos v2 v3) as (m23 & G23 & M23 & L23); [apply edges3_in; auto 6|].
      rewrite G01, G02, G03, G12, G13, G23. cbn [bind].
      assert (HV3 : forall p, In p V' -> length p = 3) by (apply refined_dim; [apply HM|apply Hr]).
      rewrite !diagonal2_ok by auto. cbn [bind].
      destruct (interior3_ok V E v0 v1 v2 v3 m01 m02 m03 m12 m13 m23) as (Hch & c0 & c1 & c2 & c3 & Ei & I0 & I1 & I2 & I3); auto.
      fold V' in Hch, Ei. rewrite Ei in Hch |- *. eexists. split; [exact Hch|]. split; [reflexivity|].
      cbn zeta. cbn [Nat.add]. 
      do 4 (rewrite put_row_next by (auto; rewrite ?app_length; cbn [length]; lia); cbn [bind]).
      unfold for_range. cbn [Nat.sub for_n aget nth_error bind].
      do 4 (rewrite put_row_next by (auto; rewrite ?app_length; cbn [length]; lia); cbn [bind]).
      rewrite <- !app_assoc. reflexivity.
    + unfold edge in EC |- *. cbn zeta in EC |- *. rewrite EC. cbn [bind]. rewrite !all_init2_some. cbn [bind]. exists E, C', lookup. split; [reflexivity|]. split; auto.
Qed.
