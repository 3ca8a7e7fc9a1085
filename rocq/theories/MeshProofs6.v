(** Final statements on refinement. *)
From Coq Require Import Permutation Sorted.
From Verif Require Import Util Lin TupleDictModel MeshModel MeshSpec MeshProofs MeshProofs2 MeshProofs3 MeshProofs4 MeshProofs5 MeshGeom MeshGeom2 MeshGeom3.
Local Open Scope nat_scope.

Lemma enc_lookup V E lookup : smallE E -> Permutation lookup (enc_items (items (length V) E)) -> lookup_of V E lookup.
Proof.
  intros Hs HP. unfold lookup_of.
  assert (X : forall n, enc_items (items n E) = combine (map edge_code E) (seq n (length E))).
  { clear HP. unfold items, enc_items. induction E as [|e E' IH]; intros n; [reflexivity|]. cbn [length seq combine map fst snd]. f_equal.
    - f_equal. unfold enc, edge_code. destruct (Hs e (or_introl eq_refl)) as [H1 H2]. unfold small in *. apply (encode_exact (Z.of_nat (fst e)) (Z.of_nat (snd e))); lia.
    - apply IH. intros f Hf. apply Hs. right; auto. }
  rewrite <- X. exact HP.
Qed.

Lemma splits1 V C E C' : mesh_ok 1 2 V C -> children_of 2 C C' (halves V E) -> splits 1 2 (1 + 1) len1 V (refined_vertices V E) C C'.
Proof.
  intros [HV HC] [HL H]. split; auto. intros i c Hc. destruct (H i c Hc) as (ch & Hch & L & Hj). exists ch. split; auto. split; auto.
  destruct (HC c (nth_error_In _ _ Hc)) as [_ Hv]. destruct (halves_geometry 1 V E HV c ch Hch Hv) as [A B]. split; [apply A; lia|].
  intros Hd. apply B. destruct Hch as (a & b & m & -> & _). apply independent1. exact Hd.
Qed.
Lemma splits2 V C E C' : mesh_ok 2 3 V C -> children_of 4 C C' (quarters V E) -> splits 2 4 (1 + 1 + 1 + 1) area2 V (refined_vertices V E) C C'.
Proof.
  intros [HV HC] [HL H]. split; auto. intros i c Hc. destruct (H i c Hc) as (ch & Hch & L & Hj). exists ch. split; auto. split; auto.
  destruct (HC c (nth_error_In _ _ Hc)) as [_ Hv]. destruct (quarters_geometry 2 V E HV c ch Hch Hv) as [A B]. split; [apply A; lia|].
  intros Hd. apply B. destruct Hch as (v0 & v1 & v2 & m01 & m12 & m02 & -> & _). apply independent2. exact Hd.
Qed.
Lemma splits3 V C E C' : mesh_ok 3 4 V C -> children_of 8 C C' (eighths V E) ->
  splits 3 8 (1 + 1 + 1 + 1 + 1 + 1 + 1 + 1) vol6 V (refined_vertices V E) C C'.
Proof.
  intros [HV HC] [HL H]. split; auto. intros i c Hc. destruct (H i c Hc) as (ch & Hch & L & Hj). exists ch. split; auto. split; auto.
  destruct (HC c (nth_error_In _ _ Hc)) as [_ Hv]. destruct (eighths_geometry 3 V E HV c ch Hch Hv) as [A B]. split; [apply A; lia|].
  intros Hd. apply B. destruct Hch as (v0 & v1 & v2 & v3 & m01 & m02 & m03 & m12 & m13 & m23 & inner & -> & _). apply independent3. exact Hd.
Qed.

Lemma edge_list_small dim k V C E : mesh_ok dim k V C -> fits_index V -> edge_list C E -> smallE E.
Proof. intros HM HF [_ H]. eapply edge_small; eauto. intros e He. apply H; auto. Qed.

Lemma C24_thm dim V C : mesh_ok dim 2 V C -> fits_index V -> distinct_edges C ->
  exists E C' lookup, refineCy1D dim V C = Ok (refined_vertices V E, C', lookup) /\
    edge_list C E /\ children_of 2 C C' (halves V E) /\ lookup_of V E lookup.
Proof.
  intros HM HF Hd. destruct (refine1 dim V C HM HF Hd) as (E & C' & H1 & H2 & H3). exists E, C', (enc_items (items (length V) E)).
  repeat (split; [auto|]). apply enc_lookup; [eapply edge_list_small; eauto|apply Permutation_refl].
Qed.
Lemma C25_sort_thm qsort V C : sorts compareEdges qsort -> mesh_ok 2 3 V C -> fits_index V -> distinct_vertices C ->
  exists E C' lookup, refineCy2Dsort qsort V C = Ok (refined_vertices V E, C', lookup) /\
    edge_list C E /\ children_of 4 C C' (quarters V E) /\ lookup_of V E lookup.
Proof.
  intros Hq HM HF Hd. destruct (refine2_sort qsort V C Hq HM HF Hd) as (E & C' & H1 & H2 & H3). exists E, C', (enc_items (items (length V) E)).
  repeat (split; [auto|]). apply enc_lookup; [eapply edge_list_small; eauto|apply Permutation_refl].
Qed.
Lemma C25_edgeVals_thm dim V C : mesh_ok dim 3 V C -> fits_index V -> few_neighbours C ->
  exists E C' lookup, refineCy2DedgeVals dim V C = Ok (refined_vertices V E, C', lookup) /\
    edge_list C E /\ children_of 4 C C' (quarters V E) /\ lookup_of V E lookup.
Proof.
  intros HM HF Hd. destruct (refine2_edgeVals dim V C HM HF Hd) as (E & C' & lookup & H1 & H2 & H3 & H4). exists E, C', lookup.
  repeat (split; [auto|]). apply enc_lookup; auto. eapply edge_list_small; eauto.
Qed.
Lemma C26_thm V C : mesh_ok 3 4 V C -> fits_index V -> few_neighbours C ->
  exists E C' lookup, refineCy3DedgeVals V C = Ok (refined_vertices V E, C', lookup) /\
    edge_list C E /\ children_of 8 C C' (eighths V E) /\ lookup_of V E lookup.
Proof.
  intros HM HF Hd. destruct (refine3 V C HM HF Hd) as (E & C' & lookup & H1 & H2 & H3 & H4). exists E, C', lookup.
  repeat (split; [auto|]). apply enc_lookup; auto. eapply edge_list_small; eauto.
Qed.

Lemma C25_hash_thm V C : mesh_ok 2 3 V C ->
  exists E C', refineCy2Dhash V C = Ok (refined_vertices V E, C', combine E (seq (length V) (length E))) /\
    edge_list C E /\ children_of 4 C C' (quarters V E).
Proof. exact (refine2_hash V C). Qed.

(** ** Encodings *)
Lemma C23_edge_thm : (forall e : Z * Z, (0 <= fst e < 2147483648)%Z -> (0 <= snd e < 2147483648)%Z ->
    encode_edge e = (2147483648 * fst e + snd e)%Z /\ decode_edge 32 (encode_edge e) = e) /\
  (forall e f : Z * Z, (0 <= fst e < 2147483648)%Z -> (0 <= snd e < 2147483648)%Z -> (0 <= fst f < 2147483648)%Z -> (0 <= snd f < 2147483648)%Z ->
    encode_edge e = encode_edge f -> e = f).
Proof.
  assert (X : forall e : Z * Z, (0 <= fst e < 2147483648)%Z -> (0 <= snd e < 2147483648)%Z ->
    encode_edge e = (2147483648 * fst e + snd e)%Z /\ decode_edge 32 (encode_edge e) = e).
  { intros [a b] Ha Hb. cbn [fst snd] in *. split; [apply encode_exact; auto|apply decode_encode_edge; auto]. }
  split; [exact X|]. intros e f A B C D Eq. rewrite <- (proj2 (X e A B)), <- (proj2 (X f C D)), Eq. reflexivity.
Qed.

Lemma C23_face_thm : (forall f, in_range3 f -> decode_face 32 (encode_face f) = f) /\
  (forall f g, in_range3 f -> in_range3 g -> encode_face f = encode_face g -> f = g).
Proof.
  assert (X : forall f, in_range3 f -> decode_face 32 (encode_face f) = f).
  { intros [[a b] c] (Ha & Hb & Hc). apply decode_encode_face; auto. }
  split; [exact X|]. intros f g A B Eq. rewrite <- (X f A), <- (X g B), Eq. reflexivity.
Qed.

Lemma C23_sort_thm a b c :
  (exists x y, sortEdge Z.ltb a b = (x, y) /\ (x <= y)%Z /\ Permutation [a; b] [x; y]) /\
  (exists x y z, sortFace Z.ltb a b c = (x, y, z) /\ (x <= y <= z)%Z /\ Permutation [a; b; c] [x; y; z]).
Proof.
  split; [|apply sortFace_z]. unfold sortEdge. destruct (Z.ltb_spec a b); do 2 eexists; (split; [reflexivity|]); (split; [lia|]).
  - apply Permutation_refl.
  - apply perm_swap.
Qed.

(** ** For the examples *)
Lemma few_small dim k V C : mesh_ok dim k V C -> length V <= 255 -> few_neighbours C.
Proof.
  intros HM HL a bs Hn Hb. apply (Nat.le_trans _ (length V)); auto.
  rewrite <- (seq_length (length V) 0). apply NoDup_incl_length; auto. intros b Hb'. apply in_seq.
  destruct (edge_range _ _ _ _ _ HM (Hb b Hb')) as [_ X]. cbn in X. lia.
Qed.

Fixpoint insertE (e : edge) (l : list edge) : list edge :=
  match l with
  | [] => [e]
  | f :: l' => if (compareEdges e f <=? 0)%Z then e :: l else f :: insertE e l'
  end.
Definition isort (l : list edge) : list edge := fold_right insertE [] l.

Lemma compare_le e f : (compareEdges e f <= 0)%Z <-> fst e < fst f \/ (fst e = fst f /\ snd e <= snd f).
Proof.
  unfold compareEdges. destruct e as [a b], f as [c d]. cbn [fst snd].
  destruct (Nat.ltb_spec a c), (Nat.ltb_spec c a), (Nat.ltb_spec b d), (Nat.ltb_spec d b); cbn [Z.b2z]; lia.
Qed.
Lemma compare_trans e f g : (compareEdges e f <= 0)%Z -> (compareEdges f g <= 0)%Z -> (compareEdges e g <= 0)%Z.
Proof. rewrite !compare_le. lia. Qed.
Lemma compare_total e f : (0 < compareEdges e f)%Z -> (compareEdges f e <= 0)%Z.
Proof. intros H. assert (X : ~ (compareEdges e f <= 0)%Z) by lia. rewrite compare_le in X. rewrite compare_le. lia. Qed.
Lemma insertE_perm e l : Permutation (e :: l) (insertE e l).
Proof.
  induction l as [|f l IH]; cbn; auto. destruct (compareEdges e f <=? 0)%Z; auto.
  apply (Permutation_trans (perm_swap f e l)). apply perm_skip. auto.
Qed.
Lemma insertE_sorted e l : StronglySorted (fun e f => compareEdges e f <= 0)%Z l -> StronglySorted (fun e f => compareEdges e f <= 0)%Z (insertE e l).
Proof.
  induction 1 as [|f l Hs IH Hf]; cbn; [repeat constructor|]. destruct (Z.leb_spec (compareEdges e f) 0).
  - constructor; [constructor; auto|]. constructor; auto. eapply Forall_impl; [|exact Hf]. intros g Hg. eapply compare_trans; eauto.
  - constructor; auto. apply (Permutation_Forall (insertE_perm e l)). constructor; auto. apply compare_total; auto.
Qed.
Lemma isort_sorts : sorts compareEdges isort.
Proof.
  intros l. split.
  - induction l as [|e l IH]; cbn; auto. apply (Permutation_trans (perm_skip e IH)). apply insertE_perm.
  - assert (S : StronglySorted (fun e f => compareEdges e f <= 0)%Z (isort l)).
    { induction l as [|e l IH]; cbn; [constructor|]. apply insertE_sorted; auto. }
    induction S as [|x l' S IH HF]; intros i j e f Hij He Hf; [destruct i; discriminate|].
    destruct i as [|i], j as [|j]; try lia; cbn in He, Hf.
    + inversion He; subst. rewrite Forall_forall in HF. apply HF. eapply nth_error_In; eauto.
    + apply (IH i j); auto. lia.
Qed.
