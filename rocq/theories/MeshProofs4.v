(** Refinement of 1D meshes, refinement by sorting, refinement of 3D meshes. *)
From Coq Require Import Permutation.
From Verif Require Import Util Lin TupleDictModel MeshModel MeshSpec MeshProofs MeshProofs2 MeshProofs3.

(** ** Sorted edges *)
Lemma compare_antisym e f : (compareEdges e f <= 0)%Z -> (compareEdges f e <= 0)%Z -> e = f.
Proof.
  destruct e as [a b], f as [c d]. unfold compareEdges. cbn [fst snd].
  destruct (Nat.ltb_spec a c), (Nat.ltb_spec c a), (Nat.ltb_spec b d), (Nat.ltb_spec d b); cbn [Z.b2z]; intros; try lia.
  f_equal; lia.
Qed.

Lemma written_edges dim V C : mesh_ok dim 3 V C ->
  for_range 0 (length C) (fun i edges =>
     c0 <- get2 C i 0 ;; c1 <- get2 C i 1 ;; c2 <- get2 C i 2 ;;
     edges <- wr edges (3 * i) (sortE c0 c1) ;;
     edges <- wr edges (3 * i + 1) (sortE c0 c2) ;;
     wr edges (3 * i + 2) (sortE c1 c2)) (alloc (3 * length C)) = Ok (map Some (flat_map edges2 C)).
Proof.
  intros HM.
  loop_inv (fun i nc => length (flat_map edges2 (firstn i C)) = 3 * i /\ nc = map Some (flat_map edges2 (firstn i C)) ++ @alloc edge (3 * (length C - i))) st E HI.
  3: { intros i nc Hi [Hl ->]. destruct (nth_error_lt C i) as [c Hc]; [lia|].
       destruct (mesh_cell _ _ _ _ _ _ HM Hc) as [Lc _]. destruct (length2 c Lc) as (a & b & d & ->).
       read_cell Hc. rewrite (firstn_flat _ _ _ _ Hc). cbn [edges2]. set (done := flat_map edges2 (firstn i C)) in *.
       replace (3 * (length C - i)) with (S (S (S (3 * (length C - S i))))) by lia.
       rewrite wr_next_at by lia. cbn [bind]. rewrite wr_next_at by (rewrite app_length; cbn; lia). cbn [bind].
       rewrite wr_next_at by (rewrite !app_length; cbn; lia).
       eexists. split; [reflexivity|]. split; [rewrite app_length; cbn; lia|]. rewrite <- !app_assoc. reflexivity. }
  - lia.
  - cbn. rewrite Nat.sub_0_r. auto.
  - rewrite E. destruct HI as [_ ->]. rewrite Nat.sub_diag, firstn_all. cbn. rewrite app_nil_r. reflexivity.
Qed.

Lemma edges2_length dim V C : mesh_ok dim 3 V C -> length (flat_map edges2 C) = 3 * length C.
Proof.
  intros [_ H]. induction C as [|c C IH]; [reflexivity|]. cbn [flat_map]. rewrite app_length, IH.
  - destruct (H c (or_introl eq_refl)) as [Lc _]. destruct (length2 c Lc) as (a & b & d & ->). cbn [edges2 length]. lia.
  - intros c' Hc'. apply H. right; auto.
Qed.

Lemma firstn_S_nth {A} (L : list A) i x : nth_error L i = Some x -> firstn (S i) L = firstn i L ++ [x].
Proof. intros H. apply (cut_at _ _ _ H). Qed.

Lemma sorted_numbers nv L : smallE L -> (forall e, In e L -> e <> (0, 0)) ->
  (forall i j e f, i < j -> nth_error L i = Some e -> nth_error L j = Some f -> (compareEdges e f <= 0)%Z) ->
  exists hv, for_range 0 (length L) (fun i st =>
     e <- aget L i ;;
     let '(lookup, new_num_vertices, hvOld) := st in
     let hv := enc e in
     if negb (Z.eqb hv hvOld) then Ok (dset Z.eqb lookup hv new_num_vertices, S new_num_vertices, hv)
     else Ok st) ([], nv, 0%Z) = Ok (enc_items (items nv (uniq L)), nv + length (uniq L), hv).
Proof.
  intros Hs H0 Hord.
  loop_inv (fun i st => let U := uniq (firstn i L) in exists hv, st = (enc_items (items nv U), nv + length U, hv) /\
     (i = 0 -> hv = 0%Z) /\ (forall i' e, i = S i' -> nth_error L i' = Some e -> hv = enc e)) st E HI.
  3: { intros i st Hi (hv & -> & A0 & A1). destruct (nth_error_lt L i) as [e He]; [lia|].
       unfold aget. rewrite He. cbn [bind]. rewrite (firstn_S_nth _ _ _ He), uniq_app. cbn [fold_left].
       assert (Hin : In e L) by (eapply nth_error_In; eauto).
       assert (SU : smallE (uniq (firstn i L))).
       { intros f Hf. apply Hs. rewrite uniq_in in Hf. rewrite <- (firstn_skipn i L). apply in_or_app; auto. }
       assert (Hiff : enc e = hv <-> In e (uniq (firstn i L))).
       { rewrite uniq_in. destruct i as [|i].
         - rewrite (A0 eq_refl). cbn. split; [|tauto]. intros X. exfalso. apply (H0 e Hin).
           apply enc_inj; cbn [fst snd]; try apply (Hs e Hin); try exact X; unfold small, MAX_VAL_EDGE; cbn; lia.
         - destruct (nth_error_lt L i) as [f Hf]; [lia|]. rewrite (A1 i f eq_refl Hf).
           assert (Hinf : In f L) by (eapply nth_error_In; eauto). split.
           + intros X. apply enc_inj in X; try apply (Hs e Hin); try apply (Hs f Hinf). subst f.
             rewrite (firstn_S_nth _ _ _ Hf). apply in_or_app. right; left; auto.
           + intros X. f_equal. rewrite (firstn_S_nth _ _ _ Hf) in X. apply in_app_or in X as [X|[X|[]]]; auto.
             apply In_nth_error in X as [j Hj].
             assert (Hji : j < i). { assert (j < length (firstn i L)) by (apply nth_error_Some; congruence). rewrite firstn_length in H. lia. }
             assert (Hj' : nth_error L j = Some e). { rewrite <- Hj. rewrite <- (firstn_skipn i L) at 1. rewrite nth_error_app1; auto. rewrite firstn_length; lia. }
             apply compare_antisym; [|apply (Hord i (S i)); auto]. apply (Hord j i); auto. }
       destruct (Z.eqb_spec (enc e) hv) as [Heq|Hne]; cbn [negb].
       - eexists. split; [reflexivity|]. rewrite addE_in by (apply Hiff; auto). exists hv. split; auto. split; [lia|].
         intros i' e' Ei He'. inversion Ei; subst i'. rewrite He in He'. inversion He'; subst; auto.
       - assert (Hni : ~ In e (uniq (firstn i L))) by (rewrite <- Hiff; auto).
         eexists. split; [reflexivity|]. rewrite addE_notin by auto. exists (enc e). rewrite items_snoc, app_length. cbn [length]. split.
         + f_equal; f_equal; [|lia]. rewrite (dset_notin Z.eqb Zeqb_spec).
           * unfold enc_items. rewrite map_app. reflexivity.
           * rewrite enc_items_fst, items_fst. intros X. apply in_map_iff in X as (f & Ef & Hf).
             apply enc_inj in Ef; [subst; auto| | | |]; try apply (SU f Hf); apply (Hs e Hin).
         + split; [lia|]. intros i' e' Ei He'. inversion Ei; subst i'. congruence. }
  - lia.
  - exists 0%Z. cbn. split; [f_equal; f_equal; lia|]. split; auto. intros; lia.
  - destruct HI as (hv & -> & _). rewrite firstn_all in E. exists hv. exact E.
Qed.

Lemma joins_lt c e : NoDup c -> joins c e -> fst e < snd e.
Proof.
  intros Hn (i & j & a & b & Hij & Ha & Hb & ->). cbn.
  assert (a <> b). { intros ->. assert (i = j); [|lia]. apply (proj1 (NoDup_nth_error c) Hn); [apply nth_error_Some|]; congruence. }
  lia.
Qed.

Lemma refine2_sort qsort V C : sorts compareEdges qsort -> mesh_ok 2 3 V C -> fits_index V -> distinct_vertices C ->
  exists E C', refineCy2Dsort qsort V C = Ok (refined_vertices V E, C', enc_items (items (length V) E)) /\
    edge_list C E /\ children_of 4 C C' (quarters V E).
Proof.
  intros Hq HM HF Hdv. destruct (Hq (flat_map edges2 C)) as [HP Hord]. set (L := qsort (flat_map edges2 C)) in *.
  set (E := uniq L).
  assert (HE : edge_list C E).
  { split; [apply uniq_nodup|]. intros e. unfold E. rewrite uniq_in. destruct (edge_list_uniq C edges2) as [_ X].
    - intros c Hc f. destruct HM as [_ HM]. destruct (HM c Hc) as [Lc _]. destruct (length2 c Lc) as (a & b & d & ->). apply edges2_joins.
    - rewrite <- X, uniq_in. split; apply Permutation_in; auto. apply Permutation_sym; auto. }
  assert (HE' := HE). destruct HE' as [HEn HEi].
  assert (Hr : forall e, In e E -> fst e < length V /\ snd e < length V) by (intros e He; eapply edge_range; eauto; apply HEi; auto).
  assert (Hs : smallE E) by (eapply edge_small; eauto; intros e He; apply HEi; auto).
  unfold refineCy2Dsort. rewrite (written_edges 2 V C HM). cbn [bind]. rewrite all_init_some. cbn [bind]. fold L.
  destruct (sorted_numbers (length V) L) as (hv & En).
  - intros e He. apply Hs. apply uniq_in; auto.
  - intros e He ->. assert (X : edge_of C (0, 0)) by (apply HEi; apply uniq_in; auto). destruct X as (c & Hc & Hj).
    apply joins_lt in Hj; [cbn in Hj; lia|]. apply Hdv; auto.
  - exact Hord.
  - assert (HL : 3 * length C = length L) by (rewrite <- (edges2_length 2 V C HM); exact (Permutation_length HP)).
    rewrite HL. unfold edge in En |- *. rewrite En. cbn [bind]. fold E.
    change (fun hj new => set_midpoint 2 V (dec (fst hj)) (snd hj) new) with (fun (hj : Z * nat) new => set_midpoint 2 V (dec (fst hj)) (snd hj) new).
    rewrite copy_vertices_ok by apply HM. cbn [bind].
    assert (X := decoded_items (fun e j new => set_midpoint 2 V e j new) (items (length V) E) (map (map Some) V ++ alloc2 (length E) 2)).
    rewrite items_fst in X. specialize (X Hs). unfold edge in X |- *. rewrite X. clear X.
    assert (X := vertices_ok 2 V E (items (length V) E) (proj1 HM) Hr (Permutation_refl _)).
    unfold edge in X |- *. rewrite X. cbn [bind]. clear X.
    destruct (quarters_ok 2 V C E (fun e => dget Z.eqb (enc_items (items (length V) E)) (enc e)) (fun i nc => c0 <- get2 C i 0 ;; c1 <- get2 C i 1 ;; c2 <- get2 C i 2 ;;
       nv0 <- dget Z.eqb (enc_items (items (length V) E)) (enc (sortE c0 c1)) ;; nv1 <- dget Z.eqb (enc_items (items (length V) E)) (enc (sortE c1 c2)) ;;
       nv2 <- dget Z.eqb (enc_items (items (length V) E)) (enc (sortE c0 c2)) ;; put_children2 i c0 c1 c2 nv0 nv1 nv2 nc) HM HE) as (C' & EC & HC).
    + intros e k Hk. apply lookup_get; auto.
    + intros i a b c nc Hc. read_cell Hc. reflexivity.
    + unfold edge in EC |- *. rewrite EC. cbn [bind]. rewrite !all_init2_some. cbn [bind]. exists E, C'. split; [reflexivity|]. split; auto.
Qed.

(** ** 1D *)
Lemma distinct_edges1 dim V C : mesh_ok dim 2 V C -> distinct_edges C -> NoDup (flat_map edges1 C) /\ length (flat_map edges1 C) = length C /\
  forall i a b, nth_error C i = Some [a; b] -> nth_error (flat_map edges1 C) i = Some (sortE a b).
Proof.
  intros [_ HM] Hd.
  assert (Hn : flat_map edges1 C = map (fun c => sortE (nth 0 c 0) (nth 1 c 0)) C).
  { clear Hd. induction C as [|c C IH]; [reflexivity|]. cbn [flat_map map]. rewrite IH by (intros; apply HM; right; auto).
    destruct (HM c (or_introl eq_refl)) as [Lc _]. destruct (length1 c Lc) as (a & b & ->). reflexivity. }
  rewrite Hn. split; [|split; [apply map_length|]].
  - apply NoDup_nth_error. intros i j Hi E. rewrite map_length in Hi. destruct (nth_error_lt C i Hi) as [c Hc].
    rewrite !nth_error_map, Hc in E. cbn [option_map] in E. destruct (nth_error C j) as [d|] eqn:Hj; [|discriminate]. cbn [option_map] in E.
    assert (J : forall c, In c C -> joins c (sortE (nth 0 c 0) (nth 1 c 0))).
    { intros x Hx. destruct (HM x Hx) as [Lx _]. destruct (length1 x Lx) as (a & b & ->). apply edges1_joins. cbn. auto. }
    apply (Hd i j c d (sortE (nth 0 c 0) (nth 1 c 0)) Hc Hj).
    + apply J. eapply nth_error_In; eauto.
    + inversion E as [E']. rewrite E'. apply J. eapply nth_error_In; eauto.
  - intros i a b Hc. rewrite nth_error_map, Hc. reflexivity.
Qed.

Lemma numbers1 nv L : smallE L -> NoDup L ->
  for_range 0 (length L) (fun i (st : list (Z * nat) * nat) =>
     e <- aget L i ;; Ok (dset Z.eqb (fst st) (enc e) (snd st), S (snd st))) ([], nv) = Ok (enc_items (items nv L), nv + length L).
Proof.
  intros Hs Hn.
  loop_inv (fun i st => st = (enc_items (items nv (firstn i L)), nv + i)) st E HI.
  3: { intros i st Hi ->. destruct (nth_error_lt L i) as [e He]; [lia|]. unfold aget. rewrite He. cbn [bind fst snd].
       eexists. split; [reflexivity|]. rewrite (firstn_S_nth _ _ _ He), items_snoc. rewrite firstn_length_le by lia. f_equal; [|lia].
       rewrite (dset_notin Z.eqb Zeqb_spec); [unfold enc_items; rewrite map_app; reflexivity|].
       rewrite enc_items_fst, items_fst. intros X. apply in_map_iff in X as (f & Ef & Hf).
       assert (HfL : In f L) by (rewrite <- (firstn_skipn i L); apply in_or_app; auto).
       assert (HeL : In e L) by (eapply nth_error_In; eauto).
       apply enc_inj in Ef; try apply (Hs f HfL); try apply (Hs e HeL). subst f.
       apply In_nth_error in Hf as [j Hj].
       assert (Hji : j < i). { assert (j < length (firstn i L)) by (apply nth_error_Some; congruence). rewrite firstn_length in H. lia. }
       assert (Hj' : nth_error L j = Some e). { rewrite <- Hj. rewrite <- (firstn_skipn i L) at 1. rewrite nth_error_app1; auto. rewrite firstn_length; lia. }
       assert (j = i); [|lia]. apply (proj1 (NoDup_nth_error L) Hn); [lia|congruence]. }
  - lia.
  - cbn. f_equal; lia.
  - rewrite E, HI, firstn_all. reflexivity.
Qed.

Lemma for_range_ext {S} n (f g : nat -> S -> res S) s : (forall i s', i < n -> f i s' = g i s') -> for_range 0 n f s = for_range 0 n g s.
Proof.
  intros H. unfold for_range. assert (X : forall m lo s, lo + m <= n -> for_n m lo f s = for_n m lo g s).
  { induction m as [|m IH]; intros lo s0 Hm; cbn; auto. rewrite H by lia. destruct (g lo s0); cbn; auto. apply IH. lia. }
  apply X. lia.
Qed.

Lemma refine1 dim V C : mesh_ok dim 2 V C -> fits_index V -> distinct_edges C ->
  exists E C', refineCy1D dim V C = Ok (refined_vertices V E, C', enc_items (items (length V) E)) /\
    edge_list C E /\ children_of 2 C C' (halves V E).
Proof.
  intros HM HF Hd. set (E := flat_map edges1 C).
  destruct (distinct_edges1 dim V C HM Hd) as (HEn & HEl & HEnth). fold E in HEn, HEl, HEnth.
  assert (HE : edge_list C E).
  { split; [auto|]. intros e. unfold E. destruct (edge_list_uniq C edges1) as [_ X].
    - intros c Hc f. destruct HM as [_ HM]. destruct (HM c Hc) as [Lc _]. destruct (length1 c Lc) as (a & b & ->). apply edges1_joins.
    - rewrite <- X, uniq_in. tauto. }
  assert (HE' := HE). destruct HE' as [_ HEi].
  assert (Hr : forall e, In e E -> fst e < length V /\ snd e < length V) by (intros e He; eapply edge_range; eauto; apply HEi; auto).
  assert (Hs : smallE E) by (eapply edge_small; eauto; intros e He; apply HEi; auto).
  unfold refineCy1D.
  rewrite (for_range_ext (length C) _ (fun i (st : list (Z * nat) * nat) => e <- aget E i ;; Ok (dset Z.eqb (fst st) (enc e) (snd st), S (snd st)))).
  2: { intros i st Hi. destruct (nth_error_lt C i Hi) as [c Hc]. destruct (mesh_cell _ _ _ _ _ _ HM Hc) as [Lc _]. destruct (length1 c Lc) as (a & b & ->).
       read_cell Hc. unfold aget. rewrite (HEnth _ _ _ Hc). reflexivity. }
  assert (X := numbers1 (length V) E Hs HEn). unfold edge in X, HEl |- *. rewrite HEl in X. rewrite X. clear X. cbn [bind].
  rewrite copy_vertices_ok by apply HM. cbn [bind].
  assert (X := decoded_items (fun e j new => set_midpoint dim V e j new) (items (length V) E) (map (map Some) V ++ alloc2 (length C) dim)).
  rewrite items_fst in X. specialize (X Hs). unfold edge in X |- *. rewrite X. clear X.
  assert (X := vertices_ok dim V E (items (length V) E) (proj1 HM) Hr (Permutation_refl _)). 
  unfold edge in X |- *. rewrite HEl in X. rewrite X. cbn [bind]. clear X.
  destruct (cells_ok 2 2 C (fun i nc => c0 <- get2 C i 0 ;; c1 <- get2 C i 1 ;; nv0 <- dget Z.eqb (enc_items (items (length V) E)) (enc (sortE c0 c1)) ;;
     nc <- put_row nc (2 * i) [c0; nv0] ;; put_row nc (2 * i + 1) [nv0; c1]) (halves V E)) as (C' & EC & HC).
  - intros i c done m Hc Hl. destruct (mesh_cell _ _ _ _ _ _ HM Hc) as [Lc _]. destruct (length1 c Lc) as (a & b & ->).
    read_cell Hc. assert (H01 := HEnth _ _ _ Hc). rewrite (lookup_get _ _ _ _ Hs HEn H01). cbn [bind].
    exists [[a; length V + i]; [length V + i; b]]. split; [|split; [reflexivity|]].
    + exists a, b, (length V + i). repeat split; auto. apply mid_intro; auto.
    + cbn [Nat.add]. rewrite put_row_next by (auto; lia). cbn [bind].
      rewrite put_row_next by (auto; rewrite app_length; cbn [length]; lia). rewrite <- !app_assoc. reflexivity.
  - unfold edge in EC |- *. rewrite EC. cbn [bind]. rewrite !all_init2_some. cbn [bind]. exists E, C'. split; [reflexivity|]. split; auto.
Qed.
