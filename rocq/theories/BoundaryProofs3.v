From Coq Require Import Permutation.
From Verif Require Import Util Lin MeshModel MeshSpec MeshProofs MeshProofs2 BoundaryModel BoundarySpec BoundaryProofs BoundaryProofs2.

(** ** Faces *)
Definition face_key (f : list nat) : nat * nat * nat := sortFace Nat.ltb (nth 0 f 0) (nth 1 f 0) (nth 2 f 0).
Definition key3 (f : list nat) : fcode := encF (face_key f).
Definition facets3 (c : list nat) : list (list nat) :=
  [[nth 0 c 0; nth 1 c 0; nth 2 c 0]; [nth 0 c 0; nth 1 c 0; nth 3 c 0]; [nth 0 c 0; nth 2 c 0; nth 3 c 0]; [nth 1 c 0; nth 2 c 0; nth 3 c 0]].

Lemma sortFace_nat a b c : exists x y z, sortFace Nat.ltb a b c = (x, y, z) /\ x <= y <= z /\ Permutation [a; b; c] [x; y; z].
Proof.
  unfold sortFace. destruct (Nat.ltb_spec a b), (Nat.ltb_spec a c), (Nat.ltb_spec b c); eexists _, _, _; (split; [reflexivity|]); (split; [lia|]); try reflexivity; try (exfalso; lia).
  - apply perm_skip, perm_swap.
  - eapply perm_trans; [apply perm_skip, perm_swap|apply perm_swap].
  - apply perm_swap.
  - eapply perm_trans; [apply perm_swap|apply perm_skip, perm_swap].
  - eapply perm_trans; [apply perm_swap|]. eapply perm_trans; [apply perm_skip, perm_swap|apply perm_swap].
Qed.

Lemma perm3_sorted (x y z x' y' z' : nat) : x < y < z -> x' < y' < z' -> Permutation [x; y; z] [x'; y'; z'] -> x = x' /\ y = y' /\ z = z'.
Proof.
  intros H H' P. assert (forall v, In v [x; y; z] <-> In v [x'; y'; z']) as E by (intros v; split; apply Permutation_in; [exact P|symmetry; exact P]).
  pose proof (proj1 (E x)) as E1. pose proof (proj1 (E y)) as E2. pose proof (proj1 (E z)) as E3. cbn [In] in E1, E2, E3. clear E P. lia.
Qed.

Lemma face_key_spec f : facet 3 f -> exists x y z, face_key f = (x, y, z) /\ x < y < z /\ Permutation f [x; y; z] /\ small x /\ small y /\ small z.
Proof.
  intros (L & N & S). apply len3_inv in L as (a & b & c & ->). unfold face_key. cbn [nth].
  destruct (sortFace_nat a b c) as (x & y & z & E & Hs & P). exists x, y, z. split; [exact E|].
  pose proof (Permutation_NoDup P N) as N'. apply NoDup3 in N'. split; [lia|]. split; [exact P|].
  assert (forall v, In v [x; y; z] -> small v) as S' by (intros v Hv; apply S, (Permutation_in v (Permutation_sym P) Hv)).
  split; [|split]; apply S'; cbn; auto.
Qed.

Lemma decF_encF x y z : small x -> small y -> small z -> decF (encF (x, y, z)) = [x; y; z].
Proof.
  unfold small. intros Hx Hy Hz. unfold decF, encF. rewrite decode_encode_face by lia. rewrite !Nat2Z.id. reflexivity.
Qed.
Lemma decF_key f : facet 3 f -> Permutation f (decF (key3 f)).
Proof.
  intros F. destruct (face_key_spec f F) as (x & y & z & E & _ & P & Sx & Sy & Sz). unfold key3. rewrite E, decF_encF by assumption. exact P.
Qed.

Lemma key3_inj f h : facet 3 f -> facet 3 h -> (key3 f = key3 h <-> Permutation f h).
Proof.
  intros F F'. split.
  - intros E. rewrite (decF_key f F), (decF_key h F'), E. reflexivity.
  - intros P. destruct (face_key_spec f F) as (x & y & z & E & O & Pf & _). destruct (face_key_spec h F') as (x' & y' & z' & E' & O' & Ph & _).
    destruct (perm3_sorted x y z x' y' z' O O') as (-> & -> & ->); [rewrite <- Pf, <- Ph; exact P|]. unfold key3. congruence.
Qed.
Lemma facet_perm n f h : facet n f -> Permutation f h -> facet n h.
Proof.
  intros (L & N & S) P. split; [rewrite <- (Permutation_length P); exact L|]. split; [exact (Permutation_NoDup P N)|].
  intros v Hv. apply S, (Permutation_in v (Permutation_sym P) Hv).
Qed.
Lemma key3_dec f : facet 3 f -> facet 3 (decF (key3 f)) /\ key3 (decF (key3 f)) = key3 f.
Proof.
  intros F. pose proof (decF_key f F) as P. assert (facet 3 (decF (key3 f))) as F' by exact (facet_perm 3 f _ F P).
  split; [exact F'|]. apply key3_inj; auto. symmetry. exact P.
Qed.

Lemma facets3_facet C c f : cells_of 4 C -> In c C -> In f (facets3 c) -> facet 3 f /\ incl f c.
Proof.
  intros HC Hc Hf. destruct (HC c Hc) as (L & Nc & S). destruct (length3 c L) as (x & y & z & w & ->). apply NoDup4 in Nc as (D1 & D2 & D3 & D4 & D5 & D6).
  unfold facets3 in Hf. cbn [nth] in Hf.
  assert (forall a b e, In a [x; y; z; w] -> In b [x; y; z; w] -> In e [x; y; z; w] -> a <> b -> a <> e -> b <> e -> facet 3 [a; b; e] /\ incl [a; b; e] [x; y; z; w]) as G.
  { intros a b e Ha Hb He E1 E2 E3. split; [split; [reflexivity|split; [apply NoDup3; auto|]]|]; intros v [<-|[<-|[<-|[]]]]; first [apply S; assumption|assumption]. }
  destruct Hf as [<-|[<-|[<-|[<-|[]]]]]; apply G; cbn [In]; auto.
Qed.
Lemma facets3_nodup C c : cells_of 4 C -> In c C -> NoDup (map key3 (facets3 c)).
Proof.
  intros HC Hc. assert (forall f, In f (facets3 c) -> facet 3 f) as F by (intros f Hf; apply (facets3_facet C c f HC Hc Hf)).
  destruct (HC c Hc) as (L & Nc & S). destruct (length3 c L) as (x & y & z & w & ->). apply NoDup4 in Nc as (D1 & D2 & D3 & D4 & D5 & D6).
  unfold facets3 in *. cbn [map nth] in *.
  assert (forall f h v, In f [[x; y; z]; [x; y; w]; [x; z; w]; [y; z; w]] -> In h [[x; y; z]; [x; y; w]; [x; z; w]; [y; z; w]] -> In v f -> ~ In v h -> key3 f <> key3 h) as G.
  { intros f h v Hf Hh Hv Hn E. apply Hn. apply (Permutation_in v (proj1 (key3_inj f h (F f Hf) (F h Hh)) E) Hv). }
  apply NoDup4.
  split; [|split; [|split; [|split; [|split]]]].
  - apply (G [x; y; z] [x; y; w] z); cbn [In]; auto; intuition congruence.
  - apply (G [x; y; z] [x; z; w] y); cbn [In]; auto; intuition congruence.
  - apply (G [x; y; z] [y; z; w] x); cbn [In]; auto; intuition congruence.
  - apply (G [x; y; w] [x; z; w] y); cbn [In]; auto; intuition congruence.
  - apply (G [x; y; w] [y; z; w] x); cbn [In]; auto; intuition congruence.
  - apply (G [x; z; w] [y; z; w] x); cbn [In]; auto 6; intuition congruence.
Qed.
Lemma facets3_all C c f : cells_of 4 C -> In c C -> facet 3 f -> incl f c -> exists h, In h (facets3 c) /\ Permutation f h.
Proof.
  intros HC Hc Ff I. assert (forall h, In h (facets3 c) -> facet 3 h) as F by (intros h Hh; apply (facets3_facet C c h HC Hc Hh)).
  destruct (HC c Hc) as (L & Nc & S). destruct (length3 c L) as (x & y & z & w & ->).
  unfold facets3 in *. cbn [nth] in *. destruct Ff as (Lf & Nf & _).
  assert (forall h, In h [[x; y; z]; [x; y; w]; [x; z; w]; [y; z; w]] -> incl f h -> exists h', In h' [[x; y; z]; [x; y; w]; [x; z; w]; [y; z; w]] /\ Permutation f h') as G.
  { intros h Hh Ih. exists h. split; [exact Hh|]. destruct (F h Hh) as (Lh & Nh & _). apply incl_nodup_perm; auto. congruence. }
  assert (forall u, In u [x; y; z; w] -> ~ In u f -> forall v, In v f -> In v [x; y; z; w] /\ v <> u) as Q.
  { intros u _ Hu v Hv. split; [apply I, Hv|congruence]. }
  destruct (in_dec Nat.eq_dec x f) as [Hx|Hx].
  2: { apply (G [y; z; w]); [cbn [In]; auto|]. intros v Hv. destruct (I v Hv) as [->|H]; [tauto|exact H]. }
  destruct (in_dec Nat.eq_dec y f) as [Hy|Hy].
  2: { apply (G [x; z; w]); [cbn [In]; auto|]. intros v Hv. destruct (I v Hv) as [->|[->|H]]; [left; reflexivity|tauto|right; exact H]. }
  destruct (in_dec Nat.eq_dec z f) as [Hz|Hz].
  2: { apply (G [x; y; w]); [cbn [In]; auto|]. intros v Hv. destruct (I v Hv) as [->|[->|[->|H]]]; cbn [In]; first [tauto|auto]. }
  apply NoDup4 in Nc as (D1 & D2 & D3 & D4 & D5 & D6).
  exists [x; y; z]. split; [left; reflexivity|]. symmetry. apply incl_nodup_perm; [apply NoDup3; auto|cbn [length]; congruence|exact Nf|].
  intros v [<-|[<-|[<-|[]]]]; assumption.
Qed.

Lemma cell_faces_keys x y z w : map encF (cell_faces x y z w) = map key3 (facets3 [x; y; z; w]).
Proof. reflexivity. Qed.

Lemma fcode_eqb_spec a b : fcode_eqb a b = true <-> a = b.
Proof.
  unfold fcode_eqb. destruct a, b. cbn. rewrite andb_true_iff, !Z.eqb_eq. split; [intros []; subst; auto|intros E; inversion E; auto].
Qed.
Lemma fcode_dec (a b : fcode) : {a = b} + {a <> b}.
Proof. destruct (fcode_eqb a b) eqn:E; [left; apply fcode_eqb_spec, E|right; intros H; apply fcode_eqb_spec in H; congruence]. Qed.

Lemma face_of_key C k : cells_of 4 C -> Nat.Odd (count_occ fcode_dec (all_keys key3 facets3 C) k) -> facet 3 (decF k) /\ key3 (decF k) = k.
Proof.
  intros HC O. destruct (in_dec fcode_dec k (all_keys key3 facets3 C)) as [Hi|Hi].
  - apply in_keys in Hi as (c & f & Hc & Hf & ->). apply key3_dec. apply (facets3_facet C c f HC Hc Hf).
  - apply (count_occ_not_In fcode_dec) in Hi. rewrite Hi in O. destruct (odd_0 O).
Qed.

Lemma boundaryFaces_ok order C : some_order order -> cells_of 4 C ->
  exists B, boundaryFaces order C = Ok B /\ lists_odd 3 C B.
Proof.
  intros Ho HC. unfold boundaryFaces.
  rewrite (range_flat C _ (fun _ c => map key3 (facets3 c)) (toggle fcode_eqb)).
  2: { intros i c s Hi. destruct (HC c (nth_error_In C i Hi)) as (L & _). destruct (length3 c L) as (x & y & z & w & ->).
       rewrite (get2_ok _ _ 0 _ x Hi) by reflexivity. rewrite (get2_ok _ _ 1 _ y Hi) by reflexivity. rewrite (get2_ok _ _ 2 _ z Hi) by reflexivity.
       rewrite (get2_ok _ _ 3 _ w Hi) by reflexivity. cbn [bind]. rewrite <- cell_faces_keys, for_list_map. reflexivity. }
  rewrite (flat_map_snd (fun c => map key3 (facets3 c)) C).
  destruct (toggle_set fcode_eqb fcode_eqb_spec fcode_dec (all_keys key3 facets3 C) [] (fun _ => 0)) as (s & E & N & H).
  { constructor. } { intros k. split; [intros []|intros O; destruct (odd_0 O)]. }
  unfold all_keys in E. rewrite E. cbn [bind].
  assert (forall k, In k (order s) <-> Nat.Odd (count_occ fcode_dec (all_keys key3 facets3 C) k)) as Hk.
  { intros k. rewrite <- (Nat.add_0_r (count_occ _ _ _)). rewrite <- (H k). split; apply Permutation_in; [symmetry|]; apply Ho. }
  rewrite (Permutation_length (Ho s)).
  destruct (fill_rows (order s) decF 3 (fun hv (st : list (buf nat) * nat) => mv <- put_row (fst st) (snd st) (decF hv) ;; Ok (mv, S (snd st)))) as ([mv j] & Es & Hs).
  - intros k Hx. apply Hk in Hx. apply (face_of_key C k HC Hx).
  - intros k st _. reflexivity.
  - rewrite Es. cbn [bind]. cbn [fst] in Hs. exists (map decF (order s)). split; [exact Hs|].
    apply (boundary_gen fcode_dec 3 key3 facets3 C key3_inj) with (ks := order s).
    + intros c v Hc Hv. apply (HC c Hc), Hv.
    + intros c f. apply facets3_facet, HC.
    + intros c. apply facets3_nodup, HC.
    + intros c f. apply facets3_all, HC.
    + exact (Permutation_NoDup (Ho s) N).
    + exact Hk.
    + apply forall2_map. intros k Hx. apply Hk in Hx. exact (face_of_key C k HC Hx).
Qed.

(** ** Faces with orientation *)
Lemma orient_face_ok V C f cn c : mesh_ok 3 4 V C -> length f = 3 -> (forall v, In v f -> v < length V) -> nth_error C cn = Some c ->
  exists f', orient_face V C f cn = Ok f' /\ Permutation f f'.
Proof.
  intros HM L Hf Hc. destruct (len3_inv f L) as (a & b & e & ->).
  assert (forall v j, v < length V -> j < 3 -> exists x, get2 V v j = Ok x) as G.
  { intros v j Hv Hj. destruct (nth_error_lt V v Hv) as [p Hp]. assert (length p = 3) as Lp by (apply (proj1 HM), (nth_error_In V v Hp)).
    destruct (nth_error_lt p j) as [x Hx]; [lia|]. exists x. exact (get2_ok V v j p x Hp Hx). }
  assert (a < length V /\ b < length V /\ e < length V) as (Ha & Hb & He) by (split; [|split]; apply Hf; cbn; auto).
  destruct (mesh_cell 3 4 V C cn c HM Hc) as [Lc Hv]. destruct (length3 c Lc) as (c0 & c1 & c2 & c3 & ->).
  assert (c0 < length V /\ c1 < length V /\ c2 < length V /\ c3 < length V) as (H0 & H1 & H2 & H3) by (split; [|split; [|split]]; apply Hv; cbn; auto).
  assert (forall v, v < length V -> exists x y z, get2 V v 0 = Ok x /\ get2 V v 1 = Ok y /\ get2 V v 2 = Ok z) as G3.
  { intros v Hx. destruct (G v 0 Hx) as [x Ex]; [lia|]. destruct (G v 1 Hx) as [y Ey]; [lia|]. destruct (G v 2 Hx) as [z Ez]; [lia|]. eauto 6. }
  clear G. destruct (G3 a Ha) as (a0 & a1 & a2 & Ea0 & Ea1 & Ea2). destruct (G3 b Hb) as (b0 & b1 & b2 & Eb0 & Eb1 & Eb2). destruct (G3 e He) as (e0 & e1 & e2 & Ee0 & Ee1 & Ee2).
  destruct (G3 c0 H0) as (u0 & u1 & u2 & Eu0 & Eu1 & Eu2). destruct (G3 c1 H1) as (v0 & v1 & v2 & Ev0 & Ev1 & Ev2).
  destruct (G3 c2 H2) as (w0 & w1 & w2 & Ew0 & Ew1 & Ew2). destruct (G3 c3 H3) as (z0 & z1 & z2 & Ez0 & Ez1 & Ez2). clear G3.
  unfold orient_face. cbn [aget nth_error bind]. unfold for_range. cbn [Nat.sub for_n for_list].
  rewrite !(get2_ok C cn 0 _ c0 Hc), !(get2_ok C cn 1 _ c1 Hc), !(get2_ok C cn 2 _ c2 Hc), !(get2_ok C cn 3 _ c3 Hc) by reflexivity.
  rewrite ?Ea0, ?Ea1, ?Ea2, ?Eb0, ?Eb1, ?Eb2, ?Ee0, ?Ee1, ?Ee2. cbn [bind].
  rewrite ?Eu0, ?Eu1, ?Eu2. cbn [bind]. rewrite ?Ev0, ?Ev1, ?Ev2. cbn [bind]. rewrite ?Ew0, ?Ew1, ?Ew2. cbn [bind]. rewrite ?Ez0, ?Ez1, ?Ez2. cbn [bind].
  unfold wr, aset. cbn [alloc repeat length Nat.ltb Nat.leb upd bind all_init].
  match goal with |- context [if ?t then _ else _] => destruct t end.
  - exists [a; e; b]. split; [reflexivity|apply perm_skip, perm_swap].
  - exists [a; b; e]. split; reflexivity.
Qed.

Definition face_items (C : list (list nat)) : list (fcode * nat) :=
  flat_map (fun ic : nat * list nat => map (fun f => (key3 f, fst ic)) (facets3 (snd ic))) (numbered C).

Lemma boundaryFacesWithOrientation_ok V C : mesh_ok 3 4 V C -> cells_of 4 C ->
  exists B, boundaryFacesWithOrientation V C = Ok B /\ lists_odd 3 C B.
Proof.
  intros HM HC. unfold boundaryFacesWithOrientation.
  rewrite (range_flat C _ (fun i c => map (fun f => (key3 f, i)) (facets3 c)) (fun kv => toggle_item fcode_eqb (fst kv) (snd kv))).
  2: { intros i c s Hi. destruct (HC c (nth_error_In C i Hi)) as (L & _). destruct (length3 c L) as (x & y & z & w & ->).
       rewrite (get2_ok _ _ 0 _ x Hi) by reflexivity. rewrite (get2_ok _ _ 1 _ y Hi) by reflexivity. rewrite (get2_ok _ _ 2 _ z Hi) by reflexivity.
       rewrite (get2_ok _ _ 3 _ w Hi) by reflexivity. reflexivity. }
  change (flat_map (fun ic : nat * list nat => map (fun f => (key3 f, fst ic)) (facets3 (snd ic))) (numbered C)) with (face_items C).
  destruct (toggle_dict fcode_eqb fcode_eqb_spec fcode_dec (face_items C) [] (fun _ => 0)) as (d & E & N & H & I).
  { constructor. } { intros k. split; [intros []|intros O; destruct (odd_0 O)]. }
  rewrite E. cbn [bind].
  assert (forall k, In k (map fst d) <-> Nat.Odd (count_occ fcode_dec (all_keys key3 facets3 C) k)) as Hk.
  { intros k. rewrite H, Nat.add_0_r. unfold face_items, all_keys. rewrite map_flat_map.
    rewrite <- (flat_map_snd (fun c => map key3 (facets3 c)) C). reflexivity. }
  assert (forall x, In x d -> exists f', orient_face V C (decF (fst x)) (snd x) = Ok f' /\ facet 3 f' /\ key3 f' = fst x) as R.
  { intros [k i] Hx. cbn [fst snd]. destruct (I (k, i) Hx) as [[]|Hi]. unfold face_items in Hi. apply in_flat_map in Hi as ([j c] & Hj & Hi).
    cbn [fst snd] in Hi. apply in_map_iff in Hi as (f & Ef & Hf). injection Ef as <- <-. apply numbered_in in Hj.
    destruct (facets3_facet C c f HC (nth_error_In C j Hj) Hf) as [Ff If]. destruct (key3_dec f Ff) as [Fd Ed].
    destruct (orient_face_ok V C (decF (key3 f)) j c HM) as (f' & Ef & P); auto.
    - intros v Hv. apply (Permutation_in v (Permutation_sym (decF_key f Ff))) in Hv. apply (mesh_cell 3 4 V C j c HM Hj). apply If, Hv.
    - exists f'. split; [exact Ef|]. assert (facet 3 f') as F' by exact (facet_perm 3 _ _ Fd P). split; [exact F'|].
      apply key3_inj; auto. rewrite (decF_key f Ff). symmetry. exact P. }
  pose (row := fun x : fcode * nat => match orient_face V C (decF (fst x)) (snd x) with Ok f => f | Err _ => [] end).
  assert (forall x, In x d -> orient_face V C (decF (fst x)) (snd x) = Ok (row x) /\ facet 3 (row x) /\ key3 (row x) = fst x) as R'.
  { intros x Hx. destruct (R x Hx) as (f' & Ef & F & K). unfold row. rewrite Ef. auto. }
  rewrite for_list_map.
  destruct (fill_rows d row 3 (fun a (st : list (buf nat) * nat) =>
     cellNo <- dget fcode_eqb d (fst a) ;; f <- orient_face V C (decF (fst a)) cellNo ;;
     mv <- put_row (fst st) (snd st) f ;; Ok (mv, S (snd st)))) as ([mv j] & Es & Hs).
  - intros x Hx. apply (R' x Hx).
  - intros x st Hx. rewrite (dget_in fcode_eqb fcode_eqb_spec d (fst x) (snd x) N) by (destruct x; exact Hx). cbn [bind].
    rewrite (proj1 (R' x Hx)). reflexivity.
  - rewrite Es. cbn [bind]. cbn [fst] in Hs. exists (map row d). split; [exact Hs|].
    apply (boundary_gen fcode_dec 3 key3 facets3 C key3_inj) with (ks := map fst d).
    + intros c v Hc Hv. apply (HC c Hc), Hv.
    + intros c f. apply facets3_facet, HC.
    + intros c. apply facets3_nodup, HC.
    + intros c f. apply facets3_all, HC.
    + exact N.
    + exact Hk.
    + apply forall2_map_l. intros x Hx. apply (R' x Hx).
Qed.

(** ** Boundaries of boundaries *)
Lemma boundaryVerticesFromBoundaryEdges_ok order B : some_order order -> (forall e, In e B -> length e = 2) ->
  exists P, boundaryVerticesFromBoundaryEdges order B = Ok P /\ NoDup P /\ forall v, In v P <-> exists e, In e B /\ In v e.
Proof.
  intros Ho HB. unfold boundaryVerticesFromBoundaryEdges.
  loop_inv (fun i s => NoDup s /\ forall v, In v s <-> exists e, In e (firstn i B) /\ In v e) s E HI.
  3: { intros k s0 Hk [N H]. destruct (nth_error_lt B k) as [e He]; [lia|].
       destruct (cut_at B k e He) as (C1 & _ & _). destruct (len2_inv e (HB e (nth_error_In B k He))) as (a & b & ->).
       rewrite (get2_ok B k 0 _ a He), (get2_ok B k 1 _ b He) by reflexivity. cbn [bind]. eexists. split; [reflexivity|].
       split; [apply sadd_nodup; [exact Nat.eqb_eq|]; apply sadd_nodup; [exact Nat.eqb_eq|exact N]|].
       intros v. rewrite !(sadd_in Nat.eqb Nat.eqb_eq), H, C1. split.
       - intros [[(e & He' & Hv)| ->]| ->].
         + exists e. split; [apply in_app_iff; left; exact He'|exact Hv].
         + exists [a; b]. split; [apply in_app_iff; right; left; reflexivity|left; reflexivity].
         + exists [a; b]. split; [apply in_app_iff; right; left; reflexivity|right; left; reflexivity].
       - intros (e & He' & Hv). apply in_app_iff in He' as [He'|[<-|[]]]; [left; left; eauto|]. destruct Hv as [<-|[<-|[]]]; auto. }
  { lia. } { split; [constructor|]. intros v. split; [intros []|intros (e & [] & _)]. }
  rewrite E. cbn [bind]. destruct HI as [N H]. rewrite firstn_all in H.
  destruct (for_list_inv (fun done st => st = (map Some done ++ alloc (length s - length done), length done))
    (fun i (st : buf nat * nat) => bv <- wr (fst st) (snd st) i ;; Ok (bv, S (snd st))) (order s) [] (alloc (length s), 0)) as (st & Es & Hs).
  - cbn [map app length]. rewrite Nat.sub_0_r. reflexivity.
  - intros p x q st Hl ->. cbn [app fst snd]. eexists. split; [|reflexivity].
    replace (length s - length p) with (S (length s - length (p ++ [x]))) by (rewrite (Permutation_length (Ho s)), Hl, !app_length; cbn [length]; lia).
    rewrite wr_next. cbn [bind]. rewrite app_length. cbn [length]. rewrite Nat.add_1_r. reflexivity.
  - rewrite Es, Hs. cbn [app bind]. rewrite <- (Permutation_length (Ho s)), Nat.eqb_refl. cbn [guard bind].
    rewrite Nat.sub_diag. cbn [alloc repeat]. rewrite app_nil_r. exists (order s). split; [apply all_init_some|].
    split; [exact (Permutation_NoDup (Ho s) N)|]. intros v. rewrite <- H. split; apply Permutation_in; [symmetry|]; apply Ho.
Qed.

Lemma boundaryEdgesFromBoundaryFaces_ok order B : some_order order ->
  (forall f, In f B -> length f = 3 /\ forall v, In v f -> (Z.of_nat v < 2147483648)%Z) ->
  exists P, boundaryEdgesFromBoundaryFaces order B = Ok P /\ NoDup P /\ forall a b, In [a; b] P <-> edge_of B (a, b).
Proof.
  intros Ho HB. unfold boundaryEdgesFromBoundaryFaces.
  pose (es := fun f : list nat => [sortE (nth 0 f 0) (nth 1 f 0); sortE (nth 0 f 0) (nth 2 f 0); sortE (nth 1 f 0) (nth 2 f 0)]).
  loop_inv (fun i s => NoDup s /\ forall v, In v s <-> exists f e, In f (firstn i B) /\ In e (es f) /\ v = enc e) s E HI.
  3: { intros k s0 Hk [N H]. destruct (nth_error_lt B k) as [e He]; [lia|].
       destruct (cut_at B k e He) as (C1 & _ & _). destruct (len3_inv e (proj1 (HB e (nth_error_In B k He)))) as (a & b & c & ->).
       rewrite (get2_ok B k 0 _ a He), (get2_ok B k 1 _ b He), (get2_ok B k 2 _ c He) by reflexivity. cbn [bind]. eexists. split; [reflexivity|].
       split; [repeat (apply sadd_nodup; [exact Zeqb_spec|]); exact N|].
       intros v. rewrite !(sadd_in Z.eqb Zeqb_spec), H, C1. split.
       - intros [[[(f & e & Hf & He' & Hv)| ->]| ->]| ->].
         + exists f, e. split; [apply in_app_iff; left; exact Hf|auto].
         + exists [a; b; c], (sortE a b). split; [apply in_app_iff; right; left; reflexivity|]. split; [left; reflexivity|reflexivity].
         + exists [a; b; c], (sortE a c). split; [apply in_app_iff; right; left; reflexivity|]. split; [right; left; reflexivity|reflexivity].
         + exists [a; b; c], (sortE b c). split; [apply in_app_iff; right; left; reflexivity|]. split; [right; right; left; reflexivity|reflexivity].
       - intros (f & e & Hf & He' & Hv). apply in_app_iff in Hf as [Hf|[<-|[]]]; [left; left; left; eauto|].
         unfold es in He'. cbn [nth In] in He'. destruct He' as [<-|[<-|[<-|[]]]]; auto. }
  { lia. } { split; [constructor|]. intros v. split; [intros []|intros (f & e & [] & _)]. }
  rewrite E. cbn [bind]. destruct HI as [N H]. rewrite firstn_all in H. rewrite (Permutation_length (Ho s)).
  pose (row := fun hv => [fst (dec hv); snd (dec hv)]).
  destruct (fill_rows (order s) row 2 (fun hv (st : list (buf nat) * nat) =>
     mv <- put_row (fst st) (snd st) [fst (dec hv); snd (dec hv)] ;; Ok (mv, S (snd st)))) as ([mv j] & Es & Hs).
  { reflexivity. } { reflexivity. }
  unfold edge in *. rewrite Es. cbn [bind]. cbn [fst] in Hs. exists (map row (order s)). split; [exact Hs|].
  assert (forall f e, In f B -> In e (es f) -> dec (enc e) = e) as D.
  { intros f e Hf He. destruct (HB f Hf) as [L S]. destruct (len3_inv f L) as (a & b & c & ->).
    assert (small a /\ small b /\ small c) as (Sa & Sb & Sc) by (split; [|split]; apply S; cbn; auto).
    unfold es in He. cbn [nth In] in He. destruct He as [<-|[<-|[<-|[]]]]; apply dec_enc; apply sortE_small; assumption. }
  assert (forall v, In v (order s) <-> In v s) as Os by (intros v; split; apply Permutation_in; [symmetry|]; apply Ho).
  split.
  - assert (forall x y, In x (order s) -> In y (order s) -> row x = row y -> x = y) as Inj.
    { intros x y Hx Hy Er. apply Os, H in Hx as (f & e & Hf & He & ->). apply Os, H in Hy as (f' & e' & Hf' & He' & ->).
      unfold row in Er. rewrite (D f e Hf He), (D f' e' Hf' He') in Er. injection Er as E1 E2. destruct e, e'. cbn in E1, E2. subst. reflexivity. }
    pose proof (Permutation_NoDup (Ho s) N) as N'. clear -Inj N'. induction (order s) as [|x l IH]; [constructor|].
    inversion N' as [|? ? N1 N2]; subst. cbn [map]. constructor.
    + intros Hx. apply in_map_iff in Hx as (y & Ey & Hy). apply Inj in Ey; [subst; tauto|right; exact Hy|left; reflexivity].
    + apply IH; [|exact N2]. intros y z Hy Hz. apply Inj; right; assumption.
  - intros a b. rewrite in_map_iff. unfold edge_of.
    assert (forall f e, In f B -> (In e (es f) <-> joins f e)) as J.
    { intros f e Hf. destruct (len3_inv f (proj1 (HB f Hf))) as (x & y & z & ->).
      rewrite <- (edges2_joins x y z e). unfold es, edges2. cbn [nth In]. tauto. }
    split.
    + intros (hv & Er & Hv). apply Os, H in Hv as (f & e & Hf & He & ->). unfold row in Er. rewrite (D f e Hf He) in Er. injection Er as <- <-.
      exists f. split; [exact Hf|]. apply J; [exact Hf|]. destruct e; exact He.
    + intros (f & Hf & Hj). apply J in Hj; [|exact Hf]. exists (enc (a, b)). split; [unfold row; rewrite (D f (a, b) Hf Hj); reflexivity|].
      apply Os, H. eauto 6.
Qed.

Lemma manifold_boundary n C B f : lists_odd n C B -> manifold n C -> length f = n -> NoDup f ->
  ((exists h, In h B /\ Permutation f h) <-> cells_with C f = 1).
Proof.
  intros (_ & H & _) M L N. rewrite (H f L N). specialize (M f L N). split.
  - intros [m Hm]. lia.
  - intros ->. exists 0. reflexivity.
Qed.
