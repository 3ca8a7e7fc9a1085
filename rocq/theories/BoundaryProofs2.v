From Coq Require Import Permutation.
From Verif Require Import Util Lin MeshModel MeshSpec MeshProofs MeshProofs2 BoundaryModel BoundarySpec BoundaryProofs.

Lemma flat_map_snd {A B} (f : A -> list B) (C : list A) : flat_map (fun ic : nat * A => f (snd ic)) (numbered C) = flat_map f C.
Proof.
  rewrite <- (numbered_snd C) at 2. generalize (numbered C) as l. induction l as [|ic l IH]; [reflexivity|]. cbn [flat_map map]. rewrite IH. reflexivity.
Qed.
Lemma map_flat_map {A B D} (h : B -> D) (f : A -> list B) (l : list A) : map h (flat_map f l) = flat_map (fun a => map h (f a)) l.
Proof. induction l as [|a l IH]; [reflexivity|]. cbn [flat_map]. rewrite map_app, IH. reflexivity. Qed.
Lemma forall2_map {A B} (P : A -> B -> Prop) (h : A -> B) l : (forall x, In x l -> P x (h x)) -> Forall2 P l (map h l).
Proof.
  induction l as [|x l IH]; intros H; [constructor|]. cbn [map]. constructor; [apply H; left; reflexivity|]. apply IH. intros y Hy. apply H. right. exact Hy.
Qed.
Lemma forall2_map_l {A B D} (P : B -> D -> Prop) (k : A -> B) (h : A -> D) l : (forall x, In x l -> P (k x) (h x)) -> Forall2 P (map k l) (map h l).
Proof.
  induction l as [|x l IH]; intros H; [constructor|]. cbn [map]. constructor; [apply H; left; reflexivity|]. apply IH. intros y Hy. apply H. right. exact Hy.
Qed.
Lemma NoDup2 {A} (a b : A) : NoDup [a; b] <-> a <> b.
Proof.
  split.
  - intros N E. inversion N as [|? ? H _]; subst. apply H. left. reflexivity.
  - intros D. constructor; [intros [E|[]]; congruence|]. constructor; [intros []|constructor].
Qed.
Lemma NoDup3 {A} (a b c : A) : NoDup [a; b; c] <-> a <> b /\ a <> c /\ b <> c.
Proof.
  split.
  - intros N. inversion N as [|? ? H N']; subst. apply NoDup2 in N'. cbn [In] in H. intuition congruence.
  - intros (H1 & H2 & H3). constructor; [cbn [In]; intuition congruence|]. apply NoDup2, H3.
Qed.
Lemma NoDup4 {A} (a b c d : A) : NoDup [a; b; c; d] <-> a <> b /\ a <> c /\ a <> d /\ b <> c /\ b <> d /\ c <> d.
Proof.
  split.
  - intros N. inversion N as [|? ? H N']; subst. apply NoDup3 in N'. cbn [In] in H. intuition congruence.
  - intros H. constructor; [cbn [In]; intuition congruence|]. apply NoDup3. tauto.
Qed.
Lemma incl_nodup_perm {A} (f h : list A) : NoDup f -> length f = length h -> NoDup h -> incl f h -> Permutation f h.
Proof. intros. apply NoDup_Permutation_bis; auto. lia. Qed.

(** ** Vertices *)
Definition key1 (f : list nat) : nat := nth 0 f 0.
Definition facets1 (c : list nat) : list (list nat) := [[nth 0 c 0]; [nth 1 c 0]].

Lemma len1_inv {A} (f : list A) : length f = 1 -> exists a, f = [a].
Proof. destruct f as [|a [|]]; intros H; try discriminate. eauto. Qed.

Lemma key1_inj f h : facet 1 f -> facet 1 h -> (key1 f = key1 h <-> Permutation f h).
Proof.
  intros (L & _) (L' & _). apply len1_inv in L as [a ->]. apply len1_inv in L' as [b ->]. cbn. split; [intros ->; reflexivity|].
  intros P. apply Permutation_length_1 in P. exact P.
Qed.

Lemma boundaryVertices_ok order C : some_order order -> cells_of 2 C ->
  exists B, boundaryVertices order C = Ok B /\ lists_odd 1 C (map (fun v => [v]) B).
Proof.
  intros Ho HC. unfold boundaryVertices.
  rewrite (range_flat C _ (fun _ c => map key1 (facets1 c)) (toggle Nat.eqb)).
  2: { intros i c s Hi. destruct (HC c (nth_error_In C i Hi)) as (L & _). destruct (length1 c L) as (a & b & ->).
       rewrite (get2_ok _ _ 0 _ a Hi) by reflexivity. rewrite (get2_ok _ _ 1 _ b Hi) by reflexivity. cbn [bind].
       cbn [facets1 map key1 nth for_list]. destruct (toggle Nat.eqb a s) as [s'|]; [|reflexivity]. cbn [bind].
       destruct (toggle Nat.eqb b s'); reflexivity. }
  rewrite (flat_map_snd (fun c => map key1 (facets1 c)) C).
  destruct (toggle_set Nat.eqb Nat.eqb_eq Nat.eq_dec (flat_map (fun c => map key1 (facets1 c)) C) [] (fun _ => 0)) as (s & E & N & H).
  { constructor. } { intros k. split; [intros []|intros O; destruct (odd_0 O)]. }
  rewrite E. cbn [bind]. exists (order s). split; [reflexivity|].
  assert (forall c v, In c C -> In v c -> small v) as Hs by (intros c v Hc Hv; apply (HC c Hc), Hv).
  apply (boundary_gen Nat.eq_dec 1 key1 facets1 C key1_inj Hs) with (ks := order s).
  - intros c f Hc Hf. destruct (HC c Hc) as (L & Nc & S). destruct (length1 c L) as (a & b & ->).
    destruct Hf as [<-|[<-|[]]]; cbn [nth]; (split; [split; [reflexivity|]; split; [repeat constructor; intros []|]|]).
    + intros v [<-|[]]. apply S. left; reflexivity.
    + intros v [<-|[]]. left; reflexivity.
    + intros v [<-|[]]. apply S. right; left; reflexivity.
    + intros v [<-|[]]. right; left; reflexivity.
  - intros c Hc. destruct (HC c Hc) as (L & Nc & S). destruct (length1 c L) as (a & b & ->). exact Nc.
  - intros c f Hc (Lf & _) I. destruct (HC c Hc) as (L & Nc & S). destruct (length1 c L) as (a & b & ->). apply len1_inv in Lf as [x ->].
    destruct (I x (or_introl eq_refl)) as [<-|[<-|[]]]; [exists [a]|exists [b]]; (split; [|reflexivity]); cbn; auto.
  - apply (Permutation_NoDup (Ho s) N).
  - intros k. rewrite <- (Nat.add_0_r (count_occ _ _ _)). rewrite <- (H k). split; apply Permutation_in; [symmetry|]; apply Ho.
  - apply forall2_map. intros x Hx. split; [|reflexivity]. split; [reflexivity|]. split; [repeat constructor; intros []|].
    intros v [<-|[]]. apply (Permutation_in x (Permutation_sym (Ho s))) in Hx. apply H in Hx. rewrite Nat.add_0_r in Hx.
    destruct (in_dec Nat.eq_dec x (flat_map (fun c => map key1 (facets1 c)) C)) as [Hi|Hi].
    + apply in_flat_map in Hi as (c & Hc & Hi). destruct (HC c Hc) as (L & Nc & S). destruct (length1 c L) as (a & b & ->). apply S. exact Hi.
    + apply (count_occ_not_In Nat.eq_dec) in Hi. rewrite Hi in Hx. destruct (odd_0 Hx).
Qed.

(** ** Edges *)
Definition edge_key (f : list nat) : edge := sortE (nth 0 f 0) (nth 1 f 0).
Definition key2 (f : list nat) : Z := enc (edge_key f).
Definition facets2 (c : list nat) : list (list nat) := [[nth 0 c 0; nth 1 c 0]; [nth 1 c 0; nth 2 c 0]; [nth 2 c 0; nth 0 c 0]].

Lemma len2_inv {A} (f : list A) : length f = 2 -> exists a b, f = [a; b].
Proof. destruct f as [|a [|b [|]]]; intros H; try discriminate. eauto. Qed.
Lemma len3_inv {A} (f : list A) : length f = 3 -> exists a b c, f = [a; b; c].
Proof. destruct f as [|a [|b [|c [|]]]]; intros H; try discriminate. eauto. Qed.

Lemma sortE_eq a b x y : sortE a b = sortE x y <-> (a = x /\ b = y) \/ (a = y /\ b = x).
Proof. rewrite !sortE_minmax. split; [intros H; injection H as H1 H2; lia|intros [[-> ->]|[-> ->]]; f_equal; lia]. Qed.
Lemma sortE_small a b : small a -> small b -> small (fst (sortE a b)) /\ small (snd (sortE a b)).
Proof.
  intros Ha Hb. rewrite sortE_minmax. cbn [fst snd]. destruct (Nat.min_spec a b) as [[_ ->]|[_ ->]], (Nat.max_spec a b) as [[_ ->]|[_ ->]]; auto.
Qed.
Lemma perm2 (a b x y : nat) : Permutation [a; b] [x; y] <-> (a = x /\ b = y) \/ (a = y /\ b = x).
Proof.
  split; [apply Permutation_length_2|]. intros [[-> ->]|[-> ->]]; [reflexivity|apply perm_swap].
Qed.

Lemma key2_inj f h : facet 2 f -> facet 2 h -> (key2 f = key2 h <-> Permutation f h).
Proof.
  intros (L & _ & S) (L' & _ & S'). apply len2_inv in L as (a & b & ->). apply len2_inv in L' as (x & y & ->).
  unfold key2, edge_key. cbn [nth]. rewrite perm2, <- sortE_eq.
  destruct (sortE_small a b), (sortE_small x y); try solve [apply S; cbn; auto|apply S'; cbn; auto].
  split; [apply enc_inj; assumption|congruence].
Qed.

Lemma facets2_facet C c f : cells_of 3 C -> In c C -> In f (facets2 c) -> facet 2 f /\ incl f c.
Proof.
  intros HC Hc Hf. destruct (HC c Hc) as (L & Nc & S). destruct (length2 c L) as (x & y & z & ->). apply NoDup3 in Nc as (D1 & D2 & D3).
  cbn [facets2 nth] in Hf.
  assert (forall a b, In a [x; y; z] -> In b [x; y; z] -> a <> b -> facet 2 [a; b] /\ incl [a; b] [x; y; z]) as G.
  { intros a b Ha Hb D. split; [split; [reflexivity|split; [apply NoDup2, D|]]|]; intros v [<-|[<-|[]]]; first [apply S; assumption|assumption]. }
  destruct Hf as [<-|[<-|[<-|[]]]]; apply G; cbn [In]; auto.
Qed.
Lemma facets2_nodup C c : cells_of 3 C -> In c C -> NoDup (map key2 (facets2 c)).
Proof.
  intros HC Hc. assert (forall f, In f (facets2 c) -> facet 2 f) as F by (intros f Hf; apply (facets2_facet C c f HC Hc Hf)).
  destruct (HC c Hc) as (L & Nc & S). destruct (length2 c L) as (x & y & z & ->). apply NoDup3 in Nc as (D1 & D2 & D3).
  unfold facets2 in *. cbn [map nth] in *. apply NoDup3.
  split; [|split]; intros E; apply key2_inj in E; try (apply F; cbn [In]; auto); apply perm2 in E; intuition congruence.
Qed.
Lemma facets2_all C c f : cells_of 3 C -> In c C -> facet 2 f -> incl f c -> exists h, In h (facets2 c) /\ Permutation f h.
Proof.
  intros HC Hc (Lf & Nf & _) I. destruct (HC c Hc) as (L & Nc & S). destruct (length2 c L) as (x & y & z & ->). apply len2_inv in Lf as (a & b & ->).
  apply NoDup2 in Nf. assert (In a [x; y; z]) as Ha by (apply I; left; reflexivity). assert (In b [x; y; z]) as Hb by (apply I; right; left; reflexivity).
  cbn [facets2 nth]. cbn [In] in Ha, Hb.
  assert (forall u v h, h = [u; v] -> (a = u /\ b = v) \/ (a = v /\ b = u) -> Permutation [a; b] h) as P by (intros u v h -> H; apply perm2, H).
  destruct Ha as [<-|[<-|[<-|[]]]], Hb as [<-|[<-|[<-|[]]]]; try congruence.
  - exists [x; y]. split; [left; reflexivity|]. eapply P; [reflexivity|auto].
  - exists [z; x]. split; [right; right; left; reflexivity|]. eapply P; [reflexivity|auto].
  - exists [x; y]. split; [left; reflexivity|]. eapply P; [reflexivity|auto].
  - exists [y; z]. split; [right; left; reflexivity|]. eapply P; [reflexivity|auto].
  - exists [z; x]. split; [right; right; left; reflexivity|]. eapply P; [reflexivity|auto].
  - exists [y; z]. split; [right; left; reflexivity|]. eapply P; [reflexivity|auto].
Qed.

Definition ori (f : list nat) : bool := nth 0 f 0 =? fst (edge_key f).
Lemma oriented_ori f : facet 2 f -> oriented (key2 f) (ori f) = f.
Proof.
  intros (L & N & S). apply len2_inv in L as (a & b & ->). apply NoDup2 in N. unfold oriented, key2, ori, edge_key. cbn [nth].
  destruct (sortE_small a b) as [S1 S2]; try (apply S; cbn; auto).
  rewrite (dec_enc _ S1 S2). rewrite sortE_minmax. cbn [fst snd]. destruct (Nat.eqb_spec a (Nat.min a b)) as [E|E].
  - rewrite <- E. f_equal. f_equal. lia.
  - f_equal; [lia|f_equal; lia].
Qed.

Lemma toggle_item_map {K V W} (eqb : K -> K -> bool) (h : V -> W) k v (d : list (K * V)) :
  toggle_item eqb k (h v) (map (fun kv => (fst kv, h (snd kv))) d) =
  match toggle_item eqb k v d with Ok d' => Ok (map (fun kv => (fst kv, h (snd kv))) d') | Err e => Err e end.
Proof.
  unfold toggle_item.
  assert (ddel eqb (map (fun kv => (fst kv, h (snd kv))) d) k = match ddel eqb d k with Ok d' => Ok (map (fun kv => (fst kv, h (snd kv))) d') | Err e => Err e end) as ->.
  { induction d as [|[y w] d IH]; [reflexivity|]. cbn [map ddel fst snd]. destruct (eqb y k); [reflexivity|]. rewrite IH. destruct (ddel eqb d k); reflexivity. }
  assert (dset eqb (map (fun kv => (fst kv, h (snd kv))) d) k (h v) = map (fun kv => (fst kv, h (snd kv))) (dset eqb d k v)) as E.
  { induction d as [|[y w] d IH]; [reflexivity|]. cbn [map dset fst snd]. destruct (eqb y k); [reflexivity|]. rewrite IH. reflexivity. }
  destruct (ddel eqb d k) as [d'|[]]; try reflexivity. rewrite E. reflexivity.
Qed.

Definition edge_items (C : list (list nat)) : list (Z * (bool * nat)) :=
  flat_map (fun ic : nat * list nat => map (fun f => (key2 f, (ori f, fst ic))) (facets2 (snd ic))) (numbered C).

Lemma toggle_dict_map {K V W} (eqb : K -> K -> bool) (h : V -> W) (kvs : list (K * V)) : forall d,
  for_list (map (fun kv => (fst kv, h (snd kv))) kvs) (fun kv => toggle_item eqb (fst kv) (snd kv)) (map (fun kv => (fst kv, h (snd kv))) d) =
  match for_list kvs (fun kv => toggle_item eqb (fst kv) (snd kv)) d with Ok d' => Ok (map (fun kv => (fst kv, h (snd kv))) d') | Err e => Err e end.
Proof.
  induction kvs as [|[k v] kvs IH]; intros d; [reflexivity|]. cbn [map for_list fst snd]. rewrite toggle_item_map.
  destruct (toggle_item eqb k v d) as [d'|e]; [|reflexivity]. cbn [bind]. apply IH.
Qed.

Lemma edge_loop1 C : cells_of 3 C ->
  for_range 0 (length C) (fun cellNo bedges =>
     c0 <- get2 C cellNo 0 ;; c1 <- get2 C cellNo 1 ;; c2 <- get2 C cellNo 2 ;;
     let temp := [sortE c0 c1; sortE c1 c2; sortE c2 c0] in
     for_range 0 3 (fun k bedges =>
       e <- aget temp k ;; ck <- get2 C cellNo k ;;
       toggle_item Z.eqb (enc e) (ck =? fst e, cellNo) bedges) bedges) [] =
  for_list (edge_items C) (fun kv => toggle_item Z.eqb (fst kv) (snd kv)) [].
Proof.
  intros HC. unfold edge_items.
  apply (range_flat C _ (fun i c => map (fun f => (key2 f, (ori f, i))) (facets2 c))).
  intros i c s Hi. destruct (HC c (nth_error_In C i Hi)) as (L & _). destruct (length2 c L) as (x & y & z & ->).
  rewrite (get2_ok _ _ 0 _ x Hi) by reflexivity. rewrite (get2_ok _ _ 1 _ y Hi) by reflexivity. rewrite (get2_ok _ _ 2 _ z Hi) by reflexivity.
  cbn [bind]. unfold for_range. cbn [Nat.sub for_n]. rewrite (get2_ok _ _ 0 _ x Hi) by reflexivity. rewrite (get2_ok _ _ 1 _ y Hi) by reflexivity. rewrite (get2_ok _ _ 2 _ z Hi) by reflexivity.
  unfold aget. cbn [nth_error bind facets2 map nth for_list fst snd]. reflexivity.
Qed.
Lemma edge_loop0 C : cells_of 3 C ->
  for_range 0 (length C) (fun cellNo bedges =>
     c0 <- get2 C cellNo 0 ;; c1 <- get2 C cellNo 1 ;; c2 <- get2 C cellNo 2 ;;
     let temp := [sortE c0 c1; sortE c1 c2; sortE c2 c0] in
     for_range 0 3 (fun k bedges =>
       e <- aget temp k ;; ck <- get2 C cellNo k ;;
       toggle_item Z.eqb (enc e) (ck =? fst e) bedges) bedges) [] =
  for_list (map (fun kv => (fst kv, fst (snd kv))) (edge_items C)) (fun kv => toggle_item Z.eqb (fst kv) (snd kv)) [].
Proof.
  intros HC. unfold edge_items. rewrite map_flat_map.
  rewrite (range_flat C _ (fun i c => map (fun f => (key2 f, ori f)) (facets2 c)) (fun kv => toggle_item Z.eqb (fst kv) (snd kv))).
  - reflexivity.
  - intros i c s Hi. destruct (HC c (nth_error_In C i Hi)) as (L & _). destruct (length2 c L) as (x & y & z & ->).
    rewrite (get2_ok _ _ 0 _ x Hi) by reflexivity. rewrite (get2_ok _ _ 1 _ y Hi) by reflexivity. rewrite (get2_ok _ _ 2 _ z Hi) by reflexivity.
    cbn [bind]. unfold for_range. cbn [Nat.sub for_n]. rewrite (get2_ok _ _ 0 _ x Hi) by reflexivity. rewrite (get2_ok _ _ 1 _ y Hi) by reflexivity. rewrite (get2_ok _ _ 2 _ z Hi) by reflexivity.
    unfold aget. cbn [nth_error bind facets2 map nth for_list fst snd]. reflexivity.
Qed.

Lemma edge_dict C : cells_of 3 C -> exists d : list (Z * (bool * nat)),
  for_list (edge_items C) (fun kv => toggle_item Z.eqb (fst kv) (snd kv)) [] = Ok d /\ NoDup (map fst d) /\
  (forall k, In k (map fst d) <-> Nat.Odd (count_occ Z.eq_dec (all_keys key2 facets2 C) k)) /\
  (forall k o i, In (k, (o, i)) d -> exists c f, nth_error C i = Some c /\ In f (facets2 c) /\ k = key2 f /\ o = ori f).
Proof.
  intros HC. destruct (toggle_dict Z.eqb Zeqb_spec Z.eq_dec (edge_items C) [] (fun _ => 0)) as (d & E & N & H & I).
  { constructor. } { intros k. split; [intros []|intros O; destruct (odd_0 O)]. }
  exists d. split; [exact E|]. split; [exact N|]. split.
  - intros k. rewrite H, Nat.add_0_r. unfold edge_items, all_keys. rewrite map_flat_map.
    rewrite <- (flat_map_snd (fun c => map key2 (facets2 c)) C). cbn [map fst facets2]. reflexivity.
  - intros k o i Hk. destruct (I _ Hk) as [[]|Hi]. unfold edge_items in Hi. apply in_flat_map in Hi as ([j c] & Hj & Hi).
    cbn [fst snd] in Hi. apply in_map_iff in Hi as (f & Ef & Hf). injection Ef as <- <- <-. apply numbered_in in Hj. eauto 6.
Qed.

Lemma facets2_follows c a b : length c = 3 -> In [a; b] (facets2 c) -> follows c a b.
Proof.
  intros L H. destruct (length2 c L) as (x & y & z & ->). cbn [facets2 nth In] in H. unfold follows.
  destruct H as [H|[H|[H|[]]]]; injection H as <- <-; eauto.
Qed.

Lemma fill_rows_cells (d : list (Z * (bool * nat))) (row : Z * (bool * nat) -> list nat) (f : Z -> list (buf nat) * buf nat * nat -> res (list (buf nat) * buf nat * nat)) :
  (forall x, In x d -> length (row x) = 2) ->
  (forall x mv bc i, In x d -> f (fst x) (mv, bc, i) = (bc <- wr bc i (snd (snd x)) ;; mv <- put_row mv i (row x) ;; Ok (mv, bc, S i))) ->
  exists mv bc, for_list (map fst d) f (alloc2 (length d) 2, alloc (length d), 0) = Ok (mv, bc, length d) /\
    all_init2 mv = Ok (map row d) /\ all_init bc = Ok (map (fun x => snd (snd x)) d).
Proof.
  intros Hk Hf. rewrite for_list_map.
  destruct (for_list_inv (fun done st => st = (map (map Some) (map row done) ++ alloc2 (length d - length done) 2,
      map Some (map (fun x => snd (snd x)) done) ++ alloc (length d - length done), length done)) (fun a => f (fst a)) d [] (alloc2 (length d) 2, alloc (length d), 0)) as (st & E & H).
  - cbn [map length app]. rewrite Nat.sub_0_r. reflexivity.
  - intros p x q st Hl ->. cbn [app]. eexists. split; [|reflexivity]. assert (In x d) as Hx by (rewrite Hl, in_app_iff; right; left; reflexivity).
    rewrite Hf by exact Hx.
    replace (length d - length p) with (S (length d - length (p ++ [x]))) by (rewrite Hl, !app_length; cbn [length]; lia).
    rewrite wr_next_at by (rewrite map_length; reflexivity). cbn [bind].
    rewrite put_row_next by (rewrite ?map_length; auto). cbn [bind]. rewrite !(map_app _ p), app_length. cbn [map length]. rewrite Nat.add_1_r. reflexivity.
  - rewrite E, H. cbn [app]. rewrite Nat.sub_diag. cbn [alloc2 repeat alloc]. rewrite !app_nil_r. eexists _, _. split; [reflexivity|].
    split; [apply all_init2_some|apply all_init_some].
Qed.

Lemma boundaryEdges_ok C : cells_of 3 C ->
  exists B bc, boundaryEdges C = Ok B /\ boundaryEdgesCells C = Ok (B, bc) /\ length bc = length B /\
    lists_odd 2 C B /\
    forall i f, nth_error B i = Some f -> exists a b cn c, f = [a; b] /\ nth_error bc i = Some cn /\ nth_error C cn = Some c /\ follows c a b.
Proof.
  intros HC. destruct (edge_dict C HC) as (d & E & N & H & I).
  assert (forall x, In x d -> exists c, nth_error C (snd (snd x)) = Some c /\ In (oriented (fst x) (fst (snd x))) (facets2 c) /\
     facet 2 (oriented (fst x) (fst (snd x))) /\ key2 (oriented (fst x) (fst (snd x))) = fst x) as R.
  { intros [k [o i]] Hx. cbn [fst snd]. destruct (I k o i Hx) as (c & f & Hc & Hf & -> & ->).
    destruct (facets2_facet C c f HC (nth_error_In C i Hc) Hf) as [Ff _]. rewrite (oriented_ori f Ff). exists c. auto. }
  pose (row := fun x : Z * (bool * nat) => oriented (fst x) (fst (snd x))).
  exists (map row d), (map (fun x => snd (snd x)) d).
  split; [|split; [|split; [|split]]].
  - pose proof (edge_loop0 C HC) as T0. unfold boundaryEdges. unfold edge in *. rewrite T0. clear T0.
    pose proof (toggle_dict_map Z.eqb (@fst bool nat) (edge_items C) []) as T. cbn [map] in T. rewrite T, E. cbn [bind]. clear T.
    rewrite !map_map, map_length. cbn [fst]. rewrite for_list_map.
    destruct (fill_rows d row 2 (fun (a : Z * (bool * nat)) (st : list (buf nat) * nat) =>
        orientation <- dget Z.eqb (map (fun kv => (fst kv, fst (snd kv))) d) (fst a) ;;
        mv <- put_row (fst st) (snd st) (oriented (fst a) orientation) ;; Ok (mv, S (snd st)))) as ([mv j] & Es & Hs).
    + intros x Hx. destruct (R x Hx) as (c & _ & _ & (L & _) & _). exact L.
    + intros x st Hx. rewrite (dget_in Z.eqb Zeqb_spec _ (fst x) (fst (snd x))); [reflexivity| |].
      * rewrite map_map. exact N.
      * apply in_map_iff. exists x. auto.
    + rewrite Es. cbn [bind]. exact Hs.
  - pose proof (edge_loop1 C HC) as T0. unfold boundaryEdgesCells. unfold edge in *. rewrite T0, E. clear T0. cbn [bind].
    edestruct (fill_rows_cells d row) as (mv & bc & Es & Hm & Hb); [| |rewrite Es; cbn [bind]; rewrite Hm, Hb; reflexivity].
    + intros x Hx. destruct (R x Hx) as (c & _ & _ & (L & _) & _). exact L.
    + intros [k [o i]] mv bc j Hx. cbv beta iota. cbn [fst snd]. rewrite (dget_in Z.eqb Zeqb_spec d k (o, i) N Hx). reflexivity.
  - rewrite !map_length. reflexivity.
  - apply (boundary_gen Z.eq_dec 2 key2 facets2 C key2_inj) with (ks := map fst d).
    + intros c v Hc Hv. apply (HC c Hc), Hv.
    + intros c f. apply facets2_facet, HC.
    + intros c. apply facets2_nodup, HC.
    + intros c f. apply facets2_all, HC.
    + exact N.
    + exact H.
    + apply forall2_map_l. intros x Hx. destruct (R x Hx) as (c & _ & _ & F & K). split; assumption.
  - intros i f Hi. rewrite nth_error_map in Hi. destruct (nth_error d i) as [x|] eqn:Ex; [|discriminate]. injection Hi as <-.
    destruct (R x (nth_error_In d i Ex)) as (c & Hc & Hf & (L & _) & _). unfold row.
    destruct (len2_inv _ L) as (a & b & Eab). exists a, b, (snd (snd x)), c. rewrite Eab in Hf |- *. split; [reflexivity|].
    rewrite nth_error_map, Ex. split; [reflexivity|]. split; [exact Hc|]. apply facets2_follows; [|exact Hf]. apply (HC c (nth_error_In C _ Hc)).
Qed.
