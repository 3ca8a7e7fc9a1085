From Coq Require Import Permutation.
From Verif Require Import Util Lin MeshModel MeshSpec MeshProofs MeshProofs2 BoundaryModel BoundarySpec.

(** ** Parity *)
Lemma odd_S_iff n : Nat.Odd (S n) <-> ~ Nat.Odd n.
Proof. rewrite Nat.Odd_succ. split; [intros E O; exact (Nat.Even_Odd_False n E O)|]. intros H. destruct (Nat.Even_or_Odd n); tauto. Qed.
Lemma odd_0 : ~ Nat.Odd 0.
Proof. intros [m H]. lia. Qed.

(** ** Toggling *)
Section Toggle.
  Context {K V : Type} (eqb : K -> K -> bool).
  Hypothesis eqb_spec : forall a b, eqb a b = true <-> a = b.
  Variable kd : forall a b : K, {a = b} + {a <> b}.
  Set Default Proof Using "Type".

  Lemma existsb_spec k s : existsb (eqb k) s = true <-> In k s.
  Proof using eqb_spec.
    rewrite existsb_exists. split; [intros (x & Hx & E); apply eqb_spec in E; subst; exact Hx|].
    intros H. exists k. split; [exact H|apply eqb_spec; reflexivity].
  Qed.

  Lemma sremove_in s k : NoDup s -> In k s -> exists s', sremove eqb s k = Ok s' /\ NoDup s' /\ forall x, In x s' <-> In x s /\ x <> k.
  Proof using eqb_spec.
    induction s as [|y s IH]; intros N H; [destruct H|]. cbn [sremove]. inversion N as [|? ? N1 N2]; subst.
    destruct (eqb y k) eqn:E.
    - apply eqb_spec in E. subst y. exists s. split; [reflexivity|]. split; [exact N2|].
      intros x. split.
      + intros Hx. split; [right; exact Hx|intros ->; exact (N1 Hx)].
      + intros [[->|Hx] Hn]; [congruence|exact Hx].
    - assert (y <> k) by (intros ->; rewrite (proj2 (eqb_spec k k) eq_refl) in E; discriminate).
      destruct H as [H|H]; [congruence|]. destruct (IH N2 H) as (s' & E' & N' & H'). rewrite E'. cbn [bind].
      exists (y :: s'). split; [reflexivity|]. split.
      + constructor; [|exact N']. intros Hy. apply H' in Hy. tauto.
      + intros x. cbn [In]. rewrite H'. split; [intros [<-|[]]; auto|intros [[->|]]; auto].
  Qed.
  Lemma sremove_notin s k : ~ In k s -> sremove eqb s k = Err EKey.
  Proof using eqb_spec.
    induction s as [|y s IH]; intros H; [reflexivity|]. cbn [sremove].
    destruct (eqb y k) eqn:E; [apply eqb_spec in E; subst; destruct H; left; reflexivity|].
    rewrite IH; [reflexivity|]. intros Hy. apply H. right. exact Hy.
  Qed.

  Lemma sadd_nodup s k : NoDup s -> NoDup (sadd eqb s k).
  Proof using eqb_spec.
    intros N. unfold sadd. destruct (existsb (eqb k) s) eqn:E; [exact N|].
    apply Permutation_NoDup with (k :: s); [apply Permutation_cons_append|].
    constructor; [|exact N]. intros H. apply existsb_spec in H. congruence.
  Qed.
  Lemma sadd_in s k x : In x (sadd eqb s k) <-> In x s \/ x = k.
  Proof using eqb_spec.
    unfold sadd. destruct (existsb (eqb k) s) eqn:E.
    - apply existsb_spec in E. split; [tauto|]. intros [H| ->]; assumption.
    - rewrite in_app_iff. cbn [In]. split; intros [H|H]; auto. destruct H as [H|[]]; auto.
  Qed.

  Lemma toggle_set ks : forall s0 c, NoDup s0 -> (forall k, In k s0 <-> Nat.Odd (c k)) ->
    exists s, for_list ks (toggle eqb) s0 = Ok s /\ NoDup s /\ forall k, In k s <-> Nat.Odd (count_occ kd ks k + c k).
  Proof using eqb_spec.
    induction ks as [|k ks IH]; intros s0 c N H; cbn [for_list].
    - exists s0. split; [reflexivity|]. split; [exact N|]. exact H.
    - assert (exists s1, toggle eqb k s0 = Ok s1 /\ NoDup s1 /\ forall x, In x s1 <-> Nat.Odd (if kd k x then S (c x) else c x)) as (s1 & E1 & N1 & H1).
      { unfold toggle. destruct (in_dec kd k s0) as [Hi|Hi].
        - destruct (sremove_in s0 k N Hi) as (s' & E & N' & H'). rewrite E. exists s'. split; [reflexivity|]. split; [exact N'|].
          intros x. rewrite H'. destruct (kd k x) as [->|D].
          + rewrite odd_S_iff, <- H. tauto.
          + rewrite <- H. split; [tauto|]. intros Hx. split; [exact Hx|congruence].
        - rewrite (sremove_notin s0 k Hi). exists (sadd eqb s0 k). split; [reflexivity|]. split; [apply sadd_nodup, N|].
          intros x. rewrite sadd_in. destruct (kd k x) as [->|D].
          + rewrite odd_S_iff, <- H. tauto.
          + rewrite <- H. split; [intros [Hx|Hx]; [exact Hx|congruence]|tauto]. }
      rewrite E1. cbn [bind]. destruct (IH s1 _ N1 H1) as (s & E & Ns & Hs). exists s. split; [exact E|]. split; [exact Ns|].
      intros x. rewrite Hs. cbn [count_occ]. destruct (kd k x); [|reflexivity].
      replace (count_occ kd ks x + S (c x)) with (S (count_occ kd ks x) + c x) by lia. reflexivity.
  Qed.

  Lemma ddel_in (d : list (K * V)) k : NoDup (map fst d) -> In k (map fst d) ->
    exists d', ddel eqb d k = Ok d' /\ NoDup (map fst d') /\ (forall x, In x (map fst d') <-> In x (map fst d) /\ x <> k) /\ incl d' d.
  Proof using eqb_spec.
    induction d as [|[y v] d IH]; intros N H; [destruct H|]. cbn [ddel]. cbn [map fst] in N, H. inversion N as [|? ? N1 N2]; subst.
    destruct (eqb y k) eqn:E.
    - apply eqb_spec in E. subst y. exists d. split; [reflexivity|]. split; [exact N2|]. split; [|intros p Hp; right; exact Hp].
      intros x. cbn [map fst In]. split.
      + intros Hx. split; [right; exact Hx|intros ->; exact (N1 Hx)].
      + intros [[->|Hx] Hn]; [congruence|exact Hx].
    - assert (y <> k) by (intros ->; rewrite (proj2 (eqb_spec k k) eq_refl) in E; discriminate).
      destruct H as [H|H]; [congruence|]. destruct (IH N2 H) as (s' & E' & N' & H' & I'). rewrite E'. cbn [bind].
      exists ((y, v) :: s'). split; [reflexivity|]. split; [|split].
      + cbn [map fst]. constructor; [|exact N']. intros Hy. apply H' in Hy. tauto.
      + intros x. cbn [map fst In]. rewrite H'. split; [intros [<-|[]]; auto|intros [[->|]]; auto].
      + intros p [<-|Hp]; [left; reflexivity|right; apply I', Hp].
  Qed.
  Lemma ddel_notin (d : list (K * V)) k : ~ In k (map fst d) -> ddel eqb d k = Err EKey.
  Proof using eqb_spec.
    induction d as [|[y v] d IH]; intros H; [reflexivity|]. cbn [ddel].
    destruct (eqb y k) eqn:E; [apply eqb_spec in E; subst; destruct H; left; reflexivity|].
    rewrite IH; [reflexivity|]. intros Hy. apply H. right. exact Hy.
  Qed.

  Lemma toggle_dict (kvs : list (K * V)) : forall d0 c, NoDup (map fst d0) -> (forall k, In k (map fst d0) <-> Nat.Odd (c k)) ->
    exists d, for_list kvs (fun kv => toggle_item eqb (fst kv) (snd kv)) d0 = Ok d /\ NoDup (map fst d) /\
      (forall k, In k (map fst d) <-> Nat.Odd (count_occ kd (map fst kvs) k + c k)) /\
      forall p, In p d -> In p d0 \/ In p kvs.
  Proof using eqb_spec.
    induction kvs as [|[k v] ks IH]; intros s0 c N H; cbn [for_list].
    - exists s0. split; [reflexivity|]. split; [exact N|]. split; [exact H|auto].
    - assert (exists s1, toggle_item eqb k v s0 = Ok s1 /\ NoDup (map fst s1) /\
        (forall x, In x (map fst s1) <-> Nat.Odd (if kd k x then S (c x) else c x)) /\ forall p, In p s1 -> In p s0 \/ p = (k, v)) as (s1 & E1 & N1 & H1 & I1).
      { unfold toggle_item. destruct (in_dec kd k (map fst s0)) as [Hi|Hi].
        - destruct (ddel_in s0 k N Hi) as (s' & E & N' & H' & I'). rewrite E. exists s'. split; [reflexivity|]. split; [exact N'|]. split; [|auto].
          intros x. rewrite H'. destruct (kd k x) as [->|D].
          + rewrite odd_S_iff, <- H. tauto.
          + rewrite <- H. split; [tauto|]. intros Hx. split; [exact Hx|congruence].
        - rewrite (ddel_notin s0 k Hi). exists (s0 ++ [(k, v)]).
          rewrite (dset_notin eqb eqb_spec) by exact Hi. split; [reflexivity|]. rewrite map_app. cbn [map fst]. split; [|split].
          + apply Permutation_NoDup with (k :: map fst s0); [apply Permutation_cons_append|]. constructor; assumption.
          + intros x. rewrite in_app_iff. cbn [In]. destruct (kd k x) as [->|D].
            * rewrite odd_S_iff, <- H. tauto.
            * rewrite <- H. tauto.
          + intros p Hp. apply in_app_iff in Hp as [Hp|[Hp|[]]]; auto. }
      cbn [fst snd]. rewrite E1. cbn [bind]. destruct (IH s1 _ N1 H1) as (s & E & Ns & Hs & Is). exists s. split; [exact E|]. split; [exact Ns|]. split.
      + intros x. rewrite Hs. cbn [map fst count_occ]. destruct (kd k x); [|reflexivity].
        replace (count_occ kd (map fst ks) x + S (c x)) with (S (count_occ kd (map fst ks) x) + c x) by lia. reflexivity.
      + intros p Hp. destruct (Is p Hp) as [Hq|Hq]; [|right; right; exact Hq]. destruct (I1 p Hq) as [|H2]; [auto|right; left; symmetry; exact H2].
  Qed.
End Toggle.

(** ** Loops over cells as loops over lists *)
Definition numbered {A} (C : list A) : list (nat * A) := combine (seq 0 (length C)) C.
Lemma numbered_in {A} (C : list A) i c : In (i, c) (numbered C) <-> nth_error C i = Some c.
Proof.
  unfold numbered. assert (forall a, In (i, c) (combine (seq a (length C)) C) <-> a <= i /\ nth_error C (i - a) = Some c) as G.
  { induction C as [|d C IH]; intros a; cbn [length seq combine In].
    - split; [tauto|]. intros [_ H]. destruct (i - a); discriminate.
    - rewrite IH. split.
      + intros [H|[H1 H2]].
        * injection H as -> ->. rewrite Nat.sub_diag. split; [lia|reflexivity].
        * split; [lia|]. replace (i - a) with (S (i - S a)) by lia. exact H2.
      + intros [H1 H2]. destruct (Nat.eq_dec a i) as [->|D].
        * rewrite Nat.sub_diag in H2. injection H2 as ->. left. reflexivity.
        * right. split; [lia|]. replace (i - a) with (S (i - S a)) in H2 by lia. exact H2. }
  rewrite G, Nat.sub_0_r. split; [tauto|]. intros H. split; [lia|exact H].
Qed.
Lemma numbered_snd {A} (C : list A) : map snd (numbered C) = C.
Proof.
  unfold numbered. generalize 0. induction C as [|c C IH]; intros a; [reflexivity|]. cbn [length seq combine map snd]. rewrite IH. reflexivity.
Qed.

Lemma range_flat {A B S} (C : list A) (body : nat -> S -> res S) (g : nat -> A -> list B) (f : B -> S -> res S) s :
  (forall i c s, nth_error C i = Some c -> body i s = for_list (g i c) f s) ->
  for_range 0 (length C) body s = for_list (flat_map (fun ic => g (fst ic) (snd ic)) (numbered C)) f s.
Proof.
  intros H. unfold for_range, numbered. rewrite Nat.sub_0_r.
  assert (forall i c s, nth_error C (i - 0) = Some c -> body i s = for_list (g i c) f s) as H' by (intros i c s'; rewrite Nat.sub_0_r; apply H).
  clear H. revert s. assert (forall i, 0 <= i -> forall c s, nth_error C (i - 0) = Some c -> body i s = for_list (g i c) f s) as H by (intros; auto).
  clear H'. revert H. generalize 0. induction C as [|c C IH]; intros a H s; [reflexivity|].
  cbn [length for_n seq combine flat_map fst snd]. rewrite for_list_app. rewrite (H a (le_n a) c) by (rewrite Nat.sub_diag; reflexivity).
  destruct (for_list (g a c) f s) as [s'|e]; [|reflexivity]. cbn [bind]. apply IH.
  intros i Hi d t Hd. apply H; [lia|]. replace (i - a) with (Datatypes.S (i - Datatypes.S a)) by lia. exact Hd.
Qed.

(** ** Filling an array row by row *)
Lemma fill_rows {X A} (l : list X) (row : X -> list A) k (f : X -> list (buf A) * nat -> res (list (buf A) * nat)) :
  (forall x, In x l -> length (row x) = k) ->
  (forall x st, In x l -> f x st = (mv <- put_row (fst st) (snd st) (row x) ;; Ok (mv, S (snd st)))) ->
  exists st, for_list l f (alloc2 (length l) k, 0) = Ok st /\ all_init2 (fst st) = Ok (map row l).
Proof.
  intros Hk Hf.
  destruct (for_list_inv (fun done st => st = (map (map Some) (map row done) ++ alloc2 (length l - length done) k, length done)) f l [] (alloc2 (length l) k, 0)) as (st & E & H).
  - cbn [map length app]. rewrite Nat.sub_0_r. reflexivity.
  - intros p x q st Hl ->. cbn [app]. exists (map (map Some) (map row (p ++ [x])) ++ alloc2 (length l - length (p ++ [x])) k, length (p ++ [x])).
    split; [|reflexivity]. assert (In x l) as Hx by (rewrite Hl, in_app_iff; right; left; reflexivity).
    rewrite Hf by exact Hx. cbn [fst snd].
    replace (length l - length p) with (S (length l - length (p ++ [x]))) by (rewrite Hl, !app_length; cbn [length]; lia).
    rewrite put_row_next by (rewrite ?map_length; auto). cbn [bind]. rewrite (map_app row), app_length. cbn [map length]. rewrite Nat.add_1_r. reflexivity.
  - exists st. split; [exact E|]. rewrite H. cbn [app fst]. rewrite Nat.sub_diag, app_nil_r. apply all_init2_some.
Qed.

(** ** Facets and their keys *)
Definition facet (n : nat) (f : list nat) : Prop := length f = n /\ NoDup f /\ forall v, In v f -> small v.

Lemma contains_incl f c : contains f c = true <-> incl f c.
Proof.
  unfold contains. rewrite forallb_forall. split; intros H v Hv.
  - specialize (H v Hv). apply existsb_exists in H as (w & Hw & E). apply Nat.eqb_eq in E. subst. exact Hw.
  - apply existsb_exists. exists v. split; [apply H, Hv|apply Nat.eqb_refl].
Qed.

Section Facets.
  Context {K : Type}.
  Variable kd : forall a b : K, {a = b} + {a <> b}.
  Variables (n : nat) (key : list nat -> K) (g : list nat -> list (list nat)) (C : list (list nat)).
  Hypothesis key_inj : forall f h, facet n f -> facet n h -> (key f = key h <-> Permutation f h).
  Hypothesis C_small : forall c v, In c C -> In v c -> small v.
  Hypothesis g_facet : forall c f, In c C -> In f (g c) -> facet n f /\ incl f c.
  Hypothesis g_nodup : forall c, In c C -> NoDup (map key (g c)).
  Hypothesis g_all : forall c f, In c C -> facet n f -> incl f c -> exists h, In h (g c) /\ Permutation f h.
  Set Default Proof Using "Type".

  Definition all_keys : list K := flat_map (fun c => map key (g c)) C.

  Lemma count_key f : facet n f -> count_occ kd all_keys (key f) = cells_with C f.
  Proof using key_inj g_facet g_nodup g_all.
    intros Hf. unfold all_keys, cells_with. revert g_facet g_nodup g_all. clear C_small.
    induction C as [|c D IH]; intros G1 G2 G3; [reflexivity|]. cbn [flat_map filter]. rewrite count_occ_app.
    rewrite IH by (intros; first [eapply G1; [right|]; eassumption|apply G2; right; assumption|eapply G3; [right| |]; eassumption]).
    assert (count_occ kd (map key (g c)) (key f) = if contains f c then 1 else 0) as ->; [|destruct (contains f c); reflexivity].
    destruct (contains f c) eqn:E.
    - apply contains_incl in E. destruct (G3 c f (or_introl eq_refl) Hf E) as (h & Hh & P).
      apply NoDup_count_occ'; [apply G2; left; reflexivity|]. apply in_map_iff. exists h. split; [|exact Hh].
      apply key_inj; [apply (G1 c); [left; reflexivity|exact Hh]|exact Hf|symmetry; exact P].
    - apply count_occ_not_In. intros H. apply in_map_iff in H as (h & Eh & Hh).
      destruct (G1 c h (or_introl eq_refl) Hh) as (Fh & Ih). apply key_inj in Eh; [|exact Fh|exact Hf].
      assert (contains f c = true); [|congruence]. apply contains_incl. intros v Hv. apply Ih. apply (Permutation_in v (Permutation_sym Eh)), Hv.
  Qed.

  Lemma in_keys k : In k all_keys -> exists c f, In c C /\ In f (g c) /\ k = key f.
  Proof.
    intros H. apply in_flat_map in H as (c & Hc & H). apply in_map_iff in H as (f & <- & Hf). eauto.
  Qed.

  Lemma boundary_gen (ks : list K) (B : list (list nat)) : NoDup ks -> (forall k, In k ks <-> Nat.Odd (count_occ kd all_keys k)) ->
    Forall2 (fun k b => facet n b /\ key b = k) ks B -> lists_odd n C B.
  Proof using key_inj C_small g_facet g_nodup g_all.
    intros N Hk F.
    assert (forall i b, nth_error B i = Some b -> exists k, nth_error ks i = Some k /\ facet n b /\ key b = k) as Fi.
    { clear N Hk. induction F as [|k b ks B H F IH]; intros [|i] x Hx; try discriminate.
      - injection Hx as <-. exists k. split; [reflexivity|exact H].
      - exact (IH i x Hx). }
    assert (forall i k, nth_error ks i = Some k -> exists b, nth_error B i = Some b /\ facet n b /\ key b = k) as Fk.
    { clear N Hk Fi. induction F as [|k b ks B H F IH]; intros [|i] x Hx; try discriminate.
      - injection Hx as <-. exists b. split; [reflexivity|exact H].
      - exact (IH i x Hx). }
    split; [|split].
    - intros f Hf. apply In_nth_error in Hf as [i Hi]. destruct (Fi i f Hi) as (k & _ & (H1 & H2 & _) & _). auto.
    - intros f Ln Nf. split.
      + intros (h & Hh & P). apply In_nth_error in Hh as [i Hi]. destruct (Fi i h Hi) as (k & Hki & Fh & Ek).
        assert (facet n f) as Ff. { split; [exact Ln|]. split; [exact Nf|]. intros v Hv. apply Fh. apply (Permutation_in v P Hv). }
        rewrite <- (count_key f Ff). apply Hk. apply (nth_error_In ks i). rewrite Hki. f_equal. rewrite <- Ek. apply key_inj; auto. symmetry; exact P.
      + intros O. assert (facet n f) as Ff.
        { split; [exact Ln|]. split; [exact Nf|]. intros v Hv. destruct (filter (contains f) C) as [|c D] eqn:E.
          - unfold cells_with in O. rewrite E in O. destruct (odd_0 O).
          - assert (In c (filter (contains f) C)) as Hc by (rewrite E; left; reflexivity). apply filter_In in Hc as [Hc Hi].
            apply (C_small c v Hc). apply contains_incl in Hi. apply Hi, Hv. }
        rewrite <- (count_key f Ff) in O. apply Hk in O. apply In_nth_error in O as [i Hi]. destruct (Fk i _ Hi) as (b & Hb & Fb & Ek).
        exists b. split; [apply (nth_error_In B i Hb)|]. apply key_inj; auto.
    - intros i j f h Hi Hj P. destruct (Fi i f Hi) as (k & Hki & Ff & Ek). destruct (Fi j h Hj) as (k' & Hkj & Fh & Ek').
      assert (k = k') as -> by (rewrite <- Ek, <- Ek'; apply key_inj; assumption).
      rewrite NoDup_nth_error in N. apply N; [apply nth_error_Some; congruence|congruence].
  Qed.
End Facets.
