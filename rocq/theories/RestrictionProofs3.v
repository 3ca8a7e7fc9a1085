(** Tables of weights against values of shape functions at nodes of the children. *)
From Verif Require Import Util Lin MeshSpec DoFMapSpec MeshModel LocalModel LocalSpec LocalProofs RestrictionTables RestrictionModel RestrictionSpec RestrictionProofs2.
Set Default Proof Using "Type".
Local Open Scope Qc_scope.

(** ** Children of the reference cell; (a, b) is the midpoint of corners a and b. *)
Definition name := (nat * nat)%type.
Definition kids (nsub d : nat) : list (when * list (list name)) :=
  match nsub, d with
  | 1%nat, _ => [(Always, [map (fun a => (a, a)) (seq 0 (S d))])]
  | 2%nat, 1%nat => [(Always, [[(0, 0); (0, 1)]; [(0, 1); (1, 1)]])]%nat
  | 4%nat, 2%nat => [(Always, [[(0, 0); (0, 1); (0, 2)]; [(1, 1); (1, 2); (0, 1)]; [(2, 2); (0, 2); (1, 2)]; [(0, 1); (1, 2); (0, 2)]])]%nat
  | 8%nat, 3%nat =>
      let outer := [[(0, 0); (0, 1); (0, 2); (0, 3)]; [(0, 1); (1, 1); (1, 2); (1, 3)]; [(0, 2); (1, 2); (2, 2); (2, 3)]; [(0, 3); (1, 3); (2, 3); (3, 3)]]%nat in
      [(Cut01_23, outer ++ [[(0, 1); (1, 2); (0, 2); (2, 3)]; [(0, 1); (2, 3); (0, 3); (1, 3)]; [(0, 1); (0, 2); (0, 3); (2, 3)]; [(0, 1); (1, 3); (1, 2); (2, 3)]]);
       (Cut02_13, outer ++ [[(0, 1); (0, 2); (0, 3); (1, 3)]; [(0, 1); (1, 2); (0, 2); (1, 3)]; [(0, 2); (0, 3); (1, 3); (2, 3)]; [(0, 2); (1, 3); (1, 2); (2, 3)]]);
       (Cut03_12, outer ++ [[(0, 1); (1, 3); (1, 2); (0, 3)]; [(0, 3); (2, 3); (1, 3); (1, 2)]; [(0, 3); (2, 3); (1, 2); (0, 2)]; [(0, 1); (1, 2); (0, 2); (0, 3)]])]%nat
  | _, _ => []
  end.
Definition when_eqb (x y : when) : bool :=
  match x, y with Always, Always | Cut01_23, Cut01_23 | Cut02_13, Cut02_13 | Cut03_12, Cut03_12 => true | _, _ => false end.
Definition matches (w tag : when) : bool := when_eqb w Always || when_eqb w tag.

Definition knth (kid : list name) (x : nat) : name := nth x kid (0, 0)%nat.
Definition half : Qc := qf 1 2.
(** Coordinate a of a named point. *)
Definition ind (a b : nat) : Qc := if (a =? b)%nat then 1 else 0.
Definition ncoord (p : name) (a : nat) : Qc := half * ind (fst p) a + half * ind (snd p) a.
(** Coordinates in the cell of the point with coordinates mu in a child. *)
Definition lpoint (d : nat) (kid : list name) (mu : list Qc) : list Qc :=
  tab (S d) (fun a => sumf (S d) (fun x => vat mu x * ncoord (knth kid x) a)).

Definition fe_size (e : fe) (d : nat) : nat := length (lplaces e d).
Definition lplace_nth (e : fe) (d j : nat) : lplace := nth j (lplaces e d) (LC 0).
Definition phi (e : fe) (d j : nat) (l : list Qc) : Qc := lshape e d (lplace_nth e d j) l.
Definition node (e : fe) (d k : nat) : list Qc := nth k (fe_nodes e d) [].
(** The weight that belongs in the operator. *)
Definition weight (coarse fine : fe) (d : nat) (kid : list name) (j k : nat) : Qc := phi coarse d j (lpoint d kid (node fine d k)).

(** The two local DoFs of two children are at the same place. *)
Definition name_eqb (p q : name) : bool := ((fst p =? fst q) && (snd p =? snd q))%nat%bool.
Definition lsame (n : nat) (kid kid' : list name) (s s' : nat) (lp lp' : lplace) : bool :=
  let eq x x' := name_eqb (knth kid x) (knth kid' x') in
  match lp, lp' with
  | LV a, LV a' => eq a a'
  | LE a b m, LE a' b' m' => (eq a a' && eq b b' && (m =? m')%nat) || (negb (name_eqb (knth kid a) (knth kid b)) && eq a b' && eq b a' && (m <? n)%nat && (m =? n - 1 - m')%nat && (m' =? n - 1 - m)%nat)
  | LF a b c, LF a' b' c' =>
      (eq a a' && eq b b' && eq c c') || (eq a a' && eq b c' && eq c b') || (eq a b' && eq b a' && eq c c') ||
      (eq a b' && eq b c' && eq c a') || (eq a c' && eq b a' && eq c b') || (eq a c' && eq b b' && eq c a')
  | LC m, LC m' => (s =? s')%nat && (m =? m')%nat
  | _, _ => false
  end.

(** ** Checks *)
Definition qle (a b : Qc) : bool := Qle_bool (this a) (this b).
Lemma qle_spec a b : qle a b = true -> a <= b.
Proof. intros H. apply Qle_bool_iff in H. exact H. Qed.
Definition qeq (a b : Qc) : bool := Qc_eq_bool a b.
Lemma qeq_spec a b : qeq a b = true -> a = b.
Proof. apply Qc_eq_bool_correct. Qed.

Definition check_entries (coarse fine : fe) (d nsub : nat) (T : list rentry) (eps : Qc) : bool :=
  forallb (fun tk : when * list (list name) => let '(tag, K) := tk in
    forallb (fun e : rentry => let '(w, j, s, k, v) := e in
      ((j <? fe_size coarse d) && (s <? nsub) && (k <? fe_size fine d))%nat &&
      (negb (matches w tag) || (negb (qeq (weight coarse fine d (nth s K []) j k) 0) && qle (v - weight coarse fine d (nth s K []) j k) eps && qle (weight coarse fine d (nth s K []) j k - v) eps))) T) (kids nsub d).
Definition check_complete (coarse fine : fe) (d nsub : nat) (T : list rentry) : bool :=
  forallb (fun tk : when * list (list name) => let '(tag, K) := tk in
    forallb (fun j => forallb (fun s => forallb (fun k =>
      if qeq (weight coarse fine d (nth s K []) j k) 0 then true else
      existsb (fun e : rentry => let '(w, j', s', k', v) := e in
        if (j =? j')%nat then if matches w tag then lsame (per_edge fine) (nth s K []) (nth s' K []) s s' (lplace_nth fine d k) (lplace_nth fine d k') else false else false) T)
      (seq 0 (fe_size fine d))) (seq 0 nsub)) (seq 0 (fe_size coarse d))) (kids nsub d).
Definition check_plain (nsub : nat) (T : list rentry) : bool :=
  (nsub =? 8)%nat || forallb (fun e : rentry => let '(w, j, s, k, v) := e in when_eqb w Always) T.

Lemma entries_spec coarse fine d nsub T eps : check_entries coarse fine d nsub T eps = true ->
  forall tag K w j s k v, In (tag, K) (kids nsub d) -> In (w, j, s, k, v) T ->
    (j < fe_size coarse d /\ s < nsub /\ k < fe_size fine d)%nat /\
    (matches w tag = true -> weight coarse fine d (nth s K []) j k <> 0 /\ v - weight coarse fine d (nth s K []) j k <= eps /\ weight coarse fine d (nth s K []) j k - v <= eps).
Proof.
  intros H tag K w j s k v HK HT. unfold check_entries in H. rewrite forallb_forall in H. specialize (H _ HK). cbv beta iota in H.
  rewrite forallb_forall in H. specialize (H _ HT). cbv beta iota in H. apply andb_true_iff in H as [H1 H2].
  apply andb_true_iff in H1 as [H1 H3]. apply andb_true_iff in H1 as [H1 H4]. apply Nat.ltb_lt in H1, H3, H4. split; [auto|].
  intros M. rewrite M in H2. cbn [negb orb] in H2. apply andb_true_iff in H2 as [A B]. apply andb_true_iff in A as [N A]. split; [|split; apply qle_spec; auto].
  intros Z. rewrite Z in N. discriminate N.
Qed.
Lemma complete_spec coarse fine d nsub T : check_complete coarse fine d nsub T = true ->
  forall tag K j s k, In (tag, K) (kids nsub d) -> (j < fe_size coarse d)%nat -> (s < nsub)%nat -> (k < fe_size fine d)%nat ->
    weight coarse fine d (nth s K []) j k <> 0 ->
    exists w s' k' v, In (w, j, s', k', v) T /\ matches w tag = true /\
      lsame (per_edge fine) (nth s K []) (nth s' K []) s s' (lplace_nth fine d k) (lplace_nth fine d k') = true.
Proof.
  intros H tag K j s k HK Hj Hs Hk Hw. unfold check_complete in H. rewrite forallb_forall in H. specialize (H _ HK). cbv beta iota in H.
  rewrite forallb_forall in H. specialize (H j ltac:(apply in_seq; lia)). rewrite forallb_forall in H. specialize (H s ltac:(apply in_seq; lia)).
  rewrite forallb_forall in H. specialize (H k ltac:(apply in_seq; lia)). destruct (qeq (weight coarse fine d (nth s K []) j k) 0) eqn:Q; [destruct Hw; apply qeq_spec, Q|].
  apply existsb_exists in H as (((((w & j') & s') & k') & v) & HT & H). destruct (Nat.eqb_spec j j') as [<-|]; [|discriminate]. destruct (matches w tag) eqn:M; [|discriminate].
  exists w, s', k', v. auto.
Qed.

(** ** Composition of polynomials *)
Fixpoint pcomp (n d : nat) (r : nat -> poly d) : poly n -> poly d :=
  match n with
  | O => fun p => pconst d p
  | S n => fun p => fold_right (fun c v => padd d (pcomp n d r c) (pmul d (r n) v)) (pconst d 0) p
  end.
Lemma value_pcomp n d r p x : value d (pcomp n d r p) x = value n p (fun k => value d (r k) x).
Proof.
  induction n as [|n IH]; cbn [pcomp value]; [apply value_pconst|].
  induction p as [|c p IHp]; cbn [fold_right]; [apply value_pconst|]. rewrite value_padd, value_pmul, IH, IHp. reflexivity.
Qed.
Lemma value_ext n p x y : (forall k, (k < n)%nat -> x k = y k) -> value n p x = value n p y.
Proof.
  revert p. induction n as [|n IH]; intros p H; [reflexivity|]. cbn [value]. induction p as [|c p IHp]; [reflexivity|]. cbn [fold_right].
  rewrite IHp, H by lia. rewrite (IH c) by (intros; apply H; lia). reflexivity.
Qed.
Lemma pzero_value n p x : pzero n p = true -> value n p x = 0.
Proof.
  revert p. induction n as [|n IH]; intros p H; cbn in *; [apply Qc_eq_bool_correct; auto|].
  induction p as [|c p IHp]; [reflexivity|]. cbn in H. apply andb_true_iff in H as [H1 H2]. cbn [fold_right]. rewrite IH, IHp by auto. ring.
Qed.

Definition fe_polys (e : fe) (d : nat) : list (poly d) := match e with P0 => [pconst d 1] | P1 => polysP1 d | P2 => polysP2 d | P3 => polysP3 d end.
Definition fe_poly (e : fe) (d j : nat) : poly d := nth j (fe_polys e d) (pconst d 0).
Lemma fe_functions e d : (1 <= d <= 3)%nat -> functions d (fe_shapes e d) (fe_polys e d).
Proof. intros Hd. destruct e; [apply functions_P0|apply functions_P1|apply functions_P2; auto|apply functions_P3; auto]. Qed.
Lemma phi_shape e d j l f : (1 <= d <= 3)%nat -> nth_error (fe_shapes e d) j = Some f -> phi e d j l = f l.
Proof.
  intros Hd Hf. pose proof (lshape_eq e d l Hd) as E. apply (map_nth_error (fun f => f l)) in Hf. rewrite E in Hf.
  assert (Hj : (j < length (lplaces e d))%nat). { apply nth_error_Some. intros N. rewrite nth_error_map, N in Hf. discriminate. }
  rewrite nth_error_map in Hf. destruct (nth_error (lplaces e d) j) as [lp|] eqn:El; [|discriminate]. cbn in Hf. inversion Hf.
  unfold phi, lplace_nth. rewrite (nth_error_nth _ _ _ El). reflexivity.
Qed.
Lemma phi_poly e d j x : (1 <= d <= 3)%nat -> (j < fe_size e d)%nat -> value d (fe_poly e d j) x = phi e d j (bary d x).
Proof.
  intros Hd Hj. pose proof (fe_functions e d Hd) as F. unfold fe_size in Hj. rewrite lplaces_length in Hj by auto.
  destruct (nth_error (fe_shapes e d) j) as [f|] eqn:Ef; [|apply nth_error_None in Ef; lia].
  rewrite (phi_shape e d j _ f) by auto. unfold fe_poly. revert j f Hj Ef. induction F as [|f p fs ps R F IH]; intros j g Hj Eg; [destruct j; discriminate|].
  destruct j as [|j]; cbn in *; [inversion Eg; subst; apply R|]. apply IH; auto. lia.
Qed.

(** Coordinates that add up to 1. *)
Lemma total_sumf l : total l = sumf (length l) (vat l).
Proof. induction l as [|w l IH]; [reflexivity|]. cbn [length total]. rewrite sumf_first, IH. reflexivity. Qed.
Lemma coordinates_bary d l : coordinates d l -> l = bary d (fun k => vat l (S k)).
Proof.
  intros [HL HT]. destruct l as [|w l]; [discriminate|]. cbn in HL. injection HL as HL. unfold bary. f_equal.
  - rewrite total_sumf in HT. cbn [length] in HT. rewrite HL, sumf_first in HT. unfold vat at 1 in HT. cbn [nth] in HT. rewrite <- HT. ring.
  - rewrite (list_eq_tab l 0) at 1. rewrite HL. reflexivity.
Qed.
Lemma ind_sum d a : (a <= d)%nat -> sumf (S d) (fun b => ind a b) = 1.
Proof.
  intros H. rewrite (sumf_single (S d) _ a); [unfold ind; rewrite Nat.eqb_refl; reflexivity|lia|]. intros i Hi N. unfold ind. destruct (Nat.eqb_spec a i); [congruence|reflexivity].
Qed.
Lemma half_half : half + half = 1.
Proof. apply Qc_is_canon. reflexivity. Qed.
Lemma ncoord_sum d p : (fst p <= d)%nat -> (snd p <= d)%nat -> sumf (S d) (ncoord p) = 1.
Proof.
  intros H1 H2. unfold ncoord.
  rewrite sumf_plus, !sumf_scal, !ind_sum by auto. rewrite !Qcmult_1_r. apply half_half.
Qed.
Definition kid_ok (d : nat) (kid : list name) : Prop := length kid = S d /\ forall x, (x <= d)%nat -> (fst (knth kid x) <= snd (knth kid x) <= d)%nat.
Lemma kids_ok nsub d tag K s : (1 <= d <= 3)%nat -> In (tag, K) (kids nsub d) -> length K = nsub /\ ((s < nsub)%nat -> kid_ok d (nth s K [])).
Proof.
  intros Hd HK.
  assert (Chk : forallb (fun tk : when * list (list name) => (length (snd tk) =? nsub)%nat &&
    forallb (fun kid => (length kid =? S d)%nat && forallb (fun x => ((fst (knth kid x) <=? snd (knth kid x)) && (snd (knth kid x) <=? d))%nat) (seq 0 (S d))) (snd tk)) (kids nsub d) = true).
  { destruct nsub as [|[|[|[|[|[|[|[|[|n]]]]]]]]]; destruct d as [|[|[|[|d]]]]; try lia; vm_compute; reflexivity. }
  rewrite forallb_forall in Chk. specialize (Chk _ HK). cbn [snd] in Chk. apply andb_true_iff in Chk as [L Chk]. apply Nat.eqb_eq in L. split; auto.
  intros Hs. rewrite forallb_forall in Chk. specialize (Chk (nth s K [])). rewrite <- L in Hs. specialize (Chk (nth_In _ _ Hs)).
  apply andb_true_iff in Chk as [L' Chk]. apply Nat.eqb_eq in L'. split; auto. intros x Hx. rewrite forallb_forall in Chk. specialize (Chk x ltac:(apply in_seq; lia)).
  apply andb_true_iff in Chk as [A B]. apply Nat.leb_le in A, B. lia.
Qed.
Lemma lpoint_coordinates d kid mu : kid_ok d kid -> coordinates d mu -> coordinates d (lpoint d kid mu).
Proof.
  intros [HL HK] [ML MT]. split; [apply tab_length|]. rewrite total_sumf. unfold lpoint at 1. rewrite tab_length.
  rewrite (sumf_ext _ _ (fun a => sumf (S d) (fun x => vat mu x * ncoord (knth kid x) a))) by (intros a Ha; unfold lpoint; rewrite vat_tab by auto; reflexivity).
  rewrite sumf_swap. rewrite <- MT, total_sumf, ML. apply sumf_ext. intros x Hx. assert (Hx' : (x <= d)%nat) by lia. apply HK in Hx'. rewrite sumf_scal, ncoord_sum by lia. ring.
Qed.

(** ** Functions of the coarse space are in the fine space on each child *)
Definition plpoint (d : nat) (kid : list name) (k : nat) : poly d :=
  fold_right (padd d) (pconst d 0) (map (fun x => pscale d (ncoord (knth kid x) (S k)) (pbary d x)) (seq 0 (S d))).
Definition psum (d : nat) (ps : list (poly d)) : poly d := fold_right (padd d) (pconst d 0) ps.
Definition check_reproduced (coarse fine : fe) (d nsub : nat) : bool :=
  forallb (fun tk : when * list (list name) => let '(tag, K) := tk in
    forallb (fun kid => forallb (fun j =>
      pzero d (padd d (pscale d (- (1)) (pcomp d d (plpoint d kid) (fe_poly coarse d j)))
                      (psum d (map (fun k => pscale d (weight coarse fine d kid j k) (fe_poly fine d k)) (seq 0 (fe_size fine d))))))
      (seq 0 (fe_size coarse d))) K) (kids nsub d).
Lemma value_psum d {A} (f : A -> poly d) l x : value d (psum d (map f l)) x = suml (map (fun a => value d (f a) x) l).
Proof. induction l as [|a l IH]; cbn; [apply value_pconst|]. rewrite value_padd. unfold psum in IH. rewrite IH. reflexivity. Qed.
Lemma reproduced_spec coarse fine d nsub : (1 <= d <= 3)%nat -> check_reproduced coarse fine d nsub = true ->
  forall tag K s j mu, In (tag, K) (kids nsub d) -> (s < nsub)%nat -> (j < fe_size coarse d)%nat -> coordinates d mu ->
    phi coarse d j (lpoint d (nth s K []) mu) = sumf (fe_size fine d) (fun k => weight coarse fine d (nth s K []) j k * phi fine d k mu).
Proof.
  intros Hd H tag K s j mu HK Hs Hj Hmu. unfold check_reproduced in H. rewrite forallb_forall in H. specialize (H _ HK). cbv beta iota in H.
  destruct (kids_ok nsub d tag K s Hd HK) as [LK Hkid]. specialize (Hkid Hs). rewrite <- LK in Hs. rewrite forallb_forall in H. specialize (H (nth s K []) (nth_In _ _ Hs)).
  rewrite forallb_forall in H. specialize (H j ltac:(apply in_seq; lia)). set (x := fun k => vat mu (S k)). set (kid := nth s K []) in *.
  apply (pzero_value d _ x) in H. rewrite value_padd, value_pscale, value_pcomp, value_psum in H.
  assert (Emu : mu = bary d x) by (apply coordinates_bary; auto).
  assert (E1 : value d (fe_poly coarse d j) (fun k => value d (plpoint d kid k) x) = phi coarse d j (lpoint d kid mu)).
  { rewrite (value_ext _ _ _ (fun k => vat (lpoint d kid mu) (S k))).
    - rewrite phi_poly by auto. f_equal. symmetry. apply coordinates_bary, lpoint_coordinates; auto.
    - intros k Hk. unfold lpoint. rewrite vat_tab by lia. unfold plpoint. change (fold_right (padd d) (pconst d 0)) with (psum d). rewrite (value_psum d _ (seq 0 (S d)) x).
      etransitivity; [apply (suml_tab (S d))|]. apply sumf_ext. intros y Hy. rewrite value_pscale, value_pbary by lia. rewrite <- Emu. ring. }
  rewrite E1 in H. assert (E2 : suml (map (fun k => value d (pscale d (weight coarse fine d kid j k) (fe_poly fine d k)) x) (seq 0 (fe_size fine d))) =
    sumf (fe_size fine d) (fun k => weight coarse fine d kid j k * phi fine d k mu)).
  { etransitivity; [apply (suml_tab (fe_size fine d))|]. apply sumf_ext. intros k Hk. rewrite value_pscale, phi_poly by auto. rewrite <- Emu. reflexivity. }
  rewrite E2 in H. match goal with |- ?a = ?b => assert (Q : b = a) by (rewrite <- (Qcplus_0_r a), <- H; ring) end. symmetry. exact Q.
Qed.
