(** Proofs about the far field and the products of hierarchical matrices. *)
From Verif Require Import Util Lin SparsitySpec CSRModel CSRSpec CSRProofs TriModel TriSpec TriProofs TriProofs2 OpsProofs DenseModel DenseSpec DenseProofs OpsProofs3.
From Verif Require Import H2Model H2Spec H2Proofs H2Proofs2.
Set Default Proof Using "Type".
Local Open Scope nat_scope.

Lemma suml_one N k t u (F : hnode -> Qc) : shaped N k t -> In u (nodes t) ->
  suml (map (fun s => if nid (inf u) =? nid (inf s) then F s else 0%Qc) (nodes t)) = F u.
Proof.
  intros [H _ _] Hu. revert H Hu. induction (nodes t) as [|s l IH]; cbn [map suml In]; intros H Hu; [destruct Hu|].
  apply NoDup_cons_iff in H as (Hn & H). destruct Hu as [->|Hu].
  - rewrite Nat.eqb_refl, suml_map_zero; [ring|]. intros s Hs. destruct (Nat.eqb_spec (nid (inf u)) (nid (inf s))) as [E|]; auto.
    exfalso. apply Hn. rewrite E. apply in_map_iff. exists s; auto.
  - rewrite IH by auto. destruct (Nat.eqb_spec (nid (inf u)) (nid (inf s))) as [E|]; [|ring].
    exfalso. apply Hn. rewrite <- E. apply in_map_iff. exists u; auto.
Qed.

Section Far.
  Variables (N ncomp comp : nat) (x : list Qc) (t : hnode) (ps : list pair).
  Hypothesis (Hx : length x = N) (Hcomp : comp < ncomp) (Sh : shaped N ncomp t) (Ps : pairs_ok t ps).

  (** The loop over the pairs, for a step that adds [g p] to the coefficients of [dst p]. *)
  Lemma pairs_loop (f : pair -> heap -> res heap) (dst : pair -> hnode) (g : pair -> nat -> Qc) down0 :
    (forall p, In p ps -> In (dst p) (nodes t)) ->
    (forall p down y, In p ps -> down (nid (inf (dst p))) = map Some y -> length y = ksize (inf (dst p)) ->
       f p down = Ok (hset down (nid (inf (dst p))) (map Some (tab (ksize (inf (dst p))) (fun a => vat y a + g p a)%Qc)))) ->
    (forall s, In s (nodes t) -> down0 (nid (inf s)) = map Some (tab (ksize (inf s)) (fun _ => 0%Qc))) ->
    exists down D, for_list ps f down0 = Ok down /\ holds t down D /\
      forall r, total comp t D r = suml (map (fun p => sumf (ksize (inf (dst p))) (fun a => bas comp (dst p) r a * g p a)%Qc) ps).
  Proof using Sh.
    intros Hdst Hf H0.
    destruct (for_list_inv (fun done (h : heap) => forall s, In s (nodes t) ->
        h (nid (inf s)) = map Some (tab (ksize (inf s)) (fun a => suml (map (fun p => if nid (inf (dst p)) =? nid (inf s) then g p a else 0%Qc) done))))
      f ps [] down0) as (h & E & R).
    - intros s Hs. rewrite H0 by auto. f_equal.
    - intros p c q h Hl R. cbn [app] in *. assert (Hc : In c ps) by (rewrite Hl; apply in_or_app; right; left; auto).
      rewrite (Hf c h _ Hc (R _ (Hdst c Hc))) by apply tab_length. eexists; split; [reflexivity|].
      intros s Hs. unfold hset. destruct (Nat.eqb_spec (nid (inf s)) (nid (inf (dst c)))) as [Ee|Ne].
      + assert (s = dst c) as -> by (apply (same_id N ncomp t); auto). f_equal. apply tab_ext. intros a Ha.
        rewrite vat_tab, map_app, suml_app by auto. cbn [map suml]. rewrite Nat.eqb_refl. ring.
      + rewrite R by auto. f_equal. apply tab_ext. intros a Ha. rewrite map_app, suml_app. cbn [map suml].
        assert (nid (inf (dst c)) =? nid (inf s) = false) as -> by (apply Nat.eqb_neq; auto). ring.
    - cbn [app] in *. exists h, (fun k => map (fun o => match o with Some v => v | None => 0%Qc end) (h k)). split; [auto|].
      assert (V : forall s, In s (nodes t) -> map (fun o => match o with Some v => v | None => 0%Qc end) (h (nid (inf s)))
         = tab (ksize (inf s)) (fun a => suml (map (fun p => if nid (inf (dst p)) =? nid (inf s) then g p a else 0%Qc) ps))).
      { intros s Hs. rewrite R by auto. rewrite map_map, map_id. auto. }
      split.
      + intros s Hs. rewrite V by auto. split; [apply R; auto|apply tab_length].
      + intros r. unfold total.
        rewrite (suml_map_ext (nodes t) _ (fun s => suml (map (fun p => if nid (inf (dst p)) =? nid (inf s)
           then sumf (ksize (inf s)) (fun a => bas comp s r a * g p a)%Qc else 0%Qc) ps))).
        * rewrite suml_swap. apply suml_map_ext. intros p Hp.
          apply (suml_one N ncomp t (dst p) (fun s => sumf (ksize (inf s)) (fun a => bas comp s r a * g p a)%Qc)); auto.
        * intros s Hs. unfold contrib. rewrite V by auto.
          rewrite (sumf_ext (ksize (inf s)) _ (fun a => suml (map (fun p => if nid (inf (dst p)) =? nid (inf s) then bas comp s r a * g p a else 0)%Qc ps))).
          -- rewrite sumf_suml_swap. apply suml_map_ext. intros p Hp. destruct (_ =? _); auto. apply sumf_0.
          -- intros a Ha. rewrite vat_tab, <- suml_map_scal by auto. apply suml_map_ext. intros p Hp. destruct (_ =? _); ring.
  Qed.

  Variables (up : heap).
  Hypothesis (Up : forall s, In s (nodes t) -> up_right N comp x up s).

  Lemma pair_apply_ok p down y : In p ps -> down (nid (inf (p1 p))) = map Some y -> length y = ksize (inf (p1 p)) ->
    pair_apply up p down = Ok (hset down (nid (inf (p1 p))) (map Some (tab (ksize (inf (p1 p)))
      (fun a => vat y a + sumf (ksize (inf (p2 p))) (fun b => dmat (interpolant p) a b * upval N comp x (p2 p) b))%Qc))).
  Proof using Ps Up.
    intros Hp Ed Hy. destruct (Ps p Hp) as (H1 & H2 & W). unfold pair_apply. rewrite (Up _ H2), all_init_some. cbn [bind].
    rewrite Ed, (gemv_add _ _ _ _ _ W) by (auto; apply tab_length). cbn [bind]. do 3 f_equal. apply tab_ext. intros a Ha. f_equal.
    unfold mv. apply sumf_ext. intros b Hb. rewrite vat_tab by auto. auto.
  Qed.
  Lemma pair_applyTrans_ok p down y : In p ps -> ksize (inf (p1 p)) <= ksize (inf (p2 p)) ->
    down (nid (inf (p2 p))) = map Some y -> length y = ksize (inf (p2 p)) ->
    pair_applyTrans up p down = Ok (hset down (nid (inf (p2 p))) (map Some (tab (ksize (inf (p2 p)))
      (fun b => vat y b + sumf (ksize (inf (p1 p))) (fun a => dmat (interpolant p) a b * upval N comp x (p1 p) a))%Qc))).
  Proof using Ps Up.
    intros Hp Hle Ed Hy. destruct (Ps p Hp) as (H1 & H2 & W). unfold pair_applyTrans. rewrite (Up _ H1), all_init_some. cbn [bind].
    rewrite Ed, (gemvT_add _ _ _ _ _ W) by (auto; apply tab_length). cbn [bind]. do 3 f_equal. apply tab_ext. intros a Ha. f_equal.
    unfold mv, mt. apply sumf_ext. intros b Hb. rewrite vat_tab by auto. auto.
  Qed.
End Far.

(** The matrix of one component. *)
Definition compmat (comp : nat) (ps : list pair) (trans : bool) : mat :=
  let A := fun r c => suml (map (fun p => block_of comp p r c) ps) in if trans then mt A else A.

Lemma block_mv N comp x p r :
  sumf (ksize (inf (p1 p))) (fun a => bas comp (p1 p) r a * sumf (ksize (inf (p2 p))) (fun b => dmat (interpolant p) a b * upval N comp x (p2 p) b))%Qc
  = mv N (block_of comp p) (vat x) r.
Proof.
  unfold mv, block_of.
  rewrite (sumf_ext N _ (fun c => sumf (ksize (inf (p1 p))) (fun a => sumf (ksize (inf (p2 p))) (fun b =>
    bas comp (p1 p) r a * dmat (interpolant p) a b * bas comp (p2 p) c b * vat x c)))%Qc).
  - rewrite sumf_swap. apply sumf_ext. intros a Ha. rewrite <- sumf_scal. rewrite sumf_swap. apply sumf_ext. intros b Hb.
    unfold upval. rewrite <- !sumf_scal. apply sumf_ext. intros; ring.
  - intros c Hc. rewrite <- sumf_scal_r. apply sumf_ext. intros a Ha. rewrite <- sumf_scal_r. auto.
Qed.
Lemma block_mvT N comp x p r :
  sumf (ksize (inf (p2 p))) (fun b => bas comp (p2 p) r b * sumf (ksize (inf (p1 p))) (fun a => dmat (interpolant p) a b * upval N comp x (p1 p) a))%Qc
  = mv N (mt (block_of comp p)) (vat x) r.
Proof.
  unfold mv, mt, block_of.
  rewrite (sumf_ext N _ (fun c => sumf (ksize (inf (p2 p))) (fun b => sumf (ksize (inf (p1 p))) (fun a =>
    bas comp (p1 p) c a * dmat (interpolant p) a b * bas comp (p2 p) r b * vat x c)))%Qc).
  - rewrite sumf_swap. apply sumf_ext. intros b Hb. rewrite <- sumf_scal. rewrite sumf_swap. apply sumf_ext. intros a Ha.
    unfold upval. rewrite <- !sumf_scal. apply sumf_ext. intros; ring.
  - intros c Hc. rewrite sumf_swap. rewrite <- sumf_scal_r. apply sumf_ext. intros b Hb. rewrite <- sumf_scal_r. auto.
Qed.

Lemma mv_suml N (ps : list pair) (F : pair -> mat) x r :
  mv N (fun r c => suml (map (fun p => F p r c) ps)) x r = suml (map (fun p => mv N (F p) x r) ps).
Proof.
  unfold mv. rewrite <- sumf_suml_swap. apply sumf_ext. intros c Hc.
  induction ps as [|p l IH]; cbn [map suml]; [ring|]. rewrite <- IH. ring.
Qed.

(** What is needed to multiply: the sizes of transfer matrices, and for transposed
    products those of the pairs. *)
Definition can (M : h2) (trans : bool) : Prop :=
  no_taller (tree M) /\ (trans = true -> forall p, In p (far M) -> ksize (inf (p1 p)) <= ksize (inf (p2 p))).

Lemma component_ok N M trans skip comp x y up0 down0 (lf : buf Qc) : wf_h2 N M -> can M trans -> comp < components M -> length x = N -> length y = N ->
  sized (tree M) up0 -> sized (tree M) down0 ->
  (skip = true -> forall s, In s (nodes (tree M)) -> kids s = [] -> up_right N comp x up0 s) ->
  exists up down, (up <- upwardPass x comp skip (tree M) up0 ;;
      down0 <- resetDown (tree M) down0 ;;
      down1 <- for_list (Pfar M) (fun lv => for_list (snd lv) ((if trans then pair_applyTrans else pair_apply) up)) down0 ;;
      '(down2, y') <- downwardPass comp (tree M) (down1, map Some y) ;;
      Ok (y', Work up down2 lf)) = Ok (map Some (tab N (fun r => vat y r + mv N (compmat comp (far M) trans) (vat x) r)%Qc), Work up down lf) /\
    sized (tree M) up /\ sized (tree M) down.
Proof.
  intros [_ Sh Ps] (Nt & Hle) Hc Hx Hy Su Sd Hsk.
  destruct (upwardPass_ok N (components M) comp x Hx Hc skip (tree M) Sh up0 Su Hsk) as (up & E1 & R1 & _).
  destruct (resetDown_ok N (components M) (tree M) Sh down0 Sd) as (dn & E2 & R2 & _).
  rewrite E1, E2. cbn [bind].
  rewrite <- (for_list_flat_map snd ((if trans then pair_applyTrans else pair_apply) up)). fold (far M).
  assert (exists down D, for_list (far M) ((if trans then pair_applyTrans else pair_apply) up) dn = Ok down /\ holds (tree M) down D /\
    forall r, total comp (tree M) D r = mv N (compmat comp (far M) trans) (vat x) r) as (d1 & D & E3 & HD & HT).
  { destruct trans.
    - destruct (pairs_loop N (components M) comp (tree M) (far M) Sh (pair_applyTrans up) p2
        (fun p b => sumf (ksize (inf (p1 p))) (fun a => dmat (interpolant p) a b * upval N comp x (p1 p) a)%Qc) dn) as (d1 & D & E & H & T).
      + intros p Hp. apply (Ps p Hp).
      + intros p h z Hp Ez Lz. apply (pair_applyTrans_ok N comp x (tree M) (far M)); auto.
      + apply R2.
      + exists d1, D. split; [auto|]. split; [auto|]. intros r. rewrite T. unfold compmat. unfold mt at 1.
        change (fun i j => suml (map (fun p => block_of comp p j i) (far M))) with (fun i j => suml (map (fun p => mt (block_of comp p) i j) (far M))).
        rewrite (mv_suml N (far M) (fun p => mt (block_of comp p))). apply suml_map_ext. intros p Hp. apply block_mvT.
    - destruct (pairs_loop N (components M) comp (tree M) (far M) Sh (pair_apply up) p1
        (fun p a => sumf (ksize (inf (p2 p))) (fun b => dmat (interpolant p) a b * upval N comp x (p2 p) b)%Qc) dn) as (d1 & D & E & H & T).
      + intros p Hp. apply (Ps p Hp).
      + intros p h z Hp Ez Lz. apply (pair_apply_ok N comp x (tree M) (far M)); auto.
      + apply R2.
      + exists d1, D. split; [auto|]. split; [auto|]. intros r. rewrite T. unfold compmat.
        rewrite (mv_suml N (far M) (fun p => block_of comp p)). apply suml_map_ext. intros p Hp. apply block_mv. }
  rewrite E3. cbn [bind].
  destruct (downwardPass_ok N (components M) comp Hc (tree M) Sh Nt d1 D y HD Hy) as (d2 & E4 & S4 & _).
  rewrite E4. cbn [bind]. exists up, d2. split; [|split; auto].
  - f_equal. f_equal. f_equal. apply tab_ext. intros r Hr. rewrite HT. auto.
  - intros s Hs. rewrite (R1 s Hs), map_length, tab_length. auto.
Qed.

Lemma as_tab N (y : list Qc) : length y = N -> y = tab N (vat y).
Proof. intros <-. apply (list_eq_tab y 0%Qc). Qed.

Definition sizedw (M : h2) (w : work) : Prop := sized (tree M) (w_up w) /\ sized (tree M) (w_down w).

Definition skips (M : h2) : bool := match basis M with None => false | Some _ => true end.

Lemma far_part_ok N M trans x y w w0 : wf_h2 N M -> can M trans -> length x = N -> length y = N ->
  leaf_step M trans x w = Ok w0 -> sizedw M w -> sizedw M w0 ->
  (skips M = true -> components M <= 1 /\ forall s, In s (nodes (tree M)) -> kids s = [] -> up_right N 0 x (w_up w0) s) ->
  exists w', far_part M trans x (map Some y) w
      = Ok (map Some (tab N (fun r => vat y r + mv N (if trans then mt (farmat (components M) (far M)) else farmat (components M) (far M)) (vat x) r)%Qc), w') /\
    sizedw M w' /\ (w_leaf w' = w_leaf w \/ w_leaf w' = w_leaf w0).
Proof.
  intros W C Hx Hy E0 Sw Sw0 Hsk. unfold far_part. destruct (Pfar M) as [|lv0 P0] eqn:EP.
  - exists w. split; [|auto]. do 2 f_equal. f_equal. rewrite (as_tab N y Hy) at 1. apply tab_ext. intros r Hr.
    assert (far M = []) as -> by (unfold far; rewrite EP; auto).
    assert (forall a b, farmat (components M) [] a b = 0%Qc) as Z.
    { intros. unfold farmat. cbn [map suml]. apply sumf_0. }
    unfold mv. rewrite sumf_ext with (g := fun _ => 0%Qc); [rewrite sumf_0; ring|].
    intros c Hc. destruct trans; unfold mt; rewrite Z; ring.
  - rewrite E0. cbn [bind]. rewrite <- EP. fold (skips M).
    destruct (for_range_inv (fun k (st : buf Qc * work) => exists w1, sizedw M w1 /\ w_leaf w1 = w_leaf w0 /\ (k = 0 -> w1 = w0) /\
        st = (map Some (tab N (fun r => vat y r + sumf k (fun comp => mv N (compmat comp (far M) trans) (vat x) r))%Qc), w1))
      (fun comp '(y, w) =>
        up <- upwardPass x comp (skips M) (tree M) (w_up w) ;;
        down0 <- resetDown (tree M) (w_down w) ;;
        down1 <- for_list (Pfar M) (fun lv => for_list (snd lv) ((if trans then pair_applyTrans else pair_apply) up)) down0 ;;
        '(down2, y') <- downwardPass comp (tree M) (down1, y) ;;
        Ok (y', Work up down2 (w_leaf w)))
      0 (components M) (map Some y, w0)) as (st & E & w1 & S1 & El1 & _ & ->).
    + lia.
    + exists w0. split; [auto|]. split; [auto|]. split; [auto|]. f_equal. f_equal.
      rewrite (as_tab N y Hy) at 1. apply tab_ext. intros r Hr. cbn [sumf]. ring.
    + intros k st Hk (w1 & (Su & Sd) & El & E1 & ->).
      destruct (component_ok N M trans (skips M) k x (tab N (fun r => vat y r + sumf k (fun comp => mv N (compmat comp (far M) trans) (vat x) r))%Qc)
        (w_up w1) (w_down w1) (w_leaf w1) W C) as (up & down & E & S1 & S2); [lia|exact Hx| | | | |]; auto.
      * apply tab_length.
      * intros Es. destruct (Hsk Es) as (H1 & H2). assert (k = 0) as -> by lia. rewrite E1; auto.
      * eexists. split; [exact E|]. exists (Work up down (w_leaf w1)). split; [split; auto|]. split; [auto|]. split; [intros; lia|].
        f_equal. f_equal. apply tab_ext. intros r Hr. rewrite vat_tab by auto. cbn [sumf]. ring.
    + exists w1. split; [|auto]. etransitivity; [exact E|]. do 2 f_equal. f_equal. apply tab_ext. intros r Hr. f_equal.
      unfold mv, compmat, farmat. rewrite sumf_swap. apply sumf_ext. intros c Hc. rewrite sumf_scal_r. f_equal.
      destruct trans; auto.
Qed.
