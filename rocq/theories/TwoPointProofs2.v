(** What the constructors of fractional orders make. *)
From Coq Require Import R_sqrt Ratan Rtrigo_def.
From Verif Require Import LinR InteractionModel TwoPointModel TwoPointSpec TwoPointProofs.
Open Scope R_scope.
Set Default Proof Using "Type".

(** An order that reads its function from the parameters. *)
Definition made (o : order) (smin smax : R) (sym : bool) (num : nat) (f : point -> point -> res R) : Prop :=
  tp_sym (o_tp o) = sym /\ tp_size (o_tp o) = 1%nat /\ tp_const (o_tp o) = None /\ o_min o = smin /\ o_max o = smax /\ o_num o = num /\
  (forall x y, tp_eval (o_tp o) x y = f x y) /\ (forall d x y, tp_evalPtr (o_tp o) d x y = f x y).

Lemma made_lambda dim smin smax sym f : exists o, lambdaFractionalOrder dim smin smax sym f = Ok o /\
  made o smin smax sym 1 (fun x y => Ok (f (firstn dim x) (firstn dim y))).
Proof. eexists. split; [reflexivity|]. repeat apply conj; reflexivity. Qed.
Lemma made_const s : exists o, variableConstFractionalOrder s = Ok o /\ made o s s true 1 (fun x y => Ok s).
Proof. eexists. split; [reflexivity|]. repeat apply conj; reflexivity. Qed.
Lemma made_leftRight sll srr slr srl itf : exists o, leftRightFractionalOrder sll srr slr srl itf = Ok o /\
  made o (min4 sll srr (mean_if_nan sll srr slr) (mean_if_nan sll srr srl))
         (max4 sll srr (mean_if_nan sll srr slr) (mean_if_nan sll srr srl))
         (req (mean_if_nan sll srr slr) (mean_if_nan sll srr srl)) 1
         (left_right sll (mean_if_nan sll srr slr) (mean_if_nan sll srr srl) srr itf).
Proof.
  eexists. split; [reflexivity|]. repeat apply conj; try reflexivity.
  - intros x y. cbn [o_tp tp_eval]. unfold call_fun. cbn -[rlt mean_if_nan aget]. unfold leftRight_fun, left_right.
    cbn -[rlt mean_if_nan aget]. destruct (aget x 0); cbn [bind]; [|reflexivity]. destruct (aget y 0); cbn [bind]; [|reflexivity].
    destruct (rlt _ _), (rlt _ _); reflexivity.
  - intros d x y. cbn [o_tp tp_evalPtr]. unfold call_fun. cbn -[rlt mean_if_nan aget]. unfold leftRight_fun, left_right.
    cbn -[rlt mean_if_nan aget]. destruct (aget x 0); cbn [bind]; [|reflexivity]. destruct (aget y 0); cbn [bind]; [|reflexivity].
    destruct (rlt _ _), (rlt _ _); reflexivity.
Qed.
Definition islands_value (sii sio soi soo r r2 : R) (x y : point) : res R :=
  bx <- in_island 2 0 r r2 x ;; bY <- in_island 2 0 r r2 y ;;
  Ok (if bx then (if bY then sii else sio) else (if bY then soi else soo)).
Lemma made_islands sii soo r r2 sio soi : exists o, islandsFractionalOrder sii soo r r2 sio soi = Ok o /\
  made o (min4 sii soo (mean_if_nan sii soo sio) (mean_if_nan sii soo soi))
         (max4 sii soo (mean_if_nan sii soo sio) (mean_if_nan sii soo soi))
         (req (mean_if_nan sii soo sio) (mean_if_nan sii soo soi)) 1
         (islands_value sii (mean_if_nan sii soo sio) (mean_if_nan sii soo soi) soo r r2).
Proof. eexists. split; [reflexivity|]. repeat apply conj; reflexivity. Qed.
Definition innerOuter_value (dim : nat) (sii sio soi soo r2 c0 : R) (x y : point) : res R :=
  '(r2x, r2y) <- for_range 0 dim (fun i '(r2x, r2y) =>
     c <- (match i with O => Ok c0 | 1%nat => Err EUninit | _ => Err EOob end) ;; a <- aget x i ;; b <- aget y i ;;
     Ok (r2x + (a - c) * (a - c), r2y + (b - c) * (b - c))) (0, 0) ;;
  if rlt r2x r2 && rlt r2y r2 then Ok sii
  else if rle r2 r2x && rle r2 r2y then Ok soo
  else if rlt r2x r2 && rle r2 r2y then Ok sio
  else if rle r2 r2x && rlt r2y r2 then Ok soi
  else Err ENotImpl.
Lemma for_range_same {S} lo hi (f g : nat -> S -> res S) s : (forall i a, f i a = g i a) -> for_range lo hi f s = for_range lo hi g s.
Proof. intros H. apply rrel_eq. apply for_range_sim; auto. intros i a b _ ->. rewrite H. apply rrel_eq. reflexivity. Qed.
Lemma made_innerOuter dim sii soo r center sio soi o : innerOuterFractionalOrder dim sii soo r center sio soi = Ok o ->
  (1 <= length center)%nat /\
  made o (min4 sii soo (mean_if_nan sii soo sio) (mean_if_nan sii soo soi))
         (max4 sii soo (mean_if_nan sii soo sio) (mean_if_nan sii soo soi))
         (req (mean_if_nan sii soo sio) (mean_if_nan sii soo soi)) 1
         (innerOuter_value dim sii (mean_if_nan sii soo sio) (mean_if_nan sii soo soi) soo (r * r) (nth 0 center 0)).
Proof.
  destruct center as [|c0 center]; [discriminate|]. intros E. split; [simpl; lia|].
  unfold innerOuterFractionalOrder in E. cbn -[mean_if_nan min4 max4 req] in E. injection E as <-.
  assert (K : forall x y, call_fun [Some (SFun FunInnerOuter); None; Some (SIndex dim); Some (SReal sii); Some (SReal soo);
    Some (SReal (mean_if_nan sii soo sio)); Some (SReal (mean_if_nan sii soo soi)); Some (SReal (r * r)); Some (SReal c0); None] x y =
    innerOuter_value dim sii (mean_if_nan sii soo sio) (mean_if_nan sii soo soi) soo (r * r) c0 x y).
  { intros x y. unfold call_fun. cbn -[mean_if_nan innerOuter_fun innerOuter_value]. unfold innerOuter_fun, innerOuter_value.
    match goal with |- context [fDIM] => idtac end. set (p := [_; _; _; _; _; _; _; _; _; _]).
    change (getINDEX p fDIM) with (Ok dim). change (getREAL p fSLL) with (Ok sii). change (getREAL p fSRR) with (Ok soo).
    change (getREAL p fSLR) with (Ok (mean_if_nan sii soo sio)). change (getREAL p fSRL) with (Ok (mean_if_nan sii soo soi)).
    change (getREAL p fR) with (Ok (r * r)). cbn [bind].
    rewrite (for_range_same 0 dim _ (fun i '(r2x, r2y) =>
     c <- (match i with O => Ok c0 | 1%nat => Err EUninit | _ => Err EOob end) ;; a <- aget x i ;; b <- aget y i ;;
     Ok (r2x + (a - c) * (a - c), r2y + (b - c) * (b - c)))); [reflexivity|]. intros i (a1 & a2).
    replace (getREAL p (fSLOPE + i)) with (match i with O => Ok c0 | 1%nat => Err EUninit | _ => @Err R EOob end); [reflexivity|].
    destruct i as [|[|i]]; try reflexivity. unfold getREAL, rd, fSLOPE. cbn [Nat.add].
    cbn [nth_error]. destruct i; reflexivity. }
  repeat apply conj; try reflexivity; intros; apply K.
Qed.
Definition layers_value (dim n : nat) (bs : list R) (os : list (list R)) (x y : point) : res R :=
  cx <- zaget x (Z.of_nat dim - 1) ;; i <- layer_of n bs cx ;;
  cy <- zaget y (Z.of_nat dim - 1) ;; j <- layer_of n bs cy ;;
  aget (concat os) (i * n + j)%nat.
(** The loop over all entries of the table. *)
Lemma layers_scan os n : length os = n -> (forall row, In row os -> length row = n) ->
  exists smin smax sym,
  for_range 0 n (fun i s => for_range 0 n (fun j '(smin, smax, sym) =>
     a <- rentry os i j ;; b <- rentry os j i ;;
     Ok (Some (match smin with None => a | Some m => Rmin m a end), Rmax smax a, if req a b then sym else false)) s)
     (None, 0, true) = Ok (smin, smax, sym) /\
  ((0 < n)%nat -> exists m, smin = Some m) /\ (n = 0%nat -> smin = None) /\
  (forall m, smin = Some m -> forall i j, (i < n)%nat -> (j < n)%nat -> m <= table os i j <= smax) /\
  (sym = true <-> forall i j, (i < n)%nat -> (j < n)%nat -> table os i j = table os j i).
Proof.
  intros Hn Hr.
  assert (G : forall i j, (i < n)%nat -> (j < n)%nat -> rentry os i j = Ok (table os i j)).
  { intros. apply rentry_table; try congruence. intros row H'. rewrite Hn. auto. }
  pose (done := fun (i j p q : nat) => (p < i \/ p = i /\ q < j)%nat).
  pose (J := fun i j (s : option R * R * bool) => let '(smin, smax, sym) := s in
    (forall p q, (q < n)%nat -> done i j p q -> exists m, smin = Some m) /\
    ((forall p q, (q < n)%nat -> ~ done i j p q) -> smin = None) /\
    (forall m, smin = Some m -> forall p q, (q < n)%nat -> done i j p q -> m <= table os p q <= smax) /\
    (sym = true <-> forall p q, (q < n)%nat -> done i j p q -> table os p q = table os q p)).
  loop_inv (fun i s => J i 0%nat s) st E HI; [lia|..].
  - unfold J, done. repeat apply conj; try (intros; lia); try (intros; discriminate); try (intros; reflexivity).
  - intros i s Hi HJ. loop_inv (fun j s => J i j s) st' E' HI'; [lia|exact HJ|..].
    + intros j ((smin & smax) & sym) Hj (J1 & J2 & J3 & J4). rewrite (G i j), (G j i) by lia. cbn [bind]. eexists. split; [reflexivity|].
      unfold J. split; [|split; [|split]].
      * intros. eexists; reflexivity.
      * intros H. exfalso. apply (H i j); [lia|]. unfold done; lia.
      * intros m Em p q Hq Hd.
        assert (D : done i j p q \/ (p = i /\ q = j)) by (unfold done in *; lia).
        injection Em as <-. destruct smin as [m0|].
        -- pose proof (Rmin_l m0 (table os i j)). pose proof (Rmin_r m0 (table os i j)).
           pose proof (Rmax_l smax (table os i j)). pose proof (Rmax_r smax (table os i j)).
           destruct D as [D|(-> & ->)]; [|lra]. specialize (J3 m0 eq_refl p q Hq D). lra.
        -- pose proof (Rmax_r smax (table os i j)). destruct D as [D|(-> & ->)]; [|lra].
           destruct (J1 p q Hq D); discriminate.
      * split.
        -- destruct (req_spec (table os i j) (table os j i)) as [Eq|Nq]; [|discriminate]. intros Hs p q Hq Hd.
           assert (D : done i j p q \/ (p = i /\ q = j)) by (unfold done in *; lia).
           destruct D as [D|(-> & ->)]; auto. apply J4; auto.
        -- intros H. destruct (req_spec (table os i j) (table os j i)) as [Eq|Nq].
           ++ apply J4. intros p q Hq Hd. apply H; auto. unfold done in *; lia.
           ++ exfalso. apply Nq. apply H; [lia|unfold done; lia].
    + exists st'. split; [exact E'|]. destruct st' as ((smin & smax) & sym). destruct HI' as (J1 & J2 & J3 & J4).
      assert (D : forall p q, (q < n)%nat -> (done i n p q <-> done (S i) 0%nat p q)) by (intros p q Hq; unfold done; lia).
      unfold J. split; [|split; [|split]].
      * intros p q Hq Hd. apply (J1 p q); auto. apply D; auto.
      * intros H. apply J2. intros p q Hq Hd. apply (H p q); auto. apply D; auto.
      * intros m Em p q Hq Hd. apply (J3 m); auto. apply D; auto.
      * rewrite J4. split; intros H p q Hq Hd; apply H; auto; apply D; auto.
  - destruct st as ((smin & smax) & sym). exists smin, smax, sym. split; [exact E|].
    destruct HI as (J1 & J2 & J3 & J4). split; [|split; [|split]].
    + intros H. apply (J1 0%nat 0%nat); auto. unfold done; lia.
    + intros H. apply J2. intros p q Hq. lia.
    + intros m Em i j Hi Hj. apply (J3 m); auto. unfold done; lia.
    + rewrite J4. split; intros H p q Hp Hq; apply H; auto; unfold done in *; lia.
Qed.
Lemma made_layers dim bs os o : layersFractionalOrder dim bs os = Ok o ->
  exists n smin smax sym, length bs = S n /\ (0 < n)%nat /\ length os = n /\ (forall row, In row os -> length row = n) /\
  made o smin smax sym 1 (layers_value dim n bs os) /\
  (forall i j, (i < n)%nat -> (j < n)%nat -> smin <= table os i j <= smax) /\
  (sym = true <-> forall i j, (i < n)%nat -> (j < n)%nat -> table os i j = table os j i).
Proof.
  unfold layersFractionalOrder. destruct (length bs) as [|n] eqn:Eb; cbn [bind]; [discriminate|].
  destruct (Nat.eqb_spec (length os) n) as [En|]; cbn [guard bind]; [|discriminate].
  destruct (forallb _ os) eqn:Ef; cbn [guard bind]; [|discriminate].
  assert (Hr : forall row, In row os -> length row = n).
  { intros row Hi. rewrite forallb_forall in Ef. apply Nat.eqb_eq. apply Ef; auto. }
  destruct (layers_scan os n En Hr) as (smin & smax & sym & E & S1 & S2 & S3 & S4). rewrite E. cbn [bind].
  destruct smin as [m|]; [|discriminate]. intros Eo.
  assert (Hn : (0 < n)%nat). { destruct n; [|lia]. specialize (S2 eq_refl). discriminate. }
  unfold variableOrder in Eo. cbn -[concat] in Eo. injection Eo as <-.
  exists n, m, smax, sym. split; [auto|split; [auto|split; [auto|split; [auto|split; [|split; auto]]]]]. repeat apply conj; reflexivity.
Qed.

Lemma res_map_ok {A B} (f : A -> res B) l bs : res_map f l = Ok bs ->
  length bs = length l /\ forall i d e, (i < length l)%nat -> f (nth i l d) = Ok (nth i bs e).
Proof.
  revert bs. induction l as [|a l IH]; intros bs E; cbn in E.
  - injection E as <-. split; auto. intros; simpl in *; lia.
  - apply bind_ok in E as (b & Eb & E). apply bind_ok in E as (bs' & Es & E). injection E as <-.
    destruct (IH _ Es) as (L & H). split; [simpl; lia|]. intros [|i] d e Hi; simpl in *; auto. apply H; lia.
Qed.
Lemma fill_entry_ok m i j v : square m -> (i < length m)%nat -> (j < length m)%nat -> fill_entry m i j = Ok v -> v = filled m i j.
Proof.
  intros Hs Hi Hj. 
  assert (G : forall p q, (p < length m)%nat -> (q < length m)%nat -> oentry m p q = Ok (raw m p q)).
  { intros p q Hp Hq. unfold oentry, raw. rewrite (aget_nth m p []) by auto. cbn [bind]. apply aget_nth. rewrite Hs; auto. apply nth_In; auto. }
  unfold fill_entry, diag_entry, filled. rewrite G by auto. cbn [bind]. destruct (raw m i j); [intros E; injection E; auto|].
  rewrite !G by auto. cbn [bind]. destruct (raw m i i); cbn [bind]; [|discriminate]. destruct (raw m j j); cbn [bind the]; [|discriminate].
  intros E. injection E as <-. unfold hf. lra.
Qed.
Lemma fill_table_ok m t : square m -> fill_table m = Ok t ->
  length t = length m /\ square t /\ forall i j, (i < length m)%nat -> (j < length m)%nat -> table t i j = filled m i j.
Proof.
  intros Hs E. unfold fill_table in E. apply res_map_ok in E as (L & H). rewrite seq_length in L, H.
  assert (R : forall i, (i < length m)%nat -> length (nth i t []) = length m /\
     forall j, (j < length m)%nat -> fill_entry m i j = Ok (table t i j)).
  { intros i Hi. specialize (H i 0%nat [] Hi). rewrite seq_nth in H by auto. cbn [Nat.add] in H.
    apply res_map_ok in H as (L' & H'). rewrite seq_length in L', H'. split; auto. intros j Hj.
    specialize (H' j 0%nat 0 Hj). rewrite seq_nth in H' by auto. exact H'. }
  split; auto. split.
  - intros row Hr. apply (In_nth _ _ []) in Hr as (i & Hi & <-). rewrite L in *. apply R; auto.
  - intros i j Hi Hj. apply fill_entry_ok; auto. apply R; auto.
Qed.
Lemma nth_concat (t : list (list R)) n i j : (forall row, In row t -> length row = n) -> (i < length t)%nat -> (j < n)%nat ->
  nth_error (concat t) (i * n + j) = Some (table t i j).
Proof.
  revert i. induction t as [|r t IH]; intros i Hr Hi Hj; [simpl in Hi; lia|].
  assert (Lr : length r = n) by (apply Hr; left; auto). cbn [concat].
  destruct i as [|i].
  - rewrite nth_error_app1 by (simpl; lia). unfold table. cbn. apply nth_error_nth'. lia.
  - rewrite nth_error_app2 by (simpl; lia). replace (S i * n + j - length r)%nat with (i * n + j)%nat by (simpl; lia).
    rewrite IH; auto; [intros; apply Hr; right; auto|simpl in Hi; lia].
Qed.
Lemma fold_min_le l a : fold_left Rmin l a <= a /\ forall v, In v l -> fold_left Rmin l a <= v.
Proof.
  revert a. induction l as [|b l IH]; intros a; cbn [fold_left]; [split; [lra|contradiction]|].
  destruct (IH (Rmin a b)) as (H1 & H2). pose proof (Rmin_l a b). pose proof (Rmin_r a b). split; [lra|].
  intros v [<-|Hv]; [lra|auto].
Qed.
Lemma fold_max_le l a : a <= fold_left Rmax l a /\ forall v, In v l -> v <= fold_left Rmax l a.
Proof.
  revert a. induction l as [|b l IH]; intros a; cbn [fold_left]; [split; [lra|contradiction]|].
  destruct (IH (Rmax a b)) as (H1 & H2). pose proof (Rmax_l a b). pose proof (Rmax_r a b). split; [lra|].
  intros v [<-|Hv]; [lra|auto].
Qed.
Lemma list_min_ok l m v : list_min l = Ok m -> In v l -> m <= v.
Proof. destruct l as [|a l]; [discriminate|]. intros E. injection E as <-. destruct (fold_min_le l a). intros [<-|]; auto. Qed.
Lemma list_max_ok l m v : list_max l = Ok m -> In v l -> v <= m.
Proof. destruct l as [|a l]; [discriminate|]. intros E. injection E as <-. destruct (fold_max_le l a). intros [<-|]; auto. Qed.

Definition piecewise_value (dim n : nat) (ind : point -> R) (t : list (list R)) (x y : point) : res R :=
  let bx := trunc (ind (firstn dim x)) in
  let bY := trunc (ind (firstn dim y)) in
  if ((0 <=? bx) && (bx <? Z.of_nat n) && (0 <=? bY) && (bY <? Z.of_nat n))%Z
  then aget (concat t) (Z.to_nat bx * n + Z.to_nat bY)%nat
  else Ok (- 1).
Lemma made_piecewise dim ind m o : piecewiseConstantFractionalOrder dim ind m = Ok o ->
  exists t smin smax, square m /\ length t = length m /\ square t /\ (0 < length m)%nat /\
  (forall i j, (i < length m)%nat -> (j < length m)%nat -> table t i j = filled m i j) /\
  (forall v, In v (concat t) -> smin <= v <= smax) /\
  made o smin smax (table_symmetric (1 / 10 ^ 10) t) 1 (piecewise_value dim (length m) ind t).
Proof.
  unfold piecewiseConstantFractionalOrder. destruct (forallb _ m) eqn:Ef; cbn [guard bind]; [|discriminate].
  assert (Hs : square m).
  { intros row Hi. rewrite forallb_forall in Ef. apply Nat.eqb_eq. apply Ef; auto. }
  intros E. apply bind_ok in E as (t & Et & E). apply bind_ok in E as (smin & E1 & E). apply bind_ok in E as (smax & E2 & E).
  destruct (fill_table_ok m t Hs Et) as (L & St & Ht).
  exists t, smin, smax. split; [auto|split; [auto|split; [auto|split; [|split; [auto|split]]]]].
  - destruct m; [|simpl; lia]. destruct t; [|discriminate L]. discriminate E1.
  - intros v Hv. split; [eapply list_min_ok|eapply list_max_ok]; eauto.
  - unfold variableOrder in E. cbn -[concat table_symmetric] in E. injection E as <-. rewrite L in *.
    repeat apply conj; reflexivity.
Qed.
