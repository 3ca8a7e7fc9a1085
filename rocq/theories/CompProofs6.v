(** Every expression. *)
From Verif Require Import Util Lin CSRModel CSRSpec CSRProofs DenseModel DenseSpec DenseProofs SmootherModel CompModel CompSpec CompProofs CompProofs2 CompProofs3 CompProofs4 CompProofs5.
Local Open Scope Qc_scope.

Lemma all_In l P : all l -> In P l -> P.
Proof. induction l as [|Q l IH]; intros H []; destruct H; subst; auto. Qed.

Section ind.
  Context (P : expr -> Prop).
  Hypothesis HCSR : forall A, P (ECSR A).
  Hypothesis HSSS : forall A, P (ESSS A).
  Hypothesis HDense : forall A, P (EDense A).
  Hypothesis HDiag : forall d, P (EDiag d).
  Hypothesis HNull : forall n m, P (ENull n m).
  Hypothesis HId : forall n a, P (EIdentity n a).
  Hypothesis HStep : forall M K a b z, P M -> P K -> P (EStep M K a b z).
  Hypothesis HMul : forall A f, P A -> P (EMultiply A f).
  Hypothesis HProd : forall A B t, P A -> P B -> P (EProduct A B t).
  Hypothesis HTr : forall A, P A -> P (ETranspose A).
  Hypothesis HBlock : forall rows t, Forall (Forall P) rows -> P (EBlock rows t).
  Hypothesis HSum : forall ops c z, Forall P ops -> P (ESum ops c z).
  Fixpoint expr_all (e : expr) : P e :=
    match e with
    | ECSR A => HCSR A | ESSS A => HSSS A | EDense A => HDense A | EDiag d => HDiag d | ENull n m => HNull n m | EIdentity n a => HId n a
    | EStep M K a b z => HStep M K a b z (expr_all M) (expr_all K)
    | EMultiply A f => HMul A f (expr_all A)
    | EProduct A B t => HProd A B t (expr_all A) (expr_all B)
    | ETranspose A => HTr A (expr_all A)
    | EBlock rows t => HBlock rows t
        ((fix go (rows : list (list expr)) : Forall (Forall P) rows :=
            match rows with
            | [] => Forall_nil _
            | row :: r => Forall_cons row
                ((fix go' (row : list expr) : Forall P row := match row with [] => Forall_nil _ | e :: r => Forall_cons e (expr_all e) (go' r) end) row) (go r)
            end) rows)
    | ESum ops c z => HSum ops c z ((fix go (l : list expr) : Forall P l := match l with [] => Forall_nil _ | e :: r => Forall_cons e (expr_all e) (go r) end) ops)
    end.
End ind.

Lemma sequence_ok {A B} (f : A -> res B) (R : A -> B -> Prop) l : (forall a, In a l -> exists b, f a = Ok b /\ R a b) ->
  exists l', sequence (map f l) = Ok l' /\ Forall2 R l l'.
Proof.
  induction l as [|a l IH]; intros H; [exists []; split; [reflexivity|constructor]|].
  destruct (H a (or_introl eq_refl)) as (b & E & Hb). destruct IH as (l' & E' & F); [intros a' Ha; apply H; right; auto|].
  exists (b :: l'). split; [cbn [map sequence]; rewrite E, bind_Ok, E', bind_Ok; reflexivity|]. constructor; auto.
Qed.

(** ** Block operators *)
Section block.
  Context (lens : nat -> nat) (rows : list (list expr)) (ops : list (list lop)) (t : nat).
  Hypothesis F : Forall2 (Forall2 (stands lens)) rows ops.
  Hypothesis Hne : rows <> [].
  Hypothesis Hne' : ~ In [] rows.
  Hypothesis Hw : forall row row', In row rows -> In row' rows -> map (fun e => snd (dims e)) row = map (fun e => snd (dims e)) row'.
  Hypothesis Hh : forall row e e', In row rows -> In e row -> In e' row -> fst (dims e) = fst (dims e').
  Let e := EBlock rows t.
  Hypothesis Lt : (fst (dims e) <= lens t)%nat.
  Hypothesis Nt : ~ In t (concat (map (fun row => concat (map scratch row)) rows)).

  Definition height (row : list expr) : nat := hd O (map (fun e => fst (dims e)) row).

  Lemma height_ok row e0 : In row rows -> In e0 row -> fst (dims e0) = height row.
  Proof using Hh. clear Lt Nt F. intros Hr He. unfold height. destruct row as [|e1 row]; [destruct He|]. cbn [map hd]. apply (Hh (e1 :: row)); auto. left; auto. Qed.
  Lemma cols_ok row orow : In row rows -> Forall2 (stands lens) row orow -> map l_cols orow = map (fun e => snd (dims e)) row.
  Proof using Type. clear. intros _ H. induction H as [|a b l l' (_ & E & _) H IH]; [reflexivity|]. cbn [map]. rewrite IH, E. reflexivity. Qed.

  Lemma block_represents : exists o, new_block ops t = Ok o /\ stands lens e o /\ l_res o = base_residual (l_mv o false false).
  Proof using All.
    pose proof (Forall2_length' _ _ _ F) as Lr.
    assert (Xr : exists row0 rs, rows = row0 :: rs) by (clear - Hne; destruct rows as [|r rs]; [congruence|exists r, rs; reflexivity]).
    destruct Xr as (row0 & rs & Er).
    assert (Xo : exists op0 os, ops = op0 :: os) by (rewrite Er in Lr; clear - Lr; destruct ops as [|r os]; [discriminate|exists r, os; reflexivity]).
    destruct Xo as (op0 & os & Eo).
    assert (Hr0 : In row0 rows) by (rewrite Er; left; auto).
    assert (F0 : Forall2 (stands lens) row0 op0) by (rewrite Er, Eo in F; inversion F; auto).
    set (ws := map (fun e => snd (dims e)) row0).
    assert (Hws : forall row, In row rows -> map (fun e => snd (dims e)) row = ws) by (intros row Hr; apply Hw; auto).
    assert (Hlast : exists rl, In rl rows /\ Forall2 (stands lens) rl (last ops [])).
    { assert (G : forall (l : list (list expr)) l', Forall2 (Forall2 (stands lens)) l l' -> l <> [] -> exists rl, In rl l /\ Forall2 (stands lens) rl (last l' [])).
      { clear. intros l l' F. induction F as [|a b l l' H F' IH]; intros Hne; [congruence|]. inversion F' as [E1 E2|a2 b2 l2 l2' H2 F2 E1 E2]; subst.
        - exists a. split; [left; auto|exact H].
        - destruct IH as (rl & I & F3); [auto|discriminate|]. exists rl. split; [right; auto|exact F3]. }
      apply G; auto. }
    destruct Hlast as (rl & Hrl & Fl).
    assert (Hrow : forall i row, nth_error rows i = Some row -> exists orow, nth_error ops i = Some orow /\ Forall2 (stands lens) row orow)
      by (intros i row; apply (Forall2_nth _ _ _ F)).
    assert (Hhs : forall rows' ops', Forall2 (Forall2 (stands lens)) rows' ops' -> (forall r, In r rows' -> In r rows) ->
       (fix hs (rows : list (list lop)) := match rows with [] => Ok [] | row :: r => o <- (match row with o :: _ => Ok o | [] => Err EIndex end) ;; r <- hs r ;; Ok (l_rows o :: r) end) ops' = Ok (map height rows')).
    { clear - Hne'. intros rows' ops' F'. induction F' as [|a b l l' H F' IH]; intros Hin; [reflexivity|].
      inversion H as [Ea Eb|e1 o1 a' b' S1 H1 Ea Eb]; subst.
      - exfalso. apply Hne', Hin. left; auto.
      - rewrite bind_Ok. rewrite IH by (intros r Hr; apply Hin; right; auto). rewrite bind_Ok. cbn [map]. f_equal. f_equal. apply S1. }
    assert (Hchk : for_list ops (fun row _ => _ <- guard (length row =? length op0)%nat EAssert ;; guard (total (map l_cols row) =? total (map l_cols op0))%nat EAssert) tt = Ok tt).
    { assert (HC : forall row, In row ops -> map l_cols row = ws).
      { intros row Hin. apply In_nth_error in Hin. destruct Hin as (i & Ei).
        destruct (nth_error rows i) as [rw|] eqn:Erw.
        - destruct (Hrow i rw Erw) as (orow & E' & F'). rewrite Ei in E'. injection E' as <-. rewrite (cols_ok rw row) by (auto; eapply nth_error_In; eauto). apply Hws. eapply nth_error_In; eauto.
        - exfalso. apply nth_error_None in Erw. assert (i < length ops)%nat by (apply nth_error_Some; rewrite Ei; discriminate). lia. }
      assert (H0 : map l_cols op0 = ws) by (apply HC; rewrite Eo; left; auto). clear - HC H0.
      assert (G : forall l, (forall row, In row l -> map l_cols row = ws) ->
        for_list l (fun row _ => _ <- guard (length row =? length op0)%nat EAssert ;; guard (total (map l_cols row) =? total (map l_cols op0))%nat EAssert) tt = Ok tt).
      { induction l as [|row r IH]; intros HL; [reflexivity|]. cbn [for_list]. pose proof (HL row (or_introl eq_refl)) as H1.
        replace (length row =? length op0)%nat with true by (symmetry; apply Nat.eqb_eq; rewrite <- (map_length l_cols row), <- (map_length l_cols op0), H1, H0; reflexivity).
        cbn [guard]. rewrite bind_Ok, H1, H0, Nat.eqb_refl. cbn [guard]. rewrite bind_Ok. rewrite H0 in IH. apply IH. intros r' Hr. apply HL. right; auto. }
      apply G, HC. }
    specialize (Hhs rows ops F (fun r Hr => Hr)). unfold new_block. rewrite Eo in Hchk, Hhs |- *. rewrite Hchk, bind_Ok, Hhs, bind_Ok. rewrite <- Eo.
    assert (Dn : fst (dims e) = total (map height rows)). { rewrite (total_sum (map height rows)). unfold e. reflexivity. }
    assert (Dm : snd (dims e) = sum_nat ws) by (unfold e; cbn [dims snd]; rewrite Er; reflexivity).
    assert (C0 : map l_cols op0 = ws) by (rewrite (cols_ok row0 op0); auto).
    assert (Cl : map l_cols (last ops []) = ws) by (rewrite (cols_ok rl); auto).
    eexists. split; [reflexivity|]. split; [|reflexivity].
    split; [rewrite Dn; reflexivity|]. split; [rewrite Dm, total_sum; cbn [l_cols plain]; rewrite C0; reflexivity|].
    intros tr a Ha. unfold e in Ha; cbn [offers] in Ha. apply andb_prop in Ha. destruct Ha as (Ha & Hav). apply andb_prop in Ha. destruct Ha as (Htr & Hadd).
    destruct tr; [discriminate|]. destruct a; [discriminate|].
    assert (Hoff : forall row e0, In row rows -> In e0 row -> offers e0 false false = true).
    { intros row e0 Hr He. rewrite forallb_forall in Hav. specialize (Hav _ (in_map (fun row => forallb (fun b => b) (map (fun e => offers e false false) row)) _ _ Hr)).
      cbv beta in Hav. rewrite forallb_forall in Hav. apply Hav. apply in_map_iff. exists e0. auto. }
    cbn [l_mv plain orb]. rewrite Cl, Dn, Dm, total_sum.
    set (l := map (fun row => (height row, beside (map (fun e => (snd (dims e), meaning e)) row))) rows).
    assert (El : map fst l = map height rows) by (unfold l; rewrite map_map; reflexivity).
    assert (Ll : length l = length rows) by (unfold l; apply map_length).
    set (g := fun i (x yi : view) h =>
      row_body (nth i rows []) (nth i ops []) (View t (sum_nat (firstn i (map height rows))) (nth i (map height rows) O)) x yi h).
    pose proof (performs_rows lens (scratch e) (sum_nat ws) l g) as PR. rewrite El, Ll in PR.
    eapply performs_ext; [apply PR| |].
    - intros i n M E. unfold l in E. rewrite nth_error_map in E. destruct (nth_error rows i) as [row|] eqn:Ei; [|discriminate]. injection E as <- <-.
      pose proof (nth_error_In _ _ Ei) as Hin. destruct (Hrow i row Ei) as (orow & Eorow & Frow).
      unfold g. rewrite (nth_error_nth _ _ [] Ei), (nth_error_nth _ _ [] Eorow).
      assert (Eh : nth_error (map height rows) i = Some (height row)) by (rewrite nth_error_map, Ei; reflexivity). rewrite (nth_error_nth _ _ O Eh).
      pose proof (sum_firstn_bound _ _ _ Eh) as B. rewrite <- (Hws row Hin).
      apply (row_performs lens (scratch e) row orow t (height row)); auto.
      + intros ->. auto.
      + intros e0 He0. apply height_ok; auto.
      + intros e0 He0. apply (Hoff row); auto.
      + intros e0 He0. assert (I : incl (scratch e0) (concat (map (fun row => concat (map scratch row)) rows))).
        { intros u Hu. apply in_concat. exists (concat (map scratch row)). split; [apply (in_map (fun row => concat (map scratch row))), Hin|].
          apply in_concat. exists (scratch e0). split; [apply in_map, He0|exact Hu]. }
        split; [intros u Hu; right; apply I, Hu|]. intros H. apply Nt, I, H.
      + left. reflexivity.
      + cbn [v_off v_len]. rewrite Dn, total_sum in Lt. lia.
    - intros i j _ _. reflexivity.
    - intros x y h Hx Hy. cbv beta. destruct (v_zero y h) as [h0|]; [|reflexivity]. rewrite !bind_Ok. unfold for_range. rewrite Lr.
      apply for_n_ext. intros i s Hi. rewrite Nat.sub_0_r in Hi.
      destruct (nth_error rows i) as [row|] eqn:Ei; [|apply nth_error_None in Ei; lia]. destruct (Hrow i row Ei) as (orow & Eorow & Frow).
      assert (Eh : nth_error (map height rows) i = Some (height row)) by (rewrite nth_error_map, Ei; reflexivity).
      pose proof (sum_firstn_bound _ _ _ Eh) as B. pose proof (sum_firstn_S _ _ _ Eh) as N.
      rewrite (aget_ok ops i orow Eorow), bind_Ok. rewrite !offsets_nth by (rewrite map_length; lia). rewrite !bind_Ok, Nat.add_1_r, N, !Nat.add_0_l.
      rewrite subview_ok by lia. rewrite bind_Ok. rewrite subview_ok by (cbn [v_len]; rewrite ?total_sum; lia). rewrite bind_Ok. cbn [v_buf v_off].
      rewrite Nat.add_0_l. replace (sum_nat (firstn i (map height rows)) + height row - sum_nat (firstn i (map height rows)))%nat with (height row) by lia.
      unfold g. rewrite (nth_error_nth _ _ [] Ei), (nth_error_nth _ _ [] Eorow), (nth_error_nth _ _ O Eh). unfold row_body.
      rewrite (Hws row) by (eapply nth_error_In; eauto).
      replace (length row) with (length op0); [reflexivity|].
      rewrite <- (map_length l_cols op0), C0, <- (Hws row) by (eapply nth_error_In; eauto). apply map_length.
  Qed.
End block.
