(** Sums and block operators. *)
From Verif Require Import Util Lin CSRModel CSRSpec CSRProofs DenseModel DenseSpec DenseProofs SmootherModel CompModel CompSpec CompProofs CompProofs2 CompProofs3.
Local Open Scope Qc_scope.

Lemma for_n_ext {S} k : forall lo (f g : nat -> S -> res S) s, (forall j s, (lo <= j < lo + k)%nat -> f j s = g j s) -> for_n k lo f s = for_n k lo g s.
Proof.
  induction k as [|k IH]; intros lo f g s H; [reflexivity|]. cbn [for_n]. rewrite H by lia. destruct (g lo s) as [s'|e]; [|reflexivity].
  cbn [bind]. apply IH. intros j s0 Hj. apply H. lia.
Qed.

Definition stands (lens : nat -> nat) (e : expr) (o : lop) : Prop :=
  represents lens (scratch e) (fst (dims e)) (snd (dims e)) (meaning e) (offers e) o.

Lemma Forall2_nth {A B} (P : A -> B -> Prop) l l' : Forall2 P l l' -> forall i a, nth_error l i = Some a -> exists b, nth_error l' i = Some b /\ P a b.
Proof.
  induction 1 as [|a b l l' H F IH]; intros [|i] c E; try discriminate.
  - injection E as <-. exists b. auto.
  - apply IH, E.
Qed.
Lemma Forall2_length' {A B} (P : A -> B -> Prop) l l' : Forall2 P l l' -> length l' = length l.
Proof. induction 1; cbn; auto. Qed.

Lemma suml_combine coeffs (Ms : list mat) i j : length coeffs = length Ms ->
  suml (map (fun p => fst p * snd p i j) (combine coeffs Ms)) = sumf (length coeffs) (fun l => vat coeffs l * nth l Ms (fun _ _ => 0) i j).
Proof.
  revert Ms. induction coeffs as [|c cs IH]; intros [|M Ms] H; try discriminate; [reflexivity|]. cbn [combine map suml fst snd length]. injection H as H.
  rewrite sumf_first, IH by auto. reflexivity.
Qed.

Lemma for_guard_ok {A} (l : list A) (b : A -> bool) e : (forall a, In a l -> b a = true) -> for_list l (fun a _ => guard (b a) e) tt = Ok tt.
Proof. induction l as [|a l IH]; intros H; [reflexivity|]. cbn [for_list]. rewrite H by (left; auto). cbn [guard bind]. apply IH. intros a' Ha. apply H. right; auto. Qed.

Section sum.
  Context (lens : nat -> nat) (es : list expr) (ops : list lop) (coeffs : list Qc) (z n m : nat).
  Hypothesis F : Forall2 (stands lens) es ops.
  Hypothesis Hne : es <> [].
  Hypothesis Hc : length coeffs = length es.
  Hypothesis Hd : forall e, In e es -> dims e = (n, m).
  Hypothesis Lz : (n <= lens z)%nat.
  Hypothesis Nz : ~ In z (concat (map scratch es)).
  Let T := z :: concat (map scratch es).
  Let A (l : nat) : mat := nth l (map meaning es) (fun _ _ => 0).

  Lemma sum_nth i : (i < length es)%nat -> exists e o, nth_error es i = Some e /\ nth_error ops i = Some o /\ In e es /\ stands lens e o /\ dims e = (n, m) /\
    A i = meaning e /\ incl (scratch e) T /\ ~ In z (scratch e).
  Proof using F Hd Nz.
    clear Lz Hc Hne. intros Hi. destruct (nth_error es i) as [e|] eqn:E; [|apply nth_error_None in E; lia].
    destruct (Forall2_nth _ _ _ F i e E) as (o & Eo & S). exists e, o. pose proof (nth_error_In _ _ E) as Hin.
    split; [auto|]. split; [auto|]. split; [auto|]. split; [auto|]. split; [auto|]. split.
    - unfold A. apply nth_error_nth. apply map_nth_error, E.
    - assert (I : incl (scratch e) (concat (map scratch es))) by (intros u Hu; apply in_concat; exists (scratch e); split; [apply in_map; auto|auto]).
      split; [intros u Hu; right; apply I, Hu|]. intros H. apply Nz, I, H.
  Qed.

  Definition add_from (k : nat) (tr : bool) (x y : view) (h : heap) : res heap :=
    for_range k (length coeffs) (fun i h =>
      o <- aget ops i ;; c <- aget coeffs i ;;
      h <- l_mv o tr false x (View z 0 n) h ;; v_assign3 y 1 (View z 0 n) c h) h.

  Lemma add_from_performs k (tr : bool) : (k <= length coeffs)%nat -> (forall e, In e es -> offers e tr false = true) -> (tr = true -> n = m) ->
    performs lens T (if tr then m else n) (if tr then n else m)
      (fun r c => sumf (length coeffs - k) (fun j => vat coeffs (k + j) * (if tr then mt (A (k + j)) else A (k + j)%nat) r c)) true (add_from k tr).
  Proof using F Hd Nz Hc Lz.
    intros Hk Ho Hs. unfold add_from, for_range.
    apply (performs_loop lens T _ _ (fun j r c => vat coeffs j * (if tr then mt (A j) else A j) r c)
             (fun i x y h => o <- aget ops i ;; c <- aget coeffs i ;; h <- l_mv o tr false x (View z 0 n) h ;; v_assign3 y 1 (View z 0 n) c h)).
    intros j Hj. destruct (sum_nth j ltac:(lia)) as (e & o & Ee & Eo & Hin & (Rn & Rm & P) & D & EA & I & N).
    rewrite (aget_ok ops j o Eo), (aget_nth coeffs j 0) by lia. cbn [bind]. rewrite EA. rewrite D in *. cbn [fst snd] in *.
    apply (performs_axpy lens T (scratch e)); auto.
    - left. reflexivity.
    - cbn [v_len]. destruct tr; auto.
  Qed.

  Lemma sum_represents : exists o, new_sum ops coeffs z = Ok o /\
    represents lens T n m (fun i j => suml (map (fun p => fst p * snd p i j) (combine coeffs (map meaning es))))
      (fun tr a => forallb (fun b => b) (map (fun e => offers e tr false) es) && (if tr then (n =? m)%nat else negb a)) o.
  Proof using All.
    assert (Hlen : length ops = length es) by (eapply Forall2_length'; eauto).
    assert (Hpos : (0 < length es)%nat) by (destruct es; [congruence|cbn; lia]).
    destruct (sum_nth 0 Hpos) as (e0 & o0 & Ee0 & Eo0 & Hin0 & (Rn & Rm & P0) & D0 & EA0 & I0 & N0).
    rewrite D0 in *. cbn [fst snd] in *.
    unfold new_sum. destruct ops as [|o0' rest] eqn:Eops; [discriminate|]. injection Eo0 as ->. rewrite <- Eops. rewrite <- Eops in F, Hlen.
    rewrite Hlen, Hc, Nat.eqb_refl. cbn [guard]. rewrite bind_Ok.
    rewrite (for_guard_ok rest (fun o => (l_rows o0 =? l_rows o)%nat && (l_cols o0 =? l_cols o)%nat)).
    2: { intros o Hin. apply In_nth_error in Hin. destruct Hin as (i & Ei).
         assert (Ei' : nth_error ops (S i) = Some o) by (rewrite Eops; exact Ei).
         assert (Hi : (S i < length es)%nat) by (rewrite <- Hlen; apply nth_error_Some; rewrite Ei'; discriminate).
         destruct (nth_error es (S i)) as [e|] eqn:Ee; [|apply nth_error_None in Ee; lia].
         destruct (Forall2_nth _ _ _ F (S i) e Ee) as (o' & Eo' & (Rn' & Rm' & _)). rewrite Ei' in Eo'. injection Eo' as <-.
         rewrite (Hd e (nth_error_In _ _ Ee)) in *. cbn [fst snd] in *. rewrite Rn, Rm, Rn', Rm', !Nat.eqb_refl. reflexivity. }
    rewrite bind_Ok. eexists. split; [reflexivity|]. split; [exact Rn|]. split; [exact Rm|]. intros tr a Ha.
    cbn [l_mv plain]. apply andb_prop in Ha. destruct Ha as (Ha & Hs).
    assert (Ho : forall e, In e es -> offers e tr false = true).
    { intros e He. rewrite forallb_forall in Ha. apply (Ha (offers e tr false)). apply in_map_iff. exists e. auto. }
    assert (Hsq : tr = true -> n = m) by (intros ->; apply Nat.eqb_eq, Hs).
    assert (Em : forall i j, suml (map (fun p => fst p * snd p i j) (combine coeffs (map meaning es))) = sumf (length coeffs) (fun l => vat coeffs l * A l i j))
      by (intros i j; apply suml_combine; rewrite map_length; auto).
    pose proof (fun k Hk => add_from_performs k tr Hk Ho Hsq) as AF. unfold add_from in AF. rewrite Rn. rewrite Hc in *. rewrite Eops in AF. rewrite Eops.
    destruct a.
    - destruct tr; [|discriminate Hs].
      eapply performs_ext; [exact (AF 0%nat ltac:(lia))| |reflexivity].
      intros i j _ _. unfold mt. rewrite Em, Nat.sub_0_r. reflexivity.
    - eapply performs_ext; [eapply performs_seq; [exact (performs_scale _ _ _ _ _ _ (vat coeffs 0) (performs_weaken _ T _ _ _ _ _ _ (P0 tr false (Ho e0 Hin0)) I0))|exact (AF 1%nat ltac:(lia))]| |].
      + intros i j _ _. cbv beta. transitivity (sumf (length es) (fun l => vat coeffs l * (if tr then mt (A l) else A l) i j)).
        * destruct (length es) as [|k]; [lia|]. rewrite sumf_first, EA0. f_equal. replace (S k - 1)%nat with k by lia. reflexivity.
        * destruct tr; unfold mt; rewrite Em; reflexivity.
      + intros x y h _ _. cbv beta iota. destruct (l_mv o0 tr false x y h) as [h1|]; [|reflexivity]. rewrite !bind_Ok.
        rewrite (aget_nth coeffs 0 0) by lia. rewrite bind_Ok. reflexivity.
  Qed.
End sum.
