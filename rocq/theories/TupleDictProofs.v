From Coq Require Import Sorted.
From Verif Require Import Util TupleDictModel TupleDictSpec.
Set Default Proof Using "Type".

(** * Row level *)

Definition fI {V} (l : list (Z * V)) : buf Z := map (fun p => Some (fst p)) l.
Definition fV {V} (l : list (Z * V)) : buf V := map (fun p => Some (snd p)) l.

Lemma fI_app {V} (a b : list (Z * V)) : fI (a ++ b) = fI a ++ fI b.
Proof. apply map_app. Qed.
Lemma fV_app {V} (a b : list (Z * V)) : fV (a ++ b) = fV a ++ fV b.
Proof. apply map_app. Qed.
Lemma fI_cons {V} K (v : V) b : fI ((K, v) :: b) = Some K :: fI b.
Proof. reflexivity. Qed.
Lemma fV_cons {V} K (v : V) b : fV ((K, v) :: b) = Some v :: fV b.
Proof. reflexivity. Qed.
Lemma fI_length {V} (a : list (Z * V)) : length (fI a) = length a.
Proof. apply map_length. Qed.
Lemma fV_length {V} (a : list (Z * V)) : length (fV a) = length a.
Proof. apply map_length. Qed.

Lemma rd_middle {A} (a b : buf A) x : rd (a ++ Some x :: b) (length a) = Ok x.
Proof. apply rd_ok. rewrite nth_error_app2 by lia. rewrite Nat.sub_diag. reflexivity. Qed.

Lemma wr_middle {A} (a b : buf A) y x : wr (a ++ y :: b) (length a) x = Ok (a ++ Some x :: b).
Proof.
  rewrite wr_ok by (rewrite app_length; simpl; lia). rewrite upd_middle. reflexivity.
Qed.

Lemma rd_at {A} (a b : buf A) x n : n = length a -> rd (a ++ Some x :: b) n = Ok x.
Proof. intros ->; apply rd_middle. Qed.
Lemma wr_at {A} (a b : buf A) y x n : n = length a -> wr (a ++ y :: b) n x = Ok (a ++ Some x :: b).
Proof. intros ->; apply wr_middle. Qed.

Definition rows_sorted {V} (l : list (Z * V)) : Prop := StronglySorted Z.lt (map fst l).

Section Rows.
  Variable V : Type.
  Implicit Types l a b : list (Z * V).

  Lemma shift_right_ok l1 l2 x y ji jv c m :
    m = length l1 -> c = length l1 + length l2 ->
    exists x' y',
      shift_right V c m (fI (l1 ++ l2) ++ x :: ji, fV (l1 ++ l2) ++ y :: jv)
      = Ok (fI l1 ++ x' :: fI l2 ++ ji, fV l1 ++ y' :: fV l2 ++ jv).
  Proof.
    intros -> ->. unfold shift_right.
    pose (Inv := fun k (st : buf Z * buf V) => exists a b x' y',
      l2 = a ++ b /\ k = length l1 + length a /\
      st = (fI (l1 ++ a) ++ x' :: fI b ++ ji, fV (l1 ++ a) ++ y' :: fV b ++ jv)).
    loop_inv Inv st E HI.
    3: { intros k s0 Hk (a & b & x' & y' & Hl & Hka & ->).
         destruct (@exists_last _ a) as (a' & [K w] & Ha).
         { intros ->; simpl in *; lia. }
         subst a. rewrite app_length in Hka; simpl in Hka.
         cbn [fst snd].
         rewrite !app_assoc, !fI_app, !fV_app.
         rewrite <- (app_assoc (fI l1 ++ fI a')), <- (app_assoc (fV l1 ++ fV a')).
         rewrite fI_cons, fV_cons. cbn [app fI fV map].
         rewrite rd_at by (rewrite app_length, !fI_length; lia). cbn [bind].
         change (Some K :: x' :: fI b ++ ji) with ([Some K] ++ x' :: fI b ++ ji).
         rewrite app_assoc.
         rewrite wr_at by (rewrite !app_length, !fI_length; simpl; lia). cbn [bind].
         rewrite rd_at by (rewrite app_length, !fV_length; lia). cbn [bind].
         change (Some w :: y' :: fV b ++ jv) with ([Some w] ++ y' :: fV b ++ jv).
         rewrite app_assoc.
         rewrite wr_at by (rewrite !app_length, !fV_length; simpl; lia). cbn [bind].
         eexists; split; [reflexivity|].
         exists a', ((K, w) :: b), (Some K), (Some w). repeat split.
         - rewrite Hl, <- app_assoc. reflexivity.
         - lia.
         - rewrite !fI_app, !fV_app, <- !app_assoc. reflexivity. }
    - lia.
    - exists l2, [], x, y. rewrite app_nil_r. repeat split; auto.
    - destruct HI as (a & b & x' & y' & Hl & Hka & ->).
      assert (a = []) as -> by (destruct a; simpl in *; auto; lia).
      simpl in Hl; subst b. rewrite E. rewrite app_nil_r. eauto.
  Qed.

  Lemma shift_left_ok l1 p l2 ji jv c m :
    m = length l1 -> c = S (length l1 + length l2) ->
    exists x y,
      shift_left V m c (fI (l1 ++ p :: l2) ++ ji, fV (l1 ++ p :: l2) ++ jv)
      = Ok (fI (l1 ++ l2) ++ x :: ji, fV (l1 ++ l2) ++ y :: jv).
  Proof.
    intros -> ->. unfold shift_left.
    pose (Inv := fun k (st : buf Z * buf V) => exists a b x' y',
      l2 = a ++ b /\ k = length l1 + 1 + length a /\
      st = (fI (l1 ++ a) ++ x' :: fI b ++ ji, fV (l1 ++ a) ++ y' :: fV b ++ jv)).
    loop_inv Inv st E HI.
    3: { intros k s0 Hk (a & b & x' & y' & Hl & Hka & ->).
         destruct b as [|[K w] b].
         { rewrite app_nil_r in Hl. subst a. lia. }
         cbn [fst snd]. rewrite fI_cons, fV_cons. cbn [app].
         change (x' :: Some K :: fI b ++ ji) with ([x'] ++ Some K :: fI b ++ ji).
         change (y' :: Some w :: fV b ++ jv) with ([y'] ++ Some w :: fV b ++ jv).
         rewrite !app_assoc.
         rewrite rd_at by (rewrite !app_length, !fI_length, app_length; simpl; lia). cbn [bind].
         rewrite <- (app_assoc _ [x']). cbn [app].
         rewrite wr_at by (rewrite !fI_length, app_length; simpl; lia). cbn [bind].
         rewrite rd_at by (rewrite !app_length, !fV_length, app_length; simpl; lia). cbn [bind].
         rewrite <- (app_assoc _ [y']). cbn [app].
         rewrite wr_at by (rewrite !fV_length, app_length; simpl; lia). cbn [bind].
         eexists; split; [reflexivity|].
         exists (a ++ [(K, w)]), b, (Some K), (Some w). repeat split.
         - rewrite Hl, <- app_assoc. reflexivity.
         - rewrite app_length; simpl; lia.
         - rewrite !fI_app, !fV_app, <- !app_assoc. reflexivity. }
    - lia.
    - exists [], l2, (Some (fst p)), (Some (snd p)). rewrite app_nil_r. split; [reflexivity|split].
      + simpl; lia.
      + rewrite !fI_app, !fV_app, <- !app_assoc. reflexivity.
    - destruct HI as (a & b & x' & y' & Hl & Hka & ->).
      assert (b = []) as ->.
      { apply (f_equal (@length _)) in Hl. rewrite app_length in Hl. destruct b; simpl in *; auto; lia. }
      rewrite app_nil_r in Hl; subst a. rewrite E. cbn [fI fV map app]. eauto.
  Qed.

  (** ** Search *)
  Definition located l (J : Z) (b : bool) (m : nat) : Prop :=
    exists l1 l2, l = l1 ++ l2 /\ m = length l1 /\
      (forall p, In p l1 -> (fst p < J)%Z) /\
      (if b then exists v l2', l2 = (J, v) :: l2' /\ (forall p, In p l2' -> (J < fst p)%Z)
       else forall p, In p l2 -> (J < fst p)%Z).

  Lemma sorted_app_inv l1 l2 : rows_sorted (l1 ++ l2) ->
    rows_sorted l1 /\ rows_sorted l2 /\ forall p q, In p l1 -> In q l2 -> (fst p < fst q)%Z.
  Proof.
    unfold rows_sorted. induction l1 as [|a l1 IH]; simpl; intros H.
    - split; [constructor|]. split; auto. intros p q [].
    - inversion H as [|? ? Hs Hf]; subst. rewrite map_app in *.
      destruct (IH Hs) as (H1 & H2 & H3). rewrite Forall_forall in Hf. split; [|split; auto].
      + constructor; auto. rewrite Forall_forall. intros x Hx. apply Hf. apply in_or_app; auto.
      + intros p q [->|Hp] Hq; auto. apply Hf. apply in_or_app; right. apply in_map; auto.
  Qed.

  Lemma sorted_app l1 l2 : rows_sorted l1 -> rows_sorted l2 ->
    (forall p q, In p l1 -> In q l2 -> (fst p < fst q)%Z) -> rows_sorted (l1 ++ l2).
  Proof.
    unfold rows_sorted. induction l1 as [|a l1 IH]; simpl; intros H1 H2 H; auto.
    inversion H1 as [|? ? Hs Hf]; subst. constructor; auto.
    rewrite map_app, Forall_forall in *. intros x Hx. apply in_app_or in Hx as [Hx|Hx]; auto.
    apply in_map_iff in Hx as (q & <- & Hq). apply H; auto.
  Qed.

  Lemma sorted_cons p l : rows_sorted (p :: l) <-> rows_sorted l /\ forall q, In q l -> (fst p < fst q)%Z.
  Proof.
    unfold rows_sorted; simpl. split.
    - intros H; inversion H as [|? ? Hs Hf]; subst. split; auto. intros q Hq.
      rewrite Forall_forall in Hf. apply Hf, in_map; auto.
    - intros [H1 H2]. constructor; auto. rewrite Forall_forall. intros x Hx.
      apply in_map_iff in Hx as (q & <- & Hq); auto.
  Qed.

  Variable W : nat.

  Lemma find_linear_ok l1 l2 ji J c :
    rows_sorted (l1 ++ l2) -> c = length (l1 ++ l2) -> c < W ->
    (forall p, In p l1 -> (fst p < J)%Z) ->
    exists (b : bool) m, find_linear W (fI (l1 ++ l2) ++ ji) (length l2) (length l1) c J = Ok (b, m)
      /\ located (l1 ++ l2) J b m.
  Proof.
    intros Hs -> HW. remember (length l2) as n eqn:Hn. revert l1 l2 Hs HW Hn.
    induction n as [|n IH]; intros l1 l2 Hs HW Hn H1.
    - destruct l2; [|discriminate]. cbn [find_linear]. eexists _, _; split; [reflexivity|].
      exists l1, []. rewrite app_nil_r in *. unfold wrap. rewrite Nat.mod_small by lia.
      repeat split; auto. intros p [].
    - destruct l2 as [|[K v] l2]; [discriminate|]. injection Hn as Hn.
      cbn [find_linear]. rewrite fI_app. rewrite fI_cons.
      rewrite <- app_assoc. cbn [app]. rewrite rd_at by (rewrite fI_length; auto). cbn [bind].
      pose proof (sorted_app_inv _ _ Hs) as (Hs1 & Hs2 & Hs3).
      apply sorted_cons in Hs2 as [Hs2 Hs2'].
      destruct (Z.eqb_spec K J) as [->|HK].
      + eexists _, _; split; [reflexivity|]. exists l1, ((J, v) :: l2). repeat split; auto.
        exists v, l2; split; auto.
      + destruct (Z.ltb_spec J K).
        * eexists _, _; split; [reflexivity|]. exists l1, ((K, v) :: l2). repeat split; auto.
          intros p [<-|Hp]; auto. specialize (Hs2' p Hp); simpl in *; lia.
        * specialize (IH (l1 ++ [(K, v)]) l2). rewrite <- app_assoc in IH. cbn [app] in IH.
          destruct IH as (b & m & E & HL); auto.
          { intros p Hp. apply in_app_or in Hp as [Hp|[<-|[]]]; auto. simpl; lia. }
          exists b, m. split; auto. rewrite fI_app in E. rewrite fI_cons in E.
          rewrite <- app_assoc in E. cbn [app] in E. rewrite app_length in E. cbn [length] in E.
          rewrite Nat.add_1_r in E. exact E.
  Qed.

  Lemma sorted_nth l i j p q : rows_sorted l -> i < j ->
    nth_error l i = Some p -> nth_error l j = Some q -> (fst p < fst q)%Z.
  Proof.
    intros Hs Hij Hi Hj. apply nth_error_split in Hi as (a & b & -> & <-).
    rewrite nth_error_app2 in Hj by lia.
    destruct (j - length a) as [|k] eqn:E; [lia|]. simpl in Hj. apply nth_error_In in Hj.
    apply sorted_app_inv in Hs as (_ & Hs & _). apply sorted_cons in Hs as [_ Hs]. auto.
  Qed.

  Lemma find_bisect_ok l ji J : rows_sorted l -> length l < W -> forall fuel low high,
    low < high <= length l -> high - low <= fuel ->
    (low = 0 \/ exists p, nth_error l low = Some p /\ (fst p <= J)%Z) ->
    (high = length l \/ exists p, nth_error l high = Some p /\ (J < fst p)%Z) ->
    exists (b : bool) m, find_bisect W fuel (fI l ++ ji) low high J = Ok (b, m) /\ located l J b m.
  Proof.
    intros Hs HW. induction fuel as [|fuel IH]; intros low high Hlh Hf Hl Hh; [lia|].
    assert (Hrd : forall k, k < length l -> exists p, nth_error l k = Some p /\ rd (fI l ++ ji) k = Ok (fst p)).
    { intros k Hk. destruct (nth_error l k) as [p|] eqn:E.
      - exists p; split; auto. apply rd_ok. rewrite nth_error_app1 by (rewrite fI_length; auto).
        unfold fI. erewrite map_nth_error by eauto. reflexivity.
      - apply nth_error_None in E; lia. }
    destruct (Hrd low) as (p & Hp & Rp); [lia|].
    cbn [find_bisect]. rewrite Rp. cbn [bind].
    pose proof (nth_error_split _ _ Hp) as (l1 & l2 & Hl12 & Hlen).
    assert (Hs' := Hs). rewrite Hl12 in Hs'. apply sorted_app_inv in Hs' as (Hs1 & Hs2 & Hs3).
    apply sorted_cons in Hs2 as [Hs2 Hs2'].
    destruct (Z.eqb_spec (fst p) J) as [HK|HK].
    - eexists _, _; split; [reflexivity|]. exists l1, (p :: l2). repeat split; auto.
      + intros q Hq. rewrite <- HK. apply Hs3; simpl; auto.
      + destruct p as [K v]; simpl in *; subst K. exists v, l2. split; auto.
    - destruct (Nat.leb_spec (high - low) 1).
      + assert (high = S low) as -> by lia.
        destruct (Z.ltb_spec J (fst p)).
        * destruct Hl as [->|(p' & Hp' & Hle)]; [|rewrite Hp in Hp'; inversion Hp'; subst; lia].
          eexists _, _; split; [reflexivity|].
          destruct l1; [|discriminate]. exists [], l. repeat split; auto.
          { intros ? []. }
          intros q Hq. rewrite Hl12 in Hq. simpl in Hq. destruct Hq as [<-|Hq]; auto.
          specialize (Hs2' q Hq). lia.
        * eexists _, _; split; [reflexivity|].
          unfold wrap. rewrite Nat.mod_small by lia.
          exists (l1 ++ [p]), l2. repeat split.
          { rewrite <- app_assoc. assumption. }
          { rewrite app_length; simpl; lia. }
          { intros q Hq. apply in_app_or in Hq as [Hq|[<-|[]]]; [|lia].
            specialize (Hs3 q p Hq (or_introl eq_refl)). lia. }
          { intros q Hq. destruct Hh as [Hh|(p' & Hp' & Hlt)].
            - exfalso. rewrite Hl12, app_length in Hh; simpl in Hh.
              destruct l2; [destruct Hq|simpl in Hh; lia].
            - rewrite Hl12, nth_error_app2 in Hp' by lia.
              replace (S low - length l1) with 1 in Hp' by lia. simpl in Hp'.
              destruct l2 as [|p2 l2]; [discriminate|]. simpl in Hp'. inversion Hp'; subst p2.
              destruct Hq as [<-|Hq]; auto. apply sorted_cons in Hs2 as [_ Hs2].
              specialize (Hs2 q Hq). lia. }
      + set (mid := (low + high) / 2).
        assert (low < mid < high).
        { subst mid. split.
          - apply Nat.div_le_lower_bound; lia.
          - apply Nat.div_lt_upper_bound; lia. }
        clearbody mid.
        destruct (Hrd mid) as (q & Hq & Rq); [lia|]. rewrite Rq. cbn [bind].
        destruct (Z.leb_spec (fst q) J).
        * apply IH; try lia; eauto.
        * apply IH; try lia; eauto.
  Qed.

  (** ** Lookup in a row *)
  Fixpoint rlookup l (J : Z) : option V :=
    match l with
    | [] => None
    | (K, v) :: t => if Z.eqb K J then Some v else rlookup t J
    end.

  Lemma rlookup_app l1 l2 J : rlookup (l1 ++ l2) J =
    match rlookup l1 J with Some v => Some v | None => rlookup l2 J end.
  Proof.
    induction l1 as [|[K v] l1 IH]; simpl; auto. destruct (Z.eqb K J); auto.
  Qed.

  Lemma rlookup_none l J : (forall p, In p l -> fst p <> J) -> rlookup l J = None.
  Proof.
    induction l as [|[K v] l IH]; simpl; auto. intros H.
    destruct (Z.eqb_spec K J) as [->|]; [exfalso; eapply (H (J, v)); eauto|]. apply IH; auto.
  Qed.

  Lemma rlookup_some_in l J v : rlookup l J = Some v -> In (J, v) l.
  Proof.
    induction l as [|[K w] l IH]; simpl; [discriminate|]. destruct (Z.eqb_spec K J) as [->|].
    - intros E; inversion E; auto.
    - auto.
  Qed.

  Lemma rlookup_in l J v : rows_sorted l -> In (J, v) l -> rlookup l J = Some v.
  Proof.
    induction l as [|[K w] l IH]; simpl; [tauto|]. intros Hs [E|Hin].
    - inversion E; subst. rewrite Z.eqb_refl. reflexivity.
    - apply sorted_cons in Hs as [Hs Hk]. destruct (Z.eqb_spec K J) as [->|]; auto.
      specialize (Hk _ Hin); simpl in Hk; lia.
  Qed.

  Lemma located_true l J m : located l J true m ->
    exists l1 v l2, l = l1 ++ (J, v) :: l2 /\ m = length l1 /\ rlookup l J = Some v /\
      (forall p, In p l1 -> (fst p < J)%Z) /\ (forall p, In p l2 -> (J < fst p)%Z).
  Proof.
    intros (l1 & l2 & -> & -> & H1 & v & l2' & -> & H2). exists l1, v, l2'. repeat split; auto.
    rewrite rlookup_app, rlookup_none.
    - simpl. rewrite Z.eqb_refl. reflexivity.
    - intros p Hp; specialize (H1 p Hp); lia.
  Qed.

  Lemma located_false l J m : located l J false m ->
    exists l1 l2, l = l1 ++ l2 /\ m = length l1 /\ rlookup l J = None /\
      (forall p, In p l1 -> (fst p < J)%Z) /\ (forall p, In p l2 -> (J < fst p)%Z).
  Proof.
    intros (l1 & l2 & -> & -> & H1 & H2). exists l1, l2. repeat split; auto.
    rewrite rlookup_none; auto. intros p Hp. apply in_app_or in Hp as [Hp|Hp].
    - specialize (H1 p Hp); lia.
    - specialize (H2 p Hp); lia.
  Qed.
End Rows.
