From Coq Require Import Sorted.
From Verif Require Import Util TupleDictModel TupleDictProofs TupleDictProofs2 SparsityModel SparsitySpec.
Set Default Proof Using "Type".

Section S.
  Variable W : nat.

  Lemma sp_linear_eq row n : forall m cnt J, sp_linear W row n m cnt J = find_linear W row n m cnt J.
  Proof. induction n as [|n IH]; intros; cbn [sp_linear find_linear]; [reflexivity|].
    destruct (rd row m); cbn [bind]; [rewrite IH|]; reflexivity. Qed.

  Lemma sp_bisect_eq row fuel : forall lo hi J, sp_bisect W fuel row lo hi J = find_bisect W fuel row lo hi J.
  Proof. induction fuel as [|n IH]; intros; cbn [sp_bisect find_bisect]; [reflexivity|].
    destruct (rd row lo); cbn [bind]; [|reflexivity].
    destruct (rd row ((lo + hi) / 2)); cbn [bind]; [rewrite !IH|]; reflexivity. Qed.

  Definition tag (r : list Z) : list (Z * unit) := map (fun j => (j, tt)) r.
  Lemma fI_tag r : fI (tag r) = map Some r.
  Proof. unfold fI, tag. rewrite map_map. reflexivity. Qed.
  Lemma tag_length r : length (tag r) = length r.
  Proof. apply map_length. Qed.
  Lemma tag_sorted r : StronglySorted Z.lt r <-> rows_sorted (tag r).
  Proof. unfold rows_sorted, tag. rewrite map_map. cbn [fst]. rewrite map_id. reflexivity. Qed.

  (** Where J belongs in a row. *)
  Definition place (r : list Z) (J : Z) (b : bool) (m : nat) : Prop :=
    exists r1 r2, r = r1 ++ r2 /\ m = length r1 /\
      (forall x, In x r1 -> (x < J)%Z) /\
      (if b then exists r2', r2 = J :: r2' else forall x, In x r2 -> (J < x)%Z).

  Lemma located_place r J b m : located unit (tag r) J b m -> place r J b m.
  Proof.
    intros (l1 & l2 & E & Hm & H1 & H2). exists (map fst l1), (map fst l2).
    assert (Er : r = map fst (tag r)) by (unfold tag; rewrite map_map; cbn [fst]; rewrite map_id; auto).
    split; [rewrite Er, E, map_app; auto|]. split; [rewrite map_length; auto|].
    split.
    - intros x Hx. apply in_map_iff in Hx as (p & <- & Hp). auto.
    - destruct b.
      + destruct H2 as (v & l2' & -> & _). exists (map fst l2'). reflexivity.
      + intros x Hx. apply in_map_iff in Hx as (p & <- & Hp). auto.
  Qed.

  Lemma search_ok r ji J : StronglySorted Z.lt r -> length r < W -> 
    exists b m, (if length r <? 20 then sp_linear W (map Some r ++ ji) (length r) 0 (length r) J
      else sp_bisect W (S (length r)) (map Some r ++ ji) 0 (u16 W (length r)) J) = Ok (b, m) /\ place r J b m.
  Proof.
    intros Hs HW. apply tag_sorted in Hs.
    destruct (Nat.ltb_spec (length r) 20).
    - destruct (find_linear_ok unit W [] (tag r) ji J (length r)) as (b & m & E & HL); auto.
      + simpl. rewrite tag_length; auto.
      + intros p [].
      + rewrite sp_linear_eq. exists b, m. cbn [app length] in E. rewrite fI_tag, tag_length in E.
        split; auto. apply located_place; auto.
    - destruct (find_bisect_ok unit W (tag r) ji J) with (fuel := S (length r)) (low := 0) (high := length r)
        as (b & m & E & HL); auto; rewrite ?tag_length; try lia.
      rewrite sp_bisect_eq. exists b, m. rewrite fI_tag in E. unfold u16. rewrite Nat.mod_small by lia.
      split; auto. apply located_place; auto.
  Qed.

  Lemma sp_shift_ok r1 r2 x ji :
    exists x', sp_shift (length r1 + length r2) (length r1) (map Some (r1 ++ r2) ++ x :: ji)
       = Ok (map Some r1 ++ x' :: map Some r2 ++ ji).
  Proof.
    unfold sp_shift.
    pose (Inv := fun k (st : buf Z) => exists a b x', r2 = a ++ b /\ k = length r1 + length a /\
       st = map Some (r1 ++ a) ++ x' :: map Some b ++ ji).
    loop_inv Inv st E HI.
    3: { intros k s0 Hk (a & b & x' & Hl & Hka & ->).
         destruct (@exists_last _ a) as (a' & K & Ha); [intros ->; simpl in *; lia|].
         subst a. rewrite app_length in Hka; simpl in Hka.
         rewrite app_assoc, map_app, <- app_assoc. cbn [map app].
         rewrite rd_at by (rewrite map_length, app_length; lia). cbn [bind].
         change (Some K :: x' :: map Some b ++ ji) with ([Some K] ++ x' :: map Some b ++ ji).
         rewrite app_assoc, wr_at by (rewrite !app_length, !map_length, app_length; simpl; lia).
         eexists; split; [reflexivity|]. exists a', (K :: b), (Some K).
         split; [rewrite Hl, <- app_assoc; auto|]. split; [lia|].
         rewrite <- app_assoc. reflexivity. }
    - lia.
    - exists r2, [], x. rewrite app_nil_r. auto.
    - destruct HI as (a & b & x' & Hl & Hka & ->).
      assert (a = []) as -> by (destruct a; simpl in *; auto; lia).
      simpl in Hl; subst b. rewrite E. rewrite app_nil_r. eauto.
  Qed.

  Variable inc : nat.

  Record RRow (c l : nat) (ib : buf Z) (r : list Z) : Prop := {
    q_c : c = length r;
    q_i : exists ji, ib = map Some r ++ ji;
    q_l : (l = length ib /\ length ib < W) \/ (W <= length ib /\ l < c) }.

  Record RSp (s : spat) (rows : list (list Z)) : Prop := {
    q_inc : sp_initial_length s = inc;
    q_nr : length rows = sp_num_dofs s;
    q_nc : length (sp_counts s) = sp_num_dofs s;
    q_nl : length (sp_lengths s) = sp_num_dofs s;
    q_ni : length (sp_indexL s) = sp_num_dofs s;
    q_row : forall I r, nth_error rows I = Some r -> exists c l ib,
       nth_error (sp_counts s) I = Some c /\ nth_error (sp_lengths s) I = Some l /\
       nth_error (sp_indexL s) I = Some ib /\ RRow c l ib r;
    q_nnz : sp_nnz s = length (concat rows) }.

  Lemma RSp_init nd : inc < W -> RSp (sp_init nd inc) (repeat [] nd).
  Proof.
    intros HW. split; cbn [sp_init sp_initial_length sp_num_dofs sp_counts sp_lengths sp_indexL sp_nnz];
      rewrite ?repeat_length; auto.
    - intros I r E. apply nth_error_repeat in E as [-> HI].
      exists 0, inc, (alloc inc). rewrite !nth_error_repeat_some by auto. repeat split; auto.
      + exists (alloc inc). reflexivity.
      + left. rewrite alloc_length. auto.
    - induction nd; simpl; auto.
  Qed.

  (** Adding an absent index at the place the search returned. *)
  Lemma sp_insert s rows I r1 r2 J c :
    RSp s rows -> 0 < inc < W -> nth_error rows I = Some (r1 ++ r2) -> c = length r1 + length r2 ->
    c <= W -> (c = W -> exists ib, nth_error (sp_indexL s) I = Some ib /\ W < length ib) ->
    sp_findIndex W s I J = Ok (false, length r1) ->
    exists s', sp_add W s I J = Ok s' /\ RSp s' (upd rows I (r1 ++ J :: r2)) /\
      sp_num_dofs s' = sp_num_dofs s.
  Proof.
    intros HR Hinc Hr Hc HW HWW Hf. destruct (q_row _ _ HR _ _ Hr) as (c' & l & ib & Ec & El & Ei & HQ).
    destruct HQ as [Hcl (ji & Hib) HL]. rewrite app_length in Hcl. subst c'. 
    assert (HI : I < sp_num_dofs s).
    { rewrite <- (q_nr _ _ HR). apply nth_error_Some. congruence. }
    unfold sp_add. rewrite Hf. cbn [bind]. rewrite (aget_ok _ _ _ Ec). cbn [bind].
    rewrite (aget_ok _ _ _ El). cbn [bind]. rewrite (aget_ok _ _ _ Ei). cbn [bind].
    rewrite (q_inc _ _ HR). rewrite <- Hc in *.
    (* allocation *)
    assert (HA : exists x ji' lens l',
      (if c =? l then realloc ib (l + inc) else ib) = map Some (r1 ++ r2) ++ x :: ji' /\
      (if c =? l then aset (sp_lengths s) I (u16 W (l + inc)) else Ok (sp_lengths s)) = Ok lens /\
      lens = upd (sp_lengths s) I l' /\
      ((l' = length (map Some (r1 ++ r2) ++ x :: ji') /\ l' < W) \/
       (W <= length (map Some (r1 ++ r2) ++ x :: ji') /\ l' < S c))).
    { destruct (Nat.eqb_spec c l) as [Hcl|Hcl].
      - destruct HL as [[HL1 HL2]|[HL1 HL2]]; [|lia].
        assert (ji = []) as ->.
        { rewrite Hib, app_length, map_length, app_length in HL1. destruct ji; auto. simpl in HL1. lia. }
        rewrite app_nil_r in Hib.
        destruct inc as [|inc'] eqn:Einc; [lia|].
        exists None, (alloc inc'), (upd (sp_lengths s) I (u16 W (l + S inc'))), (u16 W (l + S inc')).
        assert (Hre : realloc ib (l + S inc') = map Some (r1 ++ r2) ++ None :: alloc inc').
        { unfold realloc. rewrite <- HL1. replace (l + S inc' - l) with (S inc') by lia.
          rewrite firstn_all2 by lia. rewrite Hib. reflexivity. }
        split; [exact Hre|]. rewrite aset_ok by (rewrite (q_nl _ _ HR); auto).
        split; [reflexivity|]. split; [reflexivity|].
        rewrite <- Hre, realloc_length.
        unfold u16. destruct (Nat.lt_ge_cases (l + S inc') W).
        + left. rewrite Nat.mod_small by lia. auto.
        + right. split; auto. replace (l + S inc') with (l + S inc' - W + 1 * W) by lia.
          rewrite Nat.mod_add by lia. rewrite Nat.mod_small by lia. lia.
      - assert (Hji : ji <> []).
        { intros ->. rewrite app_nil_r in Hib. pose proof (f_equal (@length _) Hib) as Hlen.
          rewrite map_length, app_length in Hlen. destruct HL as [[HL1 HL2]|[HL1 HL2]]; [lia|].
          destruct HWW as (ib' & E' & HH); [lia|]. rewrite Ei in E'. inversion E'; subst ib'. lia. }
        destruct ji as [|x ji]; [congruence|].
        exists x, ji, (sp_lengths s), l. rewrite <- Hib. split; [reflexivity|]. split; [reflexivity|].
        split; [rewrite upd_same; auto|]. destruct HL as [[HL1 HL2]|[HL1 HL2]]; [left; split; lia|right; split; lia]. }
    destruct HA as (x & ji' & lens & l' & HA1 & HA2 & -> & HA3).
    rewrite HA1, HA2. cbn [bind]. rewrite Hc.
    destruct (sp_shift_ok r1 r2 x ji') as (x' & Esh). rewrite Esh. cbn [bind].
    rewrite wr_at by (rewrite map_length; auto). cbn [bind].
    rewrite aset_ok by (rewrite (q_ni _ _ HR); auto). cbn [bind].
    rewrite aset_ok by (rewrite (q_nc _ _ HR); auto). cbn [bind].
    eexists; split; [reflexivity|]. split; [|reflexivity].
    split; cbn [sp_initial_length sp_num_dofs sp_counts sp_lengths sp_indexL sp_nnz]; rewrite ?upd_length;
      try solve [reflexivity | apply (q_inc _ _ HR) | apply (q_nr _ _ HR) | apply (q_nc _ _ HR) | apply (q_nl _ _ HR) | apply (q_ni _ _ HR)].
    - intros I' r' E. rewrite nth_error_upd in E. rewrite !nth_error_upd.
      destruct (Nat.eqb_spec I I') as [<-|Hne]; cbn [andb] in *.
      + rewrite (q_nc _ _ HR), (q_nl _ _ HR), (q_ni _ _ HR). rewrite (q_nr _ _ HR) in E.
        destruct (Nat.ltb_spec I (sp_num_dofs s)); [|lia]. inversion E; subst r'.
        eexists _, _, _. split; [reflexivity|]. split; [reflexivity|]. split; [reflexivity|]. split.
        * rewrite app_length; simpl; lia.
        * exists ji'. rewrite map_app, <- app_assoc. reflexivity.
        * assert (HLe : length (map Some r1 ++ Some J :: map Some r2 ++ ji') = length (map Some (r1 ++ r2) ++ x :: ji')).
          { rewrite !app_length. simpl. rewrite !app_length, !map_length, app_length. lia. }
          rewrite HLe. destruct HA3 as [[A B]|[A B]]; [left|right]; split; lia.
      + apply (q_row _ _ HR _ _ E).
    - rewrite (q_nnz _ _ HR). pose proof (concat_upd_length unit (map tag rows) I (tag (r1 ++ r2)) (tag (r1 ++ J :: r2))) as HH.
      rewrite nth_error_map, Hr in HH. specialize (HH eq_refl). 
      assert (HC : forall rs, length (concat (map tag rs)) = length (concat rs)).
      { induction rs as [|a rs IH]; simpl; auto. rewrite !app_length, IH, tag_length. reflexivity. }
      rewrite <- map_upd, !HC, !tag_length, !app_length in HH. simpl in HH. lia.
  Qed.

  (** One add on a pattern whose row is not full. *)
  Lemma sp_add_ok s rows I J r :
    RSp s rows -> 0 < inc < W -> nth_error rows I = Some r -> StronglySorted Z.lt r -> length r < W ->
    exists s' r', sp_add W s I J = Ok s' /\ RSp s' (upd rows I r') /\ sp_num_dofs s' = sp_num_dofs s /\
      StronglySorted Z.lt r' /\ forall j, In j r' <-> j = J \/ In j r.
  Proof.
    intros HR Hinc Hr Hs HW. destruct (q_row _ _ HR _ _ Hr) as (c & l & ib & Ec & El & Ei & HQ).
    destruct HQ as [Hcl (ji & Hib) HL].
    assert (Hf : sp_findIndex W s I J = (if length r <? 20 then sp_linear W (map Some r ++ ji) (length r) 0 (length r) J
      else sp_bisect W (S (length r)) (map Some r ++ ji) 0 (u16 W (length r)) J)).
    { unfold sp_findIndex. rewrite (aget_ok _ _ _ Ec). cbn [bind]. rewrite (aget_ok _ _ _ Ei). cbn [bind].
      rewrite Hib, Hcl. reflexivity. }
    destruct (search_ok r ji J Hs HW) as (b & m & E & (r1 & r2 & Hr12 & Hm & H1 & H2)).
    rewrite E in Hf. destruct b.
    - destruct H2 as (r2' & ->). exists s, r. unfold sp_add. rewrite Hf. cbn [bind].
      split; [reflexivity|]. rewrite upd_same by auto. split; [auto|]. split; [auto|]. split; [auto|].
      intros j. split; auto. intros [->|]; auto. rewrite Hr12. apply in_or_app; right; left; auto.
    - destruct (sp_insert s rows I r1 r2 J (length r)) as (s' & E' & HR' & Hn); auto.
      + rewrite <- Hr12; auto.
      + rewrite Hr12, app_length. reflexivity.
      + lia.
      + intros; lia.
      + rewrite <- Hm; auto.
      + exists s', (r1 ++ J :: r2). split; [auto|]. split; [auto|]. split; [auto|]. split.
        * apply tag_sorted in Hs. apply tag_sorted. rewrite Hr12 in Hs. unfold tag in *. rewrite map_app in *.
          apply sorted_app_inv in Hs as (S1 & S2 & S3). apply sorted_app; auto.
          -- cbn [map]. apply sorted_cons. split; auto. intros q Hq. apply in_map_iff in Hq as (y & <- & Hy).
             cbn [fst]. auto.
          -- intros p q Hp Hq. apply in_map_iff in Hp as (y & <- & Hy). cbn [map] in Hq.
             destruct Hq as [<-|Hq]; cbn [fst]; auto. apply in_map_iff in Hq as (z & <- & Hz). cbn [fst].
             specialize (H1 _ Hy). specialize (H2 _ Hz). lia.
        * intros j. rewrite Hr12, !in_app_iff. cbn [In]. split.
          -- intros [?|[?|?]]; auto.
          -- intros [?|[?|?]]; auto.
  Qed.

  (** ** freeze *)
  Fixpoint offs (k : nat) (rows : list (list Z)) : list nat :=
    k :: match rows with [] => [] | r :: t => offs (k + length r) t end.

  Lemma offs_length rows : forall k, length (offs k rows) = S (length rows).
  Proof. induction rows as [|r t IH]; intros k; simpl; auto. Qed.

  Lemma offs_app a b : forall k, offs k (a ++ b) = removelast (offs k a) ++ offs (k + length (concat a)) b.
  Proof.
    induction a as [|r t IH]; intros k.
    - simpl. rewrite Nat.add_0_r. destruct b; reflexivity.
    - cbn [app offs]. rewrite IH. cbn [concat]. rewrite app_length, Nat.add_assoc.
      change (k :: offs (k + length r) t) with ([k] ++ offs (k + length r) t).
      rewrite removelast_app by (destruct t; discriminate). reflexivity.
  Qed.

  Lemma offs_nth rows : forall k i, i <= length rows -> nth i (offs k rows) 0 = k + length (concat (firstn i rows)).
  Proof.
    induction rows as [|r t IH]; intros k [|i] Hi; simpl in *; try lia.
    rewrite IH by lia. rewrite app_length. lia.
  Qed.

  Lemma offs_last_init rows : forall k, offs k rows = removelast (offs k rows) ++ [k + length (concat rows)].
  Proof.
    intros k. rewrite <- (app_nil_r rows) at 1. rewrite offs_app. reflexivity.
  Qed.

  Lemma slice_row rows i r : nth_error rows i = Some r ->
    slice (concat rows) (nth i (offs 0 rows) 0) (nth (S i) (offs 0 rows) 0) = r.
  Proof.
    intros E. assert (i < length rows) by (apply nth_error_Some; congruence).
    rewrite !offs_nth by lia. cbn [Nat.add].
    destruct (cut_at _ _ _ E) as (E1 & E2 & _). rewrite E1, (concat_app _ [r]), app_length.
    rewrite <- (firstn_skipn i rows) at 1. rewrite E2, concat_app. cbn [concat]. rewrite app_nil_r.
    unfold slice. rewrite skipn_at.
    replace (length (concat (firstn i rows)) + length r - length (concat (firstn i rows))) with (length r) by lia.
    apply firstn_at.
  Qed.

  Lemma sp_freeze_ok s rows : RSp s rows ->
    sp_freeze s = Ok (map Some (offs 0 rows), map Some (concat rows)).
  Proof.
    intros HR. unfold sp_freeze.
    pose (Inv := fun i (st : buf Z * nat) =>
      st = (map Some (concat (firstn i rows)) ++ alloc (length (concat (skipn i rows))), length (concat (firstn i rows)))).
    loop_inv Inv st E HI.
    3: { intros i st0 Hi ->.
         destruct (nth_error rows i) as [r|] eqn:Er;
           [|apply nth_error_None in Er; rewrite (q_nr _ _ HR) in Er; lia].
         destruct (q_row _ _ HR _ _ Er) as (c & l & ib & Ec & El & Ei & [Hc (ji & Hib) _]).
         rewrite (aget_ok _ _ _ Ec). cbn [bind]. rewrite (aget_ok _ _ _ Ei). cbn [bind].
         pose proof (nth_error_split _ _ Er) as (a & b & Hab & Hlen).
         assert (Hfi : firstn i rows = a).
         { rewrite Hab, <- Hlen, firstn_app, Nat.sub_diag, firstn_all, firstn_O, app_nil_r. reflexivity. }
         assert (HfS : firstn (S i) rows = a ++ [r]).
         { rewrite Hab, <- Hlen. replace (S (length a)) with (length (a ++ [r])) by (rewrite app_length; simpl; lia).
           replace (a ++ r :: b) with ((a ++ [r]) ++ b) by (rewrite <- app_assoc; reflexivity).
           rewrite firstn_app, Nat.sub_diag, firstn_all, firstn_O, app_nil_r. reflexivity. }
         assert (Hsi : skipn i rows = r :: b).
         { rewrite Hab, <- Hlen, skipn_app, Nat.sub_diag, skipn_all. reflexivity. }
         assert (HsS : skipn (S i) rows = b).
         { rewrite Hab, <- Hlen. replace (S (length a)) with (length (a ++ [r])) by (rewrite app_length; simpl; lia).
           replace (a ++ r :: b) with ((a ++ [r]) ++ b) by (rewrite <- app_assoc; reflexivity).
           rewrite skipn_app, Nat.sub_diag, skipn_all. reflexivity. }
         subst c ib.
         pose (Inv2 := fun j (st : buf Z * nat) =>
           st = (map Some (concat a ++ firstn j r) ++ alloc (length (skipn j r) + length (concat b)),
                 length (concat a ++ firstn j r))).
         loop_inv Inv2 st2 E2 HI2.
         3: { intros j st3 Hj ->.
              destruct (nth_error r j) as [x|] eqn:Ex; [|apply nth_error_None in Ex; lia].
              rewrite (rd_ok _ _ x).
              2: { rewrite nth_error_app1 by (rewrite map_length; lia). erewrite map_nth_error by eauto. reflexivity. }
              cbn [bind].
              pose proof (nth_error_split _ _ Ex) as (u & v & Huv & Hul).
              assert (firstn j r = u) as ->.
              { rewrite Huv, <- Hul, firstn_app, Nat.sub_diag, firstn_all, firstn_O, app_nil_r. reflexivity. }
              assert (skipn j r = x :: v) as ->.
              { rewrite Huv, <- Hul, skipn_app, Nat.sub_diag, skipn_all. reflexivity. }
              cbn [length Nat.add]. rewrite wr_next. cbn [bind].
              eexists; split; [reflexivity|]. unfold Inv2.
              assert (firstn (S j) r = u ++ [x]) as ->.
              { rewrite Huv, <- Hul. replace (S (length u)) with (length (u ++ [x])) by (rewrite app_length; simpl; lia).
                replace (u ++ x :: v) with ((u ++ [x]) ++ v) by (rewrite <- app_assoc; reflexivity).
                rewrite firstn_app, Nat.sub_diag, firstn_all, firstn_O, app_nil_r. reflexivity. }
              assert (skipn (S j) r = v) as ->.
              { rewrite Huv, <- Hul. replace (S (length u)) with (length (u ++ [x])) by (rewrite app_length; simpl; lia).
                replace (u ++ x :: v) with ((u ++ [x]) ++ v) by (rewrite <- app_assoc; reflexivity).
                rewrite skipn_app, Nat.sub_diag, skipn_all. reflexivity. }
              rewrite <- app_assoc. f_equal. rewrite app_assoc, (app_length _ [x]). reflexivity. }
         - lia.
         - unfold Inv2. rewrite firstn_O, app_nil_r, skipn_O, Hfi, Hsi. cbn [concat]. rewrite app_length. reflexivity.
         - rewrite E2. eexists; split; [reflexivity|]. unfold Inv. rewrite HI2.
           rewrite firstn_all, skipn_all, HfS, HsS, concat_app. cbn [concat length Nat.add]. rewrite app_nil_r. reflexivity. }
    - lia.
    - unfold Inv. cbn [firstn skipn concat map length app]. rewrite (q_nnz _ _ HR). reflexivity.
    - rewrite E. cbn [bind]. unfold Inv in HI. rewrite <- (q_nr _ _ HR) in HI. rewrite firstn_all, skipn_all in HI.
      cbn [concat length alloc repeat] in HI. rewrite app_nil_r in HI. subst st.
      clear E.
      pose (Inv2 := fun i (st : buf nat * nat) =>
        st = (map Some (removelast (offs 0 (firstn i rows))) ++ alloc (S (length rows - i)), length (concat (firstn i rows)))).
      loop_inv Inv2 st2 E2 HI2.
      3: { intros i st0 Hi ->.
         destruct (nth_error rows i) as [r|] eqn:Er;
           [|apply nth_error_None in Er; rewrite (q_nr _ _ HR) in Er; lia].
         destruct (q_row _ _ HR _ _ Er) as (c & l & ib & Ec & El & Ei & [Hc (ji & Hib) _]).
         assert (Hro : forall x rs, length (removelast (offs x rs)) = length rs).
         { intros x rs. pose proof (f_equal (@length _) (offs_last_init rs x)) as HH.
           rewrite offs_length, app_length in HH. simpl in HH. lia. }
         assert (i < length rows) by (rewrite (q_nr _ _ HR); lia).
         replace (length rows - i) with (S (length rows - S i)) by lia.
         rewrite wr_next_at by (rewrite Hro, firstn_length; lia). cbn [bind].
         rewrite (aget_ok _ _ _ Ec). cbn [bind]. eexists; split; [reflexivity|].
         pose proof (nth_error_split _ _ Er) as (a & b & Hab & Hlen).
         assert (Hfi : firstn i rows = a).
         { rewrite Hab, <- Hlen, firstn_app, Nat.sub_diag, firstn_all, firstn_O, app_nil_r. reflexivity. }
         assert (HfS : firstn (S i) rows = a ++ [r]).
         { rewrite Hab, <- Hlen. replace (S (length a)) with (length (a ++ [r])) by (rewrite app_length; simpl; lia).
           replace (a ++ r :: b) with ((a ++ [r]) ++ b) by (rewrite <- app_assoc; reflexivity).
           rewrite firstn_app, Nat.sub_diag, firstn_all, firstn_O, app_nil_r. reflexivity. }
         unfold Inv2. rewrite HfS, Hfi, offs_app. cbn [offs Nat.add].
         rewrite removelast_app by discriminate. cbn [removelast].
         replace (length rows - i) with (S (length rows - S i)) by lia.
         rewrite (concat_app a [r]). cbn [concat]. rewrite app_nil_r, app_length, Hc. reflexivity. }
      + lia.
      + unfold Inv2. cbn [firstn offs removelast map app concat length]. rewrite Nat.sub_0_r.
        rewrite (q_nr _ _ HR), Nat.add_1_r. reflexivity.
      + rewrite E2. cbn [bind]. unfold Inv2 in HI2. rewrite <- (q_nr _ _ HR) in *. rewrite firstn_all, Nat.sub_diag in HI2.
        subst st2. 
        assert (Hro : forall x rs, length (removelast (offs x rs)) = length rs).
        { intros x rs. pose proof (f_equal (@length _) (offs_last_init rs x)) as HH.
          rewrite offs_length, app_length in HH. simpl in HH. lia. }
        rewrite wr_next_at by (rewrite Hro; reflexivity). cbn [bind alloc repeat]. rewrite app_nil_r.
        rewrite (offs_last_init rows 0) at 2. reflexivity.
  Qed.
End S.
