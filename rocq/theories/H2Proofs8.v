(** Proofs about the conversion of hierarchical matrices to dense arrays. *)
From Verif Require Import Util Lin SparsitySpec CSRModel CSRSpec CSRProofs TriModel TriSpec TriProofs TriProofs2 OpsProofs DenseModel DenseSpec DenseProofs OpsProofs3.
From Verif Require Import H2Model H2Spec H2Proofs H2Proofs2 H2Proofs3 H2Proofs4 H2Proofs6 H2Proofs7.
Set Default Proof Using "Type".
Local Open Scope nat_scope.

Definition memb (l : list nat) (r : nat) : bool := existsb (Nat.eqb r) l.
Lemma memb_in l r : memb l r = true <-> In r l.
Proof.
  unfold memb. rewrite existsb_exists. split.
  - intros (x & Hx & E). apply Nat.eqb_eq in E. subst. auto.
  - intros H. exists r. split; auto. apply Nat.eqb_refl.
Qed.
Lemma memb_out l r : memb l r = false <-> ~ In r l.
Proof. rewrite <- memb_in. destruct (memb l r); split; congruence. Qed.
Lemma memb_next l k r : k < length l -> memb (firstn (S k) l) r = (memb (firstn k l) r || (r =? nth k l 0)).
Proof.
  intros H. destruct (cut_at l k (nth k l 0) (nth_error_nth' l 0 H)) as (-> & _ & _). unfold memb. rewrite existsb_app. cbn [existsb].
  rewrite Bool.orb_false_r. auto.
Qed.

Lemma tdofs_lt N nc t : shaped N nc t -> forall s, In s (nodes t) -> forall d, In d (tdofs s) -> d < N.
Proof.
  intros Sh s. induction s as [n cs IH] using hnode_ind'. intros Hs d Hd. destruct cs as [|c0 l0].
  - apply (sh_leaf _ _ _ Sh _ Hs eq_refl). auto.
  - rewrite tdofs_node in Hd by discriminate. apply in_flat_map in Hd as (c & Hc & Hd). apply (IH c Hc); auto.
    apply (nodes_trans t (HNode n (c0 :: l0))); auto. apply (node_kid (HNode n (c0 :: l0)) c c Hc). apply node_self.
Qed.

Section Pair.
  Variables (N nc : nat) (U : hnode).
  Hypothesis (Sh : shaped N nc U) (Hnc : 0 < nc) (Nd : NoDup (tdofs U)).

  Lemma toarray_pair_ok p d arr A : In (p1 p) (nodes U) -> In (p2 p) (nodes U) ->
    wf_dense (ksize (inf (p1 p))) (ksize (inf (p2 p))) (interpolant p) -> dict_right U d -> array_of N N arr A ->
    exists d' arr', toarray_pair N N p (d, arr) = Ok (d', arr') /\ dict_right U d' /\
      array_of N N arr' (fun r c => if memb (tdofs (p1 p)) r && memb (tdofs (p2 p)) c then block_of 0 p r c else A r c).
  Proof using Sh Hnc Nd.
    intros H1 H2 WK Hd HA. unfold toarray_pair.
    destruct (upwardPassMatrix_ok N nc U Sh Hnc Nd (p1 p) H1 d Hd) as (d1 & b1 & E1 & R1 & K1 & G1). rewrite E1. cbn [bind].
    destruct (upwardPassMatrix_ok N nc U Sh Hnc Nd (p2 p) H2 d1 R1) as (d2 & b2 & E2 & R2 & K2 & G2). rewrite E2. cbn [bind].
    rewrite (K2 _ _ G1), G2. destruct b1 as (tr1 & ds1), b2 as (tr2 & ds2). cbn [bind].
    destruct (R2 _ _ H1 (K2 _ _ G1)) as (D1 & W1 & V1). destruct (R2 _ _ H2 G2) as (D2 & W2 & V2). cbn [fst snd] in *. subst ds1 ds2.
    destruct (transp_ok _ _ _ W2) as (t2 & Et & Wt & Vt). rewrite Et. cbn [bind].
    destruct (dot_ok _ _ _ _ _ WK Wt) as (kt & Ek & Wk & Vk). rewrite Ek. cbn [bind].
    destruct (dot_ok _ _ _ _ _ W1 Wk) as (e & Ee & We & Ve). rewrite Ee. cbn [bind].
    set (a1 := tdofs (p1 p)) in *. set (a2 := tdofs (p2 p)) in *.
    assert (Hblk : forall i j, i < length a1 -> j < length a2 -> dmat e i j = block_of 0 p (nth i a1 0) (nth j a2 0)).
    { intros i j Hi Hj. rewrite Ve by auto. unfold block_of. apply sumf_ext. intros a Ha. rewrite V1, Vk by auto. rewrite <- sumf_scal.
      apply sumf_ext. intros b Hb. rewrite Vt, V2 by auto. ring. }
    assert (L1 : forall k, k < length a1 -> nth k a1 0 < N) by (intros; apply (tdofs_lt N nc U Sh (p1 p)); auto; apply nth_In; auto).
    assert (L2 : forall k, k < length a2 -> nth k a2 0 < N) by (intros; apply (tdofs_lt N nc U Sh (p2 p)); auto; apply nth_In; auto).
    destruct (for_range_inv (fun i (arr : list Qc) => array_of N N arr (fun r c => if memb (firstn i a1) r && memb a2 c then block_of 0 p r c else A r c))
      (fun i arr => row <- aget a1 i ;;
        for_range 0 (length a2) (fun j arr => col <- aget a2 j ;; v <- dget e i j ;; q <- ix N N row col ;; aset arr q v) arr)
      0 (length a1) arr) as (arr' & E & H).
    - lia.
    - exact HA.
    - intros i arr0 Hi H0. rewrite (aget_nth _ _ 0) by lia. cbn [bind].
      destruct (for_range_inv (fun j (arr : list Qc) => array_of N N arr (fun r c =>
          if (r =? nth i a1 0) && memb (firstn j a2) c then block_of 0 p r c else if memb (firstn i a1) r && memb a2 c then block_of 0 p r c else A r c))
        (fun j arr => col <- aget a2 j ;; v <- dget e i j ;; q <- ix N N (nth i a1 0) col ;; aset arr q v) 0 (length a2) arr0) as (arr1 & E3 & H3).
      + lia.
      + apply (array_ext _ _ _ _ _ H0). intros r c Hr Hc. rewrite Bool.andb_false_r. auto.
      + intros j arr1 Hj H3. rewrite (aget_nth _ _ 0) by lia. cbn [bind]. rewrite (dget_ok _ _ _ i j We) by lia. cbn [bind].
        rewrite ix_ok by (apply L1 || apply L2; lia). cbn [bind].
        rewrite aset_ok by (destruct H3 as (-> & _); apply ix_lt; (apply L1 || apply L2); lia).
        eexists; split; [reflexivity|].
        apply (array_ext _ _ _ _ _ (array_upd _ _ _ _ (nth i a1 0) (nth j a2 0) _ H3 (L1 i ltac:(lia)) (L2 j ltac:(lia)))).
        intros r c Hr Hc. rewrite memb_next by lia. destruct (Nat.eqb_spec r (nth i a1 0)) as [->|]; cbn [andb]; auto.
        destruct (Nat.eqb_spec c (nth j a2 0)) as [->|].
        * rewrite Bool.orb_true_r. apply Hblk; lia.
        * rewrite Bool.orb_false_r. auto.
      + rewrite E3. eexists; split; [reflexivity|]. apply (array_ext _ _ _ _ _ H3). intros r c Hr Hc. rewrite firstn_all, memb_next by lia.
        destruct (Nat.eqb_spec r (nth i a1 0)) as [->|]; cbn [andb].
        * rewrite Bool.orb_true_r. cbn [andb]. destruct (memb a2 c); auto. rewrite Bool.andb_false_r. auto.
        * rewrite Bool.orb_false_r. auto.
    - rewrite firstn_all in H. rewrite E. cbn [bind]. exists d2, arr'. auto.
  Qed.

  Variables (ps : list pair).
  Hypothesis (Ps : pairs_ok U ps) (Ap : forall i j p q r c, nth_error ps i = Some p -> nth_error ps j = Some q -> covers p r c -> covers q r c -> i = j).

  Lemma same_pair p q r c : In p ps -> In q ps -> covers p r c -> covers q r c -> p = q.
  Proof using Ap.
    intros Hp Hq C1 C2. apply In_nth_error in Hp as (i & Hi). apply In_nth_error in Hq as (j & Hj).
    assert (i = j) as -> by (apply (Ap i j p q r c); auto). congruence.
  Qed.

  (** After some pairs: their blocks, and the initial array elsewhere. *)
  Definition filled (A : mat) (done : list pair) (arr : list Qc) : Prop := exists B, array_of N N arr B /\ forall r c, r < N -> c < N ->
    (forall p, In p done -> covers p r c -> B r c = block_of 0 p r c) /\ ((forall p, In p done -> ~ covers p r c) -> B r c = A r c).

  Lemma pairs_filled A l : (forall p, In p l -> In p ps) -> forall done d arr, (forall p, In p done -> In p ps) -> dict_right U d -> filled A done arr ->
    exists d' arr', for_list l (toarray_pair N N) (d, arr) = Ok (d', arr') /\ dict_right U d' /\ filled A (done ++ l) arr'.
  Proof using Sh Hnc Nd Ps Ap.
    induction l as [|p l IH]; intros Hl done d arr Hdn Hd Hf; cbn [for_list].
    - rewrite app_nil_r. eauto.
    - assert (Hp : In p ps) by (apply Hl; left; auto). destruct (Ps p Hp) as (H1 & H2 & WK). destruct Hf as (B & HB & HBv).
      destruct (toarray_pair_ok p d arr B H1 H2 WK Hd HB) as (d1 & arr1 & E & R1 & A1). rewrite E. cbn [bind].
      replace (done ++ p :: l) with ((done ++ [p]) ++ l) by (rewrite <- app_assoc; auto).
      apply IH; auto.
      + intros q Hq. apply Hl. right; auto.
      + intros q Hq. apply in_app_or in Hq as [Hq|[<-|[]]]; auto.
      + eexists. split; [exact A1|]. intros r c Hr Hc. destruct (HBv r c Hr Hc) as (V1 & V2).
        destruct (memb (tdofs (p1 p)) r && memb (tdofs (p2 p)) c) eqn:Em.
        * apply Bool.andb_true_iff in Em as (M1 & M2). apply memb_in in M1, M2. split.
          -- intros q Hq Cq. assert (q = p) as ->; [|auto]. apply (same_pair q p r c); auto; [|split; auto].
             apply in_app_or in Hq as [Hq|[<-|[]]]; auto.
          -- intros Hn. exfalso. apply (Hn p); [apply in_or_app; right; left; auto|split; auto].
        * assert (Nc : ~ covers p r c).
          { intros (C1 & C2). apply memb_in in C1, C2. rewrite C1, C2 in Em. discriminate. }
          split.
          -- intros q Hq Cq. apply in_app_or in Hq as [Hq|[<-|[]]]; [apply V1; auto|contradiction].
          -- intros Hn. apply V2. intros q Hq. apply Hn. apply in_or_app. auto.
  Qed.
End Pair.

(** The levels. *)
Lemma fold_max_le l : forall a, a <= fold_left Nat.max l a /\ forall x, In x l -> x <= fold_left Nat.max l a.
Proof.
  induction l as [|b l IH]; intros a; cbn [fold_left]; [split; [auto|intros ? []]|].
  destruct (IH (Nat.max a b)) as (H1 & H2). split; [lia|]. intros x [<-|Hx]; [lia|auto].
Qed.
Lemma sorted_keys_in l k : In k (sorted_keys l) <-> In k l.
Proof.
  unfold sorted_keys. rewrite filter_In, in_seq. split.
  - intros (_ & H). apply (memb_in l k). exact H.
  - intros H. split; [|apply (memb_in l k); auto]. pose proof (proj2 (fold_max_le l 0) k H). unfold maxl. lia.
Qed.
Lemma at_level_in P p : NoDup (map (@fst nat (list pair)) P) -> In p (flat_map snd P) -> exists lvl, In lvl (map fst P) /\ In p (at_level P lvl).
Proof.
  induction P as [|(k & l) P IH]; cbn [flat_map map fst snd]; intros Nd H; [destruct H|]. apply NoDup_cons_iff in Nd as (Nn & Nd).
  apply in_app_or in H as [H|H].
  - exists k. split; [left; auto|]. unfold at_level. cbn [find fst]. rewrite Nat.eqb_refl. auto.
  - destruct (IH Nd H) as (lvl & Hl & Hp). exists lvl. split; [right; auto|]. unfold at_level in *. cbn [find fst].
    destruct (Nat.eqb_spec k lvl) as [->|]; [contradiction|auto].
Qed.
Lemma at_level_out P lvl p : In p (at_level P lvl) -> In p (flat_map snd P).
Proof.
  unfold at_level. destruct (find (fun lv => fst lv =? lvl) P) as [lv|] eqn:E; [|intros []]. intros H. apply find_some in E.
  apply in_flat_map. exists lv. tauto.
Qed.

Lemma toarray_thm : forall N M near, wf_h2 N M -> components M = 1 -> NoDup (tdofs (tree M)) -> NoDup (map fst (Pfar M)) -> apart N M ->
  array_of N N near (matrix (Anear M)) -> exists arr, h2_toarray M near = Ok arr /\ array_of N N arr (h2mat M).
Proof.
  intros N M near W Hone Nd Nk (Ap & An) Hnear. destruct (W) as [Wn Sh Ps]. unfold h2_toarray.
  assert (c_nrows (Anear M) = N) as -> by (destruct Wn as (_ & Hl & _); unfold c_nrows; lia).
  assert (c_ncols (Anear M) = N) as -> by apply Wn.
  set (P := Pfar M) in *. set (keys := map fst P) in *.
  destruct (for_list_inv (fun done (st : bdict * list Qc) => dict_right (tree M) (fst st) /\
      filled N (matrix (Anear M)) (flat_map (at_level P) done) (snd st))
    (fun lvl '(d, arr) =>
      '(d1, arr1) <- for_list (at_level P lvl) (toarray_pair N N) (d, arr) ;;
      Ok (fun id => if delNodes (tree M) P (minl keys) (maxl keys) lvl id then None else d1 id, arr1))
    (rev (sorted_keys keys)) [] (fun _ => None, near)) as ((d & arr) & E & _ & B & HB & HBv).
  - cbn [fst snd flat_map]. split; [intros s b _ H; discriminate|]. exists (matrix (Anear M)). split; [auto|].
    intros r c Hr Hc. split; [intros p []|auto].
  - intros p lvl q (d0 & arr0) El (R0 & F0). cbn [fst snd app] in *.
    destruct (pairs_filled N (components M) (tree M) Sh ltac:(lia) Nd (far M) Ps Ap (matrix (Anear M)) (at_level P lvl)
       (fun p => at_level_out P lvl p) (flat_map (at_level P) p) d0 arr0) as (d1 & arr1 & E1 & R1 & F1); auto.
    { intros x Hx. apply in_flat_map in Hx as (l & _ & Hx). apply (at_level_out P l x Hx). }
    rewrite E1. cbn [bind]. eexists; split; [reflexivity|]. cbn [fst snd]. split.
    + intros s b Hs H. destruct (delNodes _ _ _ _ _ _); [discriminate|]. apply R1; auto.
    + rewrite flat_map_app. cbn [flat_map]. rewrite app_nil_r. auto.
  - cbn [app fst snd] in *. exists arr. split.
    + match type of E with ?L = _ => match goal with |- context [for_list ?l ?f ?s] => change (for_list l f s) with L end end. rewrite E. auto.
    + apply (array_ext _ _ _ _ _ HB). intros r c Hr Hc. destruct (HBv r c Hr Hc) as (V1 & V2).
      unfold h2mat, farmat. rewrite Hone. cbn [sumf].
      assert (Hin : forall p, In p (far M) -> In p (flat_map (at_level P) (rev (sorted_keys keys)))).
      { intros p Hp. destruct (at_level_in P p Nk Hp) as (lvl & Hl & Hpl). apply in_flat_map. exists lvl. split; auto.
        apply in_rev. rewrite rev_involutive. apply sorted_keys_in. auto. }
      destruct (existsb (fun p => memb (tdofs (p1 p)) r && memb (tdofs (p2 p)) c) (far M)) eqn:Ex.
      * apply existsb_exists in Ex as (p & Hp & Em). apply Bool.andb_true_iff in Em as (M1 & M2). apply memb_in in M1, M2.
        assert (Cp : covers p r c) by (split; auto). rewrite (V1 p (Hin p Hp) Cp), (An p r c Hp Cp Hr Hc).
        apply In_nth_error in Hp as (i & Hi). apply nth_error_split in Hi as (l1 & l2 & Ef & Hi).
        rewrite Ef, map_app, suml_app. cbn [map suml].
        assert (Z : forall j q, nth_error (far M) j = Some q -> j <> i -> block_of 0 q r c = 0%Qc).
        { intros j q Hj Nj. unfold block_of. destruct (memb (tdofs (p1 q)) r) eqn:Q1.
          - destruct (memb (tdofs (p2 q)) c) eqn:Q2.
            + exfalso. apply Nj. apply (Ap j i q p r c); auto.
              * rewrite Ef, nth_error_app2 by lia. subst i. rewrite Nat.sub_diag. auto.
              * split; apply memb_in; auto.
            + apply memb_out in Q2. apply sumf_zero. intros a Ha. apply sumf_zero. intros b Hb. rewrite (bas_out 0 (p2 q)) by auto. ring.
          - apply memb_out in Q1. apply sumf_zero. intros a Ha. apply sumf_zero. intros b Hb. rewrite (bas_out 0 (p1 q)) by auto. ring. }
        rewrite (suml_map_zero l1), (suml_map_zero l2); [ring| |].
        -- intros q Hq. apply In_nth_error in Hq as (j & Hj). apply (Z (length l1 + S j)); [|lia].
           rewrite Ef, nth_error_app2 by lia. replace (length l1 + S j - length l1) with (S j) by lia. auto.
        -- intros q Hq. apply In_nth_error in Hq as (j & Hj). assert (j < length l1) by (apply nth_error_Some; congruence).
           apply (Z j); [|lia]. rewrite Ef, nth_error_app1 by lia. auto.
      * assert (Hno : forall p, In p (far M) -> ~ covers p r c).
        { intros p Hp (C1 & C2). apply memb_in in C1, C2.
          assert (existsb (fun p => memb (tdofs (p1 p)) r && memb (tdofs (p2 p)) c) (far M) = true); [|congruence].
          apply existsb_exists. exists p. rewrite C1, C2. auto. }
        rewrite V2.
        -- rewrite suml_map_zero; [ring|]. intros p Hp. unfold block_of. apply sumf_zero. intros a Ha. apply sumf_zero. intros b Hb.
           destruct (in_dec Nat.eq_dec r (tdofs (p1 p))) as [C1|C1].
           ++ rewrite (bas_out 0 (p2 p)); [ring|]. intros C2. apply (Hno p Hp). split; auto.
           ++ rewrite (bas_out 0 (p1 p)) by auto. ring.
        -- intros p Hp. apply in_flat_map in Hp as (l & _ & Hp). apply Hno. apply (at_level_out P l p Hp).
Qed.
