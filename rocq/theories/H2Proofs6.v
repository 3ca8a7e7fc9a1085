(** Proofs about the conversion of hierarchical matrices to dense arrays. *)
From Verif Require Import Util Lin SparsitySpec CSRModel CSRSpec CSRProofs TriModel TriSpec TriProofs TriProofs2 OpsProofs DenseModel DenseSpec DenseProofs OpsProofs3.
From Verif Require Import H2Model H2Spec H2Proofs H2Proofs2 H2Proofs3 H2Proofs4.
Set Default Proof Using "Type".
Local Open Scope nat_scope.

Lemma tdofs_node n cs : cs <> [] -> tdofs (HNode n cs) = flat_map tdofs cs.
Proof. destruct cs; [congruence|auto]. Qed.

Lemma fold_add_sum l : forall a, fold_left Nat.add l a = a + fold_left Nat.add l 0.
Proof. induction l as [|b l IH]; intros a; cbn [fold_left]; [lia|]. rewrite (IH (a + b)), (IH (0 + b)). lia. Qed.

Lemma num_dofs_ok t : num_dofs t = length (tdofs t).
Proof.
  induction t as [n cs IH] using hnode_ind'. destruct cs as [|c0 l0]; [reflexivity|].
  rewrite tdofs_node by discriminate. change (num_dofs (HNode n (c0 :: l0))) with (fold_left Nat.add (map num_dofs (c0 :: l0)) 0).
  set (l := c0 :: l0) in *. clearbody l. induction l as [|c l IHl]; [reflexivity|]. cbn [map fold_left flat_map].
  rewrite fold_add_sum, app_length, <- IHl, IH; [reflexivity|left; auto|]. intros c' Hc. apply IH. right; auto.
Qed.

(** The basis vanishes for other degrees of freedom. *)
Lemma bas_out comp t : forall d i, ~ In d (tdofs t) -> bas comp t d i = 0%Qc.
Proof.
  induction t as [n cs IH] using hnode_ind'. intros d i H. destruct cs as [|c0 l0].
  - cbn [bas tdofs] in *. apply sumf_zero. intros k Hk. destruct (Nat.eqb_spec (nth k (ldofs n) 0) d) as [<-|]; auto.
    exfalso. apply H. apply nth_In. auto.
  - rewrite tdofs_node in H by discriminate. change (bas comp (HNode n (c0 :: l0)) d i)
      with (suml (map (fun c => sumf (ksize (inf c)) (fun j => bas comp c d j * tmat (inf c) i j)%Qc) (c0 :: l0))).
    apply suml_map_zero. intros c Hc. apply sumf_zero. intros j Hj. rewrite IH; [ring|auto|].
    intros Hd. apply H. apply in_flat_map. exists c. auto.
Qed.

Lemma array_upd n m a A r c v : array_of n m a A -> r < n -> c < m ->
  array_of n m (upd a (r * m + c) v) (fun r' c' => if (r' =? r) && (c' =? c) then v else A r' c').
Proof.
  intros (Hl & H) Hr Hc. split; [rewrite upd_length; auto|]. intros r' c' Hr' Hc'. unfold vat.
  destruct (Nat.eqb_spec r' r) as [->|Nr]; cbn [andb].
  - destruct (Nat.eqb_spec c' c) as [->|Nc].
    + apply nth_upd_eq. rewrite Hl. apply ix_lt; auto.
    + rewrite nth_upd_neq; [apply H; auto|]. lia.
  - rewrite nth_upd_neq; [apply H; auto|]. intros E. apply ix_inj in E; auto. lia.
Qed.
Lemma array_ext n m a A B : array_of n m a A -> (forall r c, r < n -> c < m -> A r c = B r c) -> array_of n m a B.
Proof. intros (Hl & H) E. split; auto. intros. rewrite H; auto. Qed.
Lemma array_dmat n m a A r c : array_of n m a A -> r < n -> c < m -> dmat (Dense n m a) r c = A r c.
Proof. intros (_ & H) Hr Hc. unfold dmat. cbn [d_data d_m]. auto. Qed.
Lemma array_wf n m a A : array_of n m a A -> wf_dense n m (Dense n m a).
Proof. intros (Hl & _). repeat split; auto. Qed.

(** A block of a node: its degrees of freedom and the basis. *)
Definition block_right (s : hnode) (b : block) : Prop :=
  snd b = tdofs s /\ wf_dense (length (tdofs s)) (ksize (inf s)) (fst b) /\
  forall k i, k < length (tdofs s) -> i < ksize (inf s) -> dmat (fst b) k i = bas 0 s (nth k (tdofs s) 0) i.

Section Rows.
  Variables (nd sz : nat) (T : dense) (b : block) (c : hnode).
  Hypothesis (HT : wf_dense sz (ksize (inf c)) T) (Hb : block_right c b).

  Lemma append_rows_ok (tr : list Qc) (F : mat) (ds : list nat) : array_of nd sz tr F -> length ds + length (tdofs c) <= nd ->
    (forall r m, length ds <= r -> F r m = 0%Qc) ->
    exists tr', append_rows nd sz T b (map Some tr, map Some ds ++ alloc (nd - length ds), length ds)
      = Ok (map Some tr', map Some (ds ++ tdofs c) ++ alloc (nd - length (ds ++ tdofs c)), length (ds ++ tdofs c)) /\
      array_of nd sz tr' (fun r m => if (length ds <=? r) && (r <? length ds + length (tdofs c))
         then sumf (ksize (inf c)) (fun j => bas 0%nat c (nth (r - length ds)%nat (tdofs c) 0%nat) j * dmat T m j)%Qc else F r m).
  Proof using HT Hb.
    intros Ha Hnd HF. destruct Hb as (Hd & Wb & Hv). unfold append_rows. rewrite Hd.
    set (val := fun i m => sumf (ksize (inf c)) (fun j => bas 0%nat c (nth i (tdofs c) 0%nat) j * dmat T m j)%Qc).
    destruct (for_range_inv (fun i (st : buf Qc * buf nat * nat) => exists tr',
        st = (map Some tr', map Some (ds ++ firstn i (tdofs c)) ++ alloc (nd - (length ds + i)), length ds + i) /\
        array_of nd sz tr' (fun r m => if (length ds <=? r) && (r <? length ds + i) then val (r - length ds) m else F r m))
      (fun i '(transfers, dofs, k) =>
        dof <- aget (tdofs c) i ;;
        dofs' <- wr dofs k dof ;;
        transfers' <- for_range 0 sz (fun m tr =>
          for_range 0 (d_m T) (fun j tr =>
            p <- ix nd sz k m ;; a <- dget (fst b) i j ;; t <- dget T m j ;; addto tr p (a * t)%Qc) tr) transfers ;;
        Ok (transfers', dofs', S k)) 0 (length (tdofs c)) (map Some tr, map Some ds ++ alloc (nd - length ds), length ds)) as (st & E & tr' & -> & H).
    - lia.
    - exists tr. cbn [firstn]. rewrite app_nil_r, Nat.add_0_r. split; [auto|]. apply (array_ext _ _ _ _ _ Ha). intros r m Hr Hm.
      assert ((length ds <=? r) && (r <? length ds) = false) as ->; [|auto].
      destruct (Nat.leb_spec (length ds) r), (Nat.ltb_spec r (length ds)); auto; lia.
    - intros i st Hi (tr1 & -> & H1). rewrite (aget_nth _ _ 0) by lia. cbn [bind].
      assert (Hl : length (ds ++ firstn i (tdofs c)) = length ds + i) by (rewrite app_length, firstn_length; lia).
      replace (nd - (length ds + i)) with (S (nd - (length ds + S i))) by lia.
      rewrite (wr_next_at (ds ++ firstn i (tdofs c))) by lia. cbn [bind].
      destruct (for_range_inv (fun m (b : buf Qc) => exists tr2, b = map Some tr2 /\
          array_of nd sz tr2 (fun r m' => if (r =? length ds + i) && (m' <? m) then val i m' else
             if (length ds <=? r) && (r <? length ds + i) then val (r - length ds) m' else F r m'))
        (fun m tr => for_range 0 (d_m T) (fun j tr =>
            p <- ix nd sz (length ds + i) m ;; a <- dget (fst b) i j ;; t <- dget T m j ;; addto tr p (a * t)%Qc) tr)
        0 sz (map Some tr1)) as (b2 & E2 & tr2 & -> & H2).
      + lia.
      + exists tr1. split; [auto|]. apply (array_ext _ _ _ _ _ H1). intros r m Hr Hm. rewrite Bool.andb_false_r. auto.
      + intros m b2 Hm (tr2 & -> & H2).
        assert (d_m T = ksize (inf c)) as -> by apply HT.
        destruct (for_range_inv (fun j (b : buf Qc) => exists tr3, b = map Some tr3 /\
            array_of nd sz tr3 (fun r m' => if (r =? length ds + i) && (m' =? m) then sumf j (fun j => bas 0%nat c (nth i (tdofs c) 0%nat) j * dmat T m j)%Qc else
               if (r =? length ds + i) && (m' <? m) then val i m' else
               if (length ds <=? r) && (r <? length ds + i) then val (r - length ds) m' else F r m'))
          (fun j tr => p <- ix nd sz (length ds + i) m ;; a <- dget (fst b) i j ;; t <- dget T m j ;; addto tr p (a * t)%Qc)
          0 (ksize (inf c)) (map Some tr2)) as (b3 & E3 & tr3 & -> & H3).
        * lia.
        * exists tr2. split; [auto|]. apply (array_ext _ _ _ _ _ H2). intros r m' Hr Hm'.
          destruct (Nat.eqb_spec r (length ds + i)) as [->|]; cbn [andb]; auto.
          destruct (Nat.eqb_spec m' m) as [->|]; cbn [andb]; auto. rewrite Nat.ltb_irrefl. cbn [sumf].
          assert (length ds + i <? length ds + i = false) as -> by apply Nat.ltb_irrefl. rewrite Bool.andb_false_r. apply HF. lia.
        * intros j b3 Hj (tr3 & -> & H3). rewrite ix_ok by lia. cbn [bind].
          rewrite (dget_ok _ _ _ i j Wb), (dget_ok _ _ _ m j HT) by lia. cbn [bind].
          rewrite addto_ok by (destruct H3 as (-> & _); apply ix_lt; lia).
          eexists; split; [reflexivity|]. eexists; split; [reflexivity|].
          apply (array_ext _ _ _ _ _ (array_upd _ _ _ _ (length ds + i) m _ H3 ltac:(lia) ltac:(lia))).
          intros r m' Hr Hm'. destruct (Nat.eqb_spec r (length ds + i)) as [->|]; cbn [andb]; auto.
          destruct (Nat.eqb_spec m' m) as [->|]; cbn [andb]; auto.
          rewrite (proj2 H3) by lia. rewrite !Nat.eqb_refl. cbn [andb sumf]. rewrite Hv by lia. auto.
        * rewrite E3. eexists; split; [reflexivity|]. exists tr3. split; [auto|]. apply (array_ext _ _ _ _ _ H3).
          intros r m' Hr Hm'. destruct (Nat.eqb_spec r (length ds + i)) as [->|]; cbn [andb]; auto.
          destruct (Nat.eqb_spec m' m) as [->|]; cbn [andb].
          -- assert (m <? S m = true) as -> by (apply Nat.ltb_lt; lia). auto.
          -- assert (m' <? S m = (m' <? m)) as -> by (destruct (Nat.ltb_spec m' (S m)), (Nat.ltb_spec m' m); auto; lia). auto.
      + rewrite E2. cbn [bind]. eexists; split; [reflexivity|]. exists tr2. split.
        * f_equal; [|lia]. f_equal. f_equal. f_equal. rewrite <- app_assoc. f_equal.
          symmetry. apply cut_at. apply nth_error_nth'. lia.
        * apply (array_ext _ _ _ _ _ H2). intros r m Hr Hm. destruct (Nat.eqb_spec r (length ds + i)) as [->|]; cbn [andb].
          -- assert (m <? sz = true) as -> by (apply Nat.ltb_lt; lia).
             assert (length ds <=? length ds + i = true) as -> by (apply Nat.leb_le; lia).
             assert (length ds + i <? length ds + S i = true) as -> by (apply Nat.ltb_lt; lia). cbn [andb]. f_equal. lia.
          -- assert (r <? length ds + S i = (r <? length ds + i)) as -> by (destruct (Nat.ltb_spec r (length ds + S i)), (Nat.ltb_spec r (length ds + i)); auto; lia). auto.
    - exists tr'. rewrite E. rewrite firstn_all in *. rewrite app_length in *. split; [auto|]. exact H.
  Qed.
End Rows.
