(** Proofs about the conversion of hierarchical matrices to dense arrays. *)
From Verif Require Import Util Lin SparsitySpec CSRModel CSRSpec CSRProofs TriModel TriSpec TriProofs TriProofs2 OpsProofs DenseModel DenseSpec DenseProofs OpsProofs3.
From Verif Require Import H2Model H2Spec H2Proofs H2Proofs2 H2Proofs3 H2Proofs4 H2Proofs6.
Set Default Proof Using "Type".
Local Open Scope nat_scope.

(** * Products and transposes *)
Definition grid (n m : nat) (f : mat) : list Qc := flat_map (fun i => map (f i) (seq 0 m)) (seq 0 n).
Lemma grid_S n m f : grid (S n) m f = grid n m f ++ map (f n) (seq 0 m).
Proof. unfold grid. rewrite seq_S, flat_map_app. cbn [flat_map Nat.add]. rewrite app_nil_r. auto. Qed.
Lemma grid_length n m f : length (grid n m f) = n * m.
Proof. induction n as [|n IH]; [auto|]. rewrite grid_S, app_length, IH, map_length, seq_length. lia. Qed.
Lemma grid_array n m f : array_of n m (grid n m f) f.
Proof.
  split; [apply grid_length|]. induction n as [|n IH]; intros r c Hr Hc; [lia|]. rewrite grid_S. unfold vat.
  destruct (Nat.eq_dec r n) as [->|].
  - rewrite app_nth2 by (rewrite grid_length; lia). rewrite grid_length. replace (n * m + c - n * m) with c by lia.
    rewrite (nth_indep _ _ (f n 0)) by (rewrite map_length, seq_length; auto). rewrite map_nth, seq_nth by auto. auto.
  - rewrite app_nth1; [apply IH; auto; lia|]. rewrite grid_length. apply ix_lt; lia.
Qed.

Lemma grid_loop n m (f : mat) (g : nat -> nat -> list Qc -> res (list Qc)) :
  (forall i j acc, i < n -> j < m -> g i j acc = Ok (acc ++ [f i j])) ->
  for_range 0 n (fun i acc => for_range 0 m (g i) acc) [] = Ok (grid n m f).
Proof.
  intros H. destruct (for_range_inv (fun i (acc : list Qc) => acc = grid i m f) (fun i acc => for_range 0 m (g i) acc) 0 n []) as (s & E & ->); auto.
  - lia.
  - intros i acc Hi ->. destruct (for_range_inv (fun j (acc : list Qc) => acc = grid i m f ++ map (f i) (seq 0 j)) (g i) 0 m (grid i m f)) as (s & E & ->).
    + lia.
    + cbn [seq map]. rewrite app_nil_r. auto.
    + intros j acc Hj ->. rewrite H by lia. eexists; split; [reflexivity|]. rewrite seq_S, map_app, app_assoc. auto.
    + rewrite E. eexists; split; [reflexivity|]. rewrite grid_S. auto.
Qed.

Lemma transp_ok n m A : wf_dense n m A -> exists B, transp A = Ok B /\ wf_dense m n B /\ forall i j, i < m -> j < n -> dmat B i j = dmat A j i.
Proof.
  intros WA. unfold transp. destruct (WA) as (-> & -> & _).
  rewrite (grid_loop m n (fun i j => dmat A j i)).
  - cbn [bind]. eexists; split; [reflexivity|]. split; [apply (array_wf _ _ _ _ (grid_array m n _))|].
    intros i j Hi Hj. rewrite (array_dmat _ _ _ _ _ _ (grid_array m n _)); auto.
  - intros i j acc Hi Hj. rewrite (dget_ok n m) by auto. auto.
Qed.
Lemma dot_ok n k m A B : wf_dense n k A -> wf_dense k m B -> exists C, dot A B = Ok C /\ wf_dense n m C /\
  forall i j, i < n -> j < m -> dmat C i j = sumf k (fun l => dmat A i l * dmat B l j)%Qc.
Proof.
  intros WA WB. unfold dot. destruct (WA) as (-> & -> & _). destruct (WB) as (-> & -> & _). rewrite Nat.eqb_refl. cbn [guard bind].
  rewrite (grid_loop n m (fun i j => sumf k (fun l => dmat A i l * dmat B l j)%Qc)).
  - cbn [bind]. eexists; split; [reflexivity|]. split; [apply (array_wf _ _ _ _ (grid_array n m _))|].
    intros i j Hi Hj. rewrite (array_dmat _ _ _ _ _ _ (grid_array n m _)); auto.
  - intros i j acc Hi Hj.
    destruct (for_range_inv (fun l (s : Qc) => s = sumf l (fun l => dmat A i l * dmat B l j)%Qc)
      (fun l s => a <- dget A i l ;; b <- dget B l j ;; Ok (s + a * b)%Qc) 0 k 0%Qc) as (s & E & ->).
    + lia.
    + auto.
    + intros l s Hl ->. rewrite (dget_ok n k), (dget_ok k m) by (auto; lia). cbn [bind sumf]. eauto.
    + rewrite E. auto.
Qed.

Lemma all_init_map {A} (l : list A) : all_init (map Some l) = Ok l.
Proof. apply all_init_some. Qed.

Lemma repeat_some {A} (v : A) k : map Some (repeat v k) = repeat (Some v) k.
Proof. induction k as [|k IH]; cbn [repeat map]; [auto|]. rewrite IH. auto. Qed.

(** * The blocks of the nodes *)
Section Blocks.
  Variables (N nc : nat) (U : hnode).
  Hypothesis (Sh : shaped N nc U) (Hnc : 0 < nc) (Nd : NoDup (tdofs U)).

  Definition dict_right (d : bdict) : Prop := forall s b, In s (nodes U) -> d (nid (inf s)) = Some b -> block_right s b.
  Definition keeps (d d' : bdict) : Prop := forall k b, d k = Some b -> d' k = Some b.

  Lemma flat_nodup {A B} (f : A -> list B) l a : NoDup (flat_map f l) -> In a l -> NoDup (f a).
  Proof.
    induction l as [|x l IH]; cbn [flat_map]; intros H Ha; [destruct Ha|]. apply NoDup_app_split in H as (H1 & H2 & _).
    destruct Ha as [->|Ha]; auto.
  Qed.
  Lemma tdofs_nodup t : NoDup (tdofs t) -> forall s, In s (nodes t) -> NoDup (tdofs s).
  Proof.
    induction t as [n cs IH] using hnode_ind'. intros H s Hs. rewrite nodes_eq in Hs. destruct Hs as [<-|Hs]; [auto|].
    apply in_flat_map in Hs as (c & Hc & Hs). apply (IH c Hc); auto.
    destruct cs as [|c0 l0]; [destruct Hc|]. rewrite tdofs_node in H by discriminate. apply (flat_nodup tdofs (c0 :: l0)); auto.
  Qed.

  (** A degree of freedom belongs to one child. *)
  Lemma bas_child n p c q d m : NoDup (flat_map tdofs (p ++ c :: q)) -> In d (tdofs c) ->
    bas 0 (HNode n (p ++ c :: q)) d m = sumf (ksize (inf c)) (fun j => bas 0%nat c d j * tmat (inf c) m j)%Qc.
  Proof.
    intros H Hd. assert (E : bas 0 (HNode n (p ++ c :: q)) d m
      = suml (map (fun c => sumf (ksize (inf c)) (fun j => bas 0%nat c d j * tmat (inf c) m j)%Qc) (p ++ c :: q))) by (destruct p; reflexivity).
    rewrite E, map_app, suml_app. cbn [map suml]. rewrite flat_map_app in H. cbn [flat_map] in H.
    apply NoDup_app_split in H as (_ & H2 & H3). apply NoDup_app_split in H2 as (_ & _ & H4).
    assert (Z : forall c', ~ In d (tdofs c') -> sumf (ksize (inf c')) (fun j => bas 0%nat c' d j * tmat (inf c') m j)%Qc = 0%Qc).
    { intros c' Hc'. apply sumf_zero. intros j Hj. rewrite bas_out by auto. ring. }
    rewrite (suml_map_zero p), (suml_map_zero q); [ring| |].
    - intros c' Hc'. apply Z. intros Hi. apply (H4 d); auto. apply in_flat_map. eauto.
    - intros c' Hc'. apply Z. intros Hi. apply (H3 d); [apply in_flat_map; eauto|]. apply in_or_app. auto.
  Qed.

  Lemma bset_right d s b : dict_right d -> In s (nodes U) -> block_right s b -> dict_right (bset d (nid (inf s)) b).
  Proof using Sh.
    intros H Hs Hb s' b' Hs' E. unfold bset in E. destruct (Nat.eqb_spec (nid (inf s')) (nid (inf s))) as [Ee|].
    - injection E as <-. assert (s' = s) as -> by (apply (same_id N nc U); auto). auto.
    - apply H; auto.
  Qed.

  Lemma upwardPassMatrix_ok t : In t (nodes U) -> forall d, dict_right d ->
    exists d' b, upwardPassMatrix t d = Ok d' /\ dict_right d' /\ keeps d d' /\ d' (nid (inf t)) = Some b.
  Proof using Sh Hnc Nd.
    induction t as [n cs IH] using hnode_ind'. intros Ht d Hd.
    pose proof (tdofs_nodup U Nd _ Ht) as Nt.
    destruct cs as [|c0 l0].
    - cbn [upwardPassMatrix inf] in *. destruct (d (nid n)) as [b|] eqn:Ed.
      + exists d, b. split; [auto|]. split; [auto|]. split; [intros k b' Hb; auto|auto].
      + destruct (sh_leaf _ _ _ Sh _ Ht eq_refl) as (_ & Hv & HV). cbn [inf] in *. rewrite (aget_nth _ _ (Dense 0 0 [])) by lia. cbn [bind].
        eexists. eexists. split; [reflexivity|]. split; [|split].
        * apply (bset_right d (HNode n [])); auto. split; [auto|]. cbn [fst snd tdofs inf] in *. split; [apply HV, nth_In; lia|].
          intros k i Hk Hi. cbn [bas]. symmetry. rewrite (sumf_single _ _ k Hk).
          -- rewrite Nat.eqb_refl. auto.
          -- intros k' Hk' Nk. destruct (Nat.eqb_spec (nth k' (ldofs n) 0) (nth k (ldofs n) 0)) as [E|]; auto.
             exfalso. apply Nk. apply (NoDup_nth (ldofs n) 0); auto.
        * intros k b Hb. unfold bset. destruct (Nat.eqb_spec k (nid n)) as [->|]; [congruence|auto].
        * unfold bset. rewrite Nat.eqb_refl. auto.
    - change (inf (HNode n (c0 :: l0))) with n.
      set (cs := c0 :: l0) in *. assert (Hne : cs <> []) by discriminate.
      assert (EU : upwardPassMatrix (HNode n cs) d = match d (nid n) with Some _ => Ok d | None =>
        '(d1, st) <- for_each (fun c '(d, st) =>
          d1 <- (match d (nid (inf c)) with Some _ => Ok d | None => upwardPassMatrix c d end) ;;
          b <- (match d1 (nid (inf c)) with Some b => Ok b | None => Err EKey end) ;;
          T <- getT (inf c) ;;
          st' <- append_rows (num_dofs (HNode n cs)) (ksize n) T b st ;;
          Ok (d1, st')) cs (d, (repeat (Some 0%Qc) (num_dofs (HNode n cs) * ksize n), alloc (num_dofs (HNode n cs)), 0)) ;;
        tr <- all_init (fst (fst st)) ;;
        dofs <- all_init (snd (fst st)) ;;
        Ok (bset d1 (nid n) (Dense (num_dofs (HNode n cs)) (ksize n) tr, dofs)) end) by reflexivity.
      rewrite EU. clear EU. destruct (d (nid n)) as [b|] eqn:Ed.
      { exists d, b. split; [auto|]. split; [auto|]. split; [intros k b' Hb; auto|auto]. }
      rewrite num_dofs_ok. set (nd := length (tdofs (HNode n cs))).
      rewrite for_each_list. assert (Et : tdofs (HNode n cs) = flat_map tdofs cs) by (apply tdofs_node; auto).
      destruct (for_list_inv (fun done (s : bdict * (buf Qc * buf nat * nat)) => dict_right (fst s) /\ keeps d (fst s) /\ exists tr,
          snd s = (map Some tr, map Some (flat_map tdofs done) ++ alloc (nd - length (flat_map tdofs done)), length (flat_map tdofs done)) /\
          array_of nd (ksize n) tr (fun r m => if r <? length (flat_map tdofs done) then bas 0 (HNode n cs) (nth r (tdofs (HNode n cs)) 0) m else 0%Qc))
        (fun c '(d, st) =>
          d1 <- (match d (nid (inf c)) with Some _ => Ok d | None => upwardPassMatrix c d end) ;;
          b <- (match d1 (nid (inf c)) with Some b => Ok b | None => Err EKey end) ;;
          T <- getT (inf c) ;;
          st' <- append_rows nd (ksize n) T b st ;;
          Ok (d1, st')) cs [] (d, (repeat (Some 0%Qc) (nd * ksize n), alloc nd, 0))) as ((d1 & st) & E & H1 & H2 & tr & Est & H3).
      + cbn [fst snd flat_map length]. split; [auto|]. split; [intros k b Hb; auto|]. exists (repeat 0%Qc (nd * ksize n)).
        split; [cbn [map app]; rewrite Nat.sub_0_r, repeat_some; auto|]. split; [apply repeat_length|].
        intros r m Hr Hm. cbn [Nat.ltb Nat.leb]. unfold vat. apply nth_repeat.
      + intros p c q (d1 & st) El (H1 & H2 & tr & E & H3). cbn [fst snd app] in *. subst st.
        assert (Hc : In c cs) by (rewrite El; apply in_or_app; right; left; auto).
        assert (Hcu : In c (nodes U)) by (apply (nodes_trans U (HNode n cs)); auto; apply (node_kid (HNode n cs) c c Hc); apply node_self).
        assert (exists d2 b, (match d1 (nid (inf c)) with Some _ => Ok d1 | None => upwardPassMatrix c d1 end) = Ok d2 /\ dict_right d2 /\ keeps d1 d2 /\ d2 (nid (inf c)) = Some b) as (d2 & b & E2 & R2 & K2 & Eb).
        { destruct (d1 (nid (inf c))) as [b|] eqn:E1; [|apply IH; auto]. exists d1, b. split; [auto|]. split; [auto|]. split; [intros k b' Hb; auto|auto]. }
        rewrite E2. cbn [bind]. rewrite Eb. cbn [bind].
        destruct (sh_transfer _ _ _ Sh (HNode n cs) c Ht Hc) as (T & ET & WT). unfold getT. rewrite ET. cbn [bind].
        assert (Lt : tdofs (HNode n cs) = flat_map tdofs p ++ tdofs c ++ flat_map tdofs q) by (rewrite Et, El, flat_map_app; auto).
        destruct (append_rows_ok nd (ksize n) T b c WT (R2 c b Hcu Eb) tr _ (flat_map tdofs p) H3) as (tr' & E3 & H4).
        { unfold nd. rewrite Lt, !app_length. lia. }
        { intros r m Hr. destruct (Nat.ltb_spec r (length (flat_map tdofs p))); auto; lia. }
        rewrite E3. cbn [bind]. eexists; split; [reflexivity|]. cbn [fst snd]. split; [auto|]. split; [intros k b' Hb; auto|].
        rewrite flat_map_app. cbn [flat_map]. rewrite app_nil_r. exists tr'. split; [auto|].
        apply (array_ext _ _ _ _ _ H4). intros r m Hr Hm. rewrite app_length.
        destruct (Nat.leb_spec (length (flat_map tdofs p)) r) as [Hle|Hlt]; cbn [andb].
        * destruct (Nat.ltb_spec r (length (flat_map tdofs p) + length (tdofs c))) as [Hr2|Hr2].
          -- assert (En : nth r (tdofs (HNode n cs)) 0 = nth (r - length (flat_map tdofs p)) (tdofs c) 0).
             { rewrite Lt, app_nth2 by lia. rewrite app_nth1 by lia. auto. }
             rewrite En. rewrite Et in Nt. rewrite El in Nt |- *. rewrite (bas_child n p c q).
             ++ unfold tmat. rewrite ET. auto.
             ++ auto.
             ++ apply nth_In. lia.
          -- destruct (Nat.ltb_spec r (length (flat_map tdofs p))); auto; lia.
        * assert (r <? length (flat_map tdofs p) = true) as -> by (apply Nat.ltb_lt; lia).
          assert (r <? length (flat_map tdofs p) + length (tdofs c) = true) as -> by (apply Nat.ltb_lt; lia). auto.
      + cbn [app fst snd] in *. subst st.
        match type of E with ?L = _ => match goal with |- context [for_list cs ?f ?s] => change (for_list cs f s) with L end end.
        rewrite E. cbn [bind fst snd]. rewrite all_init_map. cbn [bind].
        rewrite <- Et in *. fold nd in H3 |- *. rewrite Nat.sub_diag. change (@alloc nat 0) with (@nil (option nat)). rewrite app_nil_r, all_init_map. cbn [bind].
        eexists. eexists. split; [reflexivity|]. split; [|split].
        * apply (bset_right d1 (HNode n cs)); auto. split; [auto|]. cbn [fst snd inf]. split; [apply (array_wf _ _ _ _ H3)|].
          intros k i Hk Hi. rewrite (array_dmat _ _ _ _ _ _ H3) by auto.
          assert (k <? nd = true) as -> by (apply Nat.ltb_lt; auto). auto.
        * intros k b Hb. unfold bset. destruct (Nat.eqb_spec k (nid n)) as [->|]; [congruence|auto].
        * unfold bset. rewrite Nat.eqb_refl. auto.
  Qed.
End Blocks.
