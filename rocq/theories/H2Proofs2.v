(** Proofs about the downward pass, the far field and the products. *)
From Verif Require Import Util Lin SparsitySpec CSRModel CSRSpec CSRProofs TriModel TriSpec TriProofs TriProofs2 OpsProofs DenseModel DenseSpec DenseProofs OpsProofs3.
From Verif Require Import H2Model H2Spec H2Proofs.
Set Default Proof Using "Type".
Local Open Scope nat_scope.

Lemma suml_map_ext {A} (l : list A) f g : (forall a, In a l -> f a = g a) -> suml (map f l) = suml (map g l).
Proof. intros H. f_equal. apply map_ext_in; auto. Qed.
Lemma suml_swap {A B} (l : list A) (r : list B) (f : A -> B -> Qc) :
  suml (map (fun a => suml (map (f a) r)) l) = suml (map (fun b => suml (map (fun a => f a b) l)) r).
Proof.
  induction l as [|a l IH]; cbn [map suml].
  - symmetry. apply suml_map_zero. auto.
  - rewrite IH, <- suml_map_plus. apply suml_map_ext. auto.
Qed.
Lemma suml_flat_map {A B} (f : A -> list B) (g : B -> Qc) l :
  suml (map g (flat_map f l)) = suml (map (fun a => suml (map g (f a))) l).
Proof. induction l as [|a l IH]; cbn [flat_map map suml]; auto. rewrite map_app, suml_app, IH. auto. Qed.

Section Down.
  Variables (N ncomp comp : nat).
  Hypothesis (Hcomp : comp < ncomp).

  (** Contribution of one node with coefficients [d]. *)
  Definition contrib (s : hnode) (d : list Qc) (r : nat) : Qc := sumf (ksize (inf s)) (fun i => bas comp s r i * vat d i)%Qc.

  Lemma leaf_down_ok n d y : (forall c, In c (ldofs n) -> c < N) -> length (value n) = ncomp ->
    (forall V, In V (value n) -> wf_dense (length (ldofs n)) (ksize n) V) -> length d = ksize n -> length y = N ->
    leaf_down n comp (map Some d) (map Some y) = Ok (map Some (tab N (fun r => vat y r + contrib (HNode n []) d r)%Qc)).
  Proof using Hcomp.
    intros Hd Hv HV Hl Hy. unfold leaf_down.
    destruct (for_list_inv (fun done (st : buf Qc * nat) => exists yl, st = (map Some yl, length done) /\ length yl = N /\
        forall r, r < N -> vat yl r = (vat y r + sumf (length done) (fun k => if (nth k (ldofs n) 0 =? r)%nat then sumf (ksize n) (fun i => leafval n comp k i * vat d i) else 0))%Qc)
      (fun dof '(y, k) =>
        val <- for_range 0 (length (map Some d)) (fun i val => v <- getV n comp k i ;; di <- rd (map Some d) i ;; Ok (val + v * di)%Qc) 0%Qc ;;
        y' <- addto y dof val ;; Ok (y', S k)) (ldofs n) [] (map Some y, 0)) as (st & E & yl & -> & Hyl & R).
    - exists y. split; auto. split; auto. intros r Hr. cbn [length sumf]. ring.
    - intros p c q st Hs (yl & -> & Hyl & R). cbn [app] in *.
      assert (Hk : length p < length (ldofs n)) by (rewrite Hs, app_length; cbn [length]; lia).
      assert (Hn : nth (length p) (ldofs n) 0 = c) by (rewrite Hs, app_nth2, Nat.sub_diag by lia; reflexivity).
      assert (Hc : c < N) by (apply Hd; rewrite Hs; apply in_or_app; right; left; auto).
      rewrite map_length, Hl. rewrite (dot_loop (ksize n) (leafval n comp (length p)) (vat d)).
      2: { intros i s Hi. rewrite (getV_ok N ncomp comp (tab N (fun _ => 0%Qc)) (tab_length _ _) Hcomp) by auto. cbn [bind]. rewrite (rd_some _ _ 0%Qc) by lia. reflexivity. }
      cbn [bind]. rewrite addto_ok by lia. cbn [bind]. eexists; split; [reflexivity|].
      rewrite app_length. cbn [length]. rewrite Nat.add_1_r. eexists; split; [reflexivity|].
      split; [rewrite upd_length; auto|]. intros r Hr. rewrite vat_upd by lia. cbn [sumf]. rewrite Hn.
      destruct (Nat.eqb_spec r c) as [->|Hne].
      + rewrite R, Nat.eqb_refl by auto. ring.
      + rewrite R by auto. assert (c =? r = false) as -> by (apply Nat.eqb_neq; auto). ring.
    - rewrite E. cbn [bind app] in *. do 2 f_equal. apply (eq_tab _ _ _ 0%Qc); auto. intros r Hr. fold (vat yl r). rewrite R by auto. f_equal.
      unfold contrib. cbn [inf bas].
      rewrite (sumf_ext (ksize n) _ (fun i => sumf (length (ldofs n)) (fun k => if (nth k (ldofs n) 0 =? r)%nat then leafval n comp k i * vat d i else 0)%Qc)).
      + rewrite sumf_swap. apply sumf_ext. intros k Hk. destruct (_ =? r)%nat; auto. symmetry. apply sumf_0.
      + intros i Hi. rewrite <- sumf_scal_r. apply sumf_ext. intros k Hk. destruct (_ =? r)%nat; ring.
  Qed.

  (** The heap holds [D] at all nodes of [t]. *)
  Definition holds (t : hnode) (down : heap) (D : nat -> list Qc) : Prop := forall s, In s (nodes t) ->
    down (nid (inf s)) = map Some (D (nid (inf s))) /\ length (D (nid (inf s))) = ksize (inf s).
  Definition total (t : hnode) (D : nat -> list Qc) (r : nat) : Qc := suml (map (fun s => contrib s (D (nid (inf s))) r) (nodes t)).

  Lemma downwardPass_ok t : shaped N ncomp t -> no_taller t -> forall down D y, holds t down D -> length y = N ->
    exists down', downwardPass comp t (down, map Some y) = Ok (down', map Some (tab N (fun r => vat y r + total t D r)%Qc)) /\
      sized t down' /\ (forall k, ~ In k (ids t) -> down' k = down k).
  Proof using Hcomp.
    induction t as [n cs IH] using hnode_ind'. intros Sh Nt down D y HD Hy. destruct cs as [|c0 cs0].
    - cbn [downwardPass fst snd]. destruct (sh_leaf _ _ _ Sh (HNode n []) (node_self _) eq_refl) as (H1 & H2 & H3). cbn [inf] in *.
      destruct (HD (HNode n []) (node_self _)) as (Ed & Ld). cbn [inf] in *. rewrite Ed, leaf_down_ok by auto. cbn [bind].
      exists down. split; [|split; auto].
      + do 3 f_equal. apply tab_ext. intros r Hr. unfold total. cbn [nodes flat_map map suml inf]. ring.
      + intros s [<-|[]]. cbn [inf]. rewrite Ed, map_length. auto.
    - set (cs := c0 :: cs0) in *. assert (Hcs : cs <> []) by discriminate.
      assert (Eup : downwardPass comp (HNode n cs) (down, map Some y) = for_list cs (fun c '(down, y) =>
         T <- getT (inf c) ;; xs <- all_init (down (nid n)) ;; d <- gemvT T xs (down (nid (inf c))) 1%Qc ;;
         downwardPass comp c (hset down (nid (inf c)) d, y)) (down, map Some y)).
      { unfold cs. cbn [downwardPass]. apply for_each_list. }
      rewrite Eup. clear Eup.
      destruct (HD (HNode n cs) (node_self _)) as (Ed & Ld). cbn [inf] in Ed, Ld.
      pose proof (sh_ids _ _ _ Sh) as Nd. change (NoDup (ids (HNode n cs))) in Nd. rewrite ids_eq in Nd.
      assert (Eb : forall r i, bas comp (HNode n cs) r i = suml (map (fun c => sumf (ksize (inf c)) (fun j => bas comp c r j * tmat (inf c) i j)%Qc) cs)).
      { intros r i. unfold cs. cbn [bas]. reflexivity. }
      clearbody cs. apply NoDup_cons_iff in Nd as (Hn & Ndk).
      destruct (for_list_inv (fun done (st : heap * buf Qc) =>
          snd st = map Some (tab N (fun r => vat y r + suml (map (fun c => total c D r + sumf (ksize n) (fun i => sumf (ksize (inf c)) (fun j => bas comp c r j * tmat (inf c) i j) * vat (D (nid n)) i)) done))%Qc) /\
          (forall c s, In c done -> In s (nodes c) -> length (fst st (nid (inf s))) = ksize (inf s)) /\
          (forall k, ~ In k (flat_map ids done) -> fst st k = down k))
        (fun c '(down, y) =>
         T <- getT (inf c) ;; xs <- all_init (down (nid n)) ;; d <- gemvT T xs (down (nid (inf c))) 1%Qc ;;
         downwardPass comp c (hset down (nid (inf c)) d, y)) cs [] (down, map Some y)) as ((h, z) & E & H1 & H2 & H3).
      + cbn [fst snd map suml]. split; [|split; [intros c s []|auto]]. f_equal. apply (eq_tab _ _ _ 0%Qc); auto. intros r Hr. unfold vat. ring.
      + intros p c q (h, z) Hl (H1 & H2 & H3). cbn [fst snd app] in *. subst z.
        assert (Hc : In c cs) by (rewrite Hl; apply in_or_app; right; left; auto).
        pose proof (shaped_kid _ _ _ _ _ Sh Hc) as Shc.
        destruct (sh_transfer _ _ _ Sh (HNode n cs) c (node_self _) Hc) as (T & ET & WT). cbn [inf] in WT.
        pose proof (Nt (HNode n cs) c (node_self _) Hc) as Htall. cbn [inf] in Htall.
        assert (Hdis : forall s, In s (nodes c) -> nid (inf s) <> nid n /\ ~ In (nid (inf s)) (flat_map ids p)).
        { intros s Hin. split.
          - intros E. apply Hn. rewrite <- E. apply (flat_ids_in cs c); auto.
          - intros E. rewrite Hl, flat_map_app in Ndk. cbn [flat_map] in Ndk.
            apply NoDup_app_split in Ndk as (_ & _ & X). apply (X _ E). apply in_or_app. left. apply id_in; auto. }
        assert (Hnp : ~ In (nid n) (flat_map ids p)).
        { intros Hin. apply Hn. rewrite Hl, flat_map_app. apply in_or_app; auto. }
        unfold getT. rewrite ET. cbn [bind]. rewrite (H3 (nid n)) by auto. rewrite Ed, all_init_some. cbn [bind].
        rewrite (H3 (nid (inf c))) by (apply Hdis, node_self).
        destruct (HD c) as (Edc & Ldc); [apply (node_kid (HNode n cs) c); auto; apply node_self|].
        rewrite Edc, (gemvT_add (ksize n) (ksize (inf c))) by auto. cbn [bind].
        set (dc := tab (ksize (inf c)) _).
        set (D' := fun k => if k =? nid (inf c) then dc else D k).
        assert (ND : forall s, In s (nodes c) -> s <> c -> nid (inf s) <> nid (inf c)).
        { intros s Hin Hne E. apply Hne. apply (same_id N ncomp c); auto. apply node_self. }
        destruct (IH c Hc Shc) with (down := hset h (nid (inf c)) (map Some dc)) (D := D')
          (y := tab N (fun r => vat y r + suml (map (fun c => total c D r + sumf (ksize n) (fun i => sumf (ksize (inf c)) (fun j => bas comp c r j * tmat (inf c) i j) * vat (D (nid n)) i)) p))%Qc)
          as (h' & E & S' & O).
        { intros s d Hs Hd. apply Nt; auto. apply (node_kid (HNode n cs) c); auto. }
        { intros s Hs. unfold D'. destruct (Nat.eqb_spec (nid (inf s)) (nid (inf c))) as [Ee|Ne].
          - rewrite Ee, hset_same. split; auto. replace s with c by (apply (same_id N ncomp c); auto; apply node_self).
            unfold dc. apply tab_length.
          - rewrite hset_other by auto. rewrite H3 by (apply Hdis; auto). apply HD. apply (node_kid (HNode n cs) c); auto. }
        { apply tab_length. }
        rewrite E. eexists; split; [reflexivity|]. cbn [fst snd]. split; [|split].
        * f_equal. apply tab_ext. intros r Hr. rewrite vat_tab, map_app, suml_app by auto. cbn [map suml].
          assert (Et : total c D' r = (total c D r + sumf (ksize n) (fun i => sumf (ksize (inf c)) (fun j => bas comp c r j * tmat (inf c) i j) * vat (D (nid n)) i))%Qc).
          { unfold total. destruct c as (m, ds). rewrite nodes_eq. cbn [map suml inf] in *.
            rewrite (suml_map_ext (flat_map nodes ds) (fun s => contrib s (D' (nid (inf s))) r) (fun s => contrib s (D (nid (inf s))) r)).
            - unfold contrib at 1 3. cbn [inf]. unfold D'. rewrite Nat.eqb_refl.
              rewrite (sumf_ext (ksize m) (fun i => (bas comp (HNode m ds) r i * vat dc i)%Qc)
                (fun j => bas comp (HNode m ds) r j * vat (D (nid m)) j + sumf (ksize n) (fun i => bas comp (HNode m ds) r j * tmat m i j * vat (D (nid n)) i))%Qc).
              + rewrite sumf_plus. rewrite (sumf_swap (ksize m) (ksize n)).
                rewrite (sumf_ext (ksize n) (fun j => sumf (ksize m) (fun i => (bas comp (HNode m ds) r i * tmat m j i * vat (D (nid n)) j)%Qc))
                   (fun i => (sumf (ksize m) (fun j => bas comp (HNode m ds) r j * tmat m i j) * vat (D (nid n)) i)%Qc)) by (intros; rewrite sumf_scal_r; auto).
                ring.
              + intros j Hj. unfold dc. rewrite vat_tab by auto. unfold mv, mt, tmat. rewrite ET.
                rewrite (sumf_ext (ksize n) (fun i => (bas comp (HNode m ds) r j * dmat T i j * vat (D (nid n)) i)%Qc) (fun i => (bas comp (HNode m ds) r j * (dmat T i j * vat (D (nid n)) i))%Qc)) by (intros; ring).
                rewrite sumf_scal. ring.
            - intros s Hin. unfold D'. destruct (Nat.eqb_spec (nid (inf s)) (nid m)) as [Ee|]; auto. exfalso.
              pose proof (sh_ids _ _ _ Shc) as Ndc. change (NoDup (ids (HNode m ds))) in Ndc. rewrite ids_eq in Ndc.
              apply NoDup_cons_iff in Ndc as (Hm & _). apply Hm. rewrite <- Ee. apply in_flat_map in Hin as (c1 & Hc1 & Hin). apply (flat_ids_in ds c1); auto. }
          rewrite Et. ring.
        * intros c' s Hin Hs'. apply in_app_or in Hin as [Hin|[<-|[]]]; [|apply S'; auto].
          assert (Hni : ~ In (nid (inf s)) (ids c)).
          { intros Hid. rewrite Hl, flat_map_app in Ndk. cbn [flat_map] in Ndk.
            apply NoDup_app_split in Ndk as (_ & _ & X). apply (X (nid (inf s))); [apply (flat_ids_in p c'); auto|apply in_or_app; auto]. }
          rewrite O by auto. rewrite hset_other; [apply (H2 c'); auto|]. intros Ee. apply Hni. rewrite Ee. apply id_in, node_self.
        * intros k Hno. rewrite flat_map_app in Hno. cbn [flat_map] in Hno. rewrite app_nil_r in Hno.
          assert (~ In k (ids c)) by (intros Hin; apply Hno, in_or_app; auto).
          rewrite O by auto. rewrite hset_other by (intros ->; apply H, id_in, node_self). apply H3. intros Hin; apply Hno, in_or_app; auto.
      + cbn [fst snd app] in *. subst z. exists h. split; [|split].
        * etransitivity; [exact E|]. do 3 f_equal. apply tab_ext. intros r Hr. f_equal. unfold total at 2. rewrite nodes_eq. cbn [map suml inf].
          rewrite suml_flat_map. rewrite suml_map_plus. fold (total).
          rewrite <- (sumf_suml_swap (ksize n) cs (fun i c => (sumf (ksize (inf c)) (fun j => bas comp c r j * tmat (inf c) i j) * vat (D (nid n)) i)%Qc)).
          unfold contrib at 1. cbn [inf].
          rewrite (sumf_ext (ksize n) (fun i => (bas comp (HNode n cs) r i * vat (D (nid n)) i)%Qc)
            (fun i => suml (map (fun c => (sumf (ksize (inf c)) (fun j => bas comp c r j * tmat (inf c) i j) * vat (D (nid n)) i)%Qc) cs))).
          { unfold total. ring. }
          intros i Hi. rewrite Eb. generalize cs. intros l. induction l as [|c l IHl]; cbn [map suml]; [ring|]. rewrite <- IHl. ring.
        * intros s [<-|Hin].
          -- cbn [inf]. rewrite H3 by auto. rewrite Ed, map_length. auto.
          -- apply in_flat_map in Hin as (c & Hc & Hin). apply (H2 c); auto.
        * intros k Hk. rewrite ids_eq in Hk. apply H3. intros Hin; apply Hk; right; auto.
  Qed.
End Down.
