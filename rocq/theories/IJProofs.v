(** Proofs about IJOperator. *)
From Coq Require Import Sorted Permutation.
From Verif Require Import Util Lin SparsitySpec CSRModel CSRSpec CSRProofs Rows SSSProofs OpsProofs OpsProofs2 OpsProofs3.
From Verif Require Import IJModel IJSpec.
Set Default Proof Using "Type".
Local Open Scope nat_scope.

(** * Keys *)
Lemma encode_small I J : (Z.of_nat I < 2 ^ 31)%Z -> (Z.of_nat J < 2 ^ 31)%Z -> encode I J = (MAX_VAL * Z.of_nat I + Z.of_nat J)%Z.
Proof. intros HI HJ. unfold encode. apply Z.mod_small. unfold MAX_VAL. change (2 ^ 31)%Z with 2147483648%Z in *. change (2 ^ 64)%Z with 18446744073709551616%Z. nia. Qed.
Lemma rowOf_encode I J : (Z.of_nat I < 2 ^ 31)%Z -> (Z.of_nat J < 2 ^ 31)%Z -> rowOf (encode I J) = I.
Proof.
  intros HI HJ. rewrite encode_small by auto. unfold rowOf. rewrite Z.mul_comm, Z.div_add_l by (unfold MAX_VAL; lia).
  rewrite Z.div_small, Z.add_0_r, Nat2Z.id by (unfold MAX_VAL; lia). auto.
Qed.
Lemma colOf_encode I J : (Z.of_nat I < 2 ^ 31)%Z -> (Z.of_nat J < 2 ^ 31)%Z -> colOf (encode I J) = J.
Proof.
  intros HI HJ. rewrite encode_small by auto. unfold colOf. rewrite Z.add_comm, Z.mul_comm, Z.mod_add by (unfold MAX_VAL; lia).
  rewrite Z.mod_small, Nat2Z.id by (unfold MAX_VAL; lia). auto.
Qed.
Lemma encode_inj I J I' J' : (Z.of_nat I < 2 ^ 31)%Z -> (Z.of_nat J < 2 ^ 31)%Z -> (Z.of_nat I' < 2 ^ 31)%Z -> (Z.of_nat J' < 2 ^ 31)%Z ->
  encode I J = encode I' J' -> I = I' /\ J = J'.
Proof.
  intros A B C D E. split.
  - rewrite <- (rowOf_encode I J), E by auto. apply rowOf_encode; auto.
  - rewrite <- (colOf_encode I J), E by auto. apply colOf_encode; auto.
Qed.

(** * Dictionaries *)
Lemma get_set d k v k' : dict_get (dict_set d k v) k' = if (k =? k')%Z then v else dict_get d k'.
Proof.
  induction d as [|(a, b) d IH]; cbn [dict_set dict_get]; [reflexivity|].
  destruct (Z.eqb_spec a k) as [->|Ha]; cbn [dict_get].
  - destruct (k =? k')%Z; reflexivity.
  - rewrite IH. destruct (Z.eqb_spec a k'), (Z.eqb_spec k k'); congruence.
Qed.
Lemma del_keys d k x : NoDup (map fst d) -> (In x (map fst (dict_del d k)) <-> In x (map fst d) /\ x <> k).
Proof.
  induction d as [|(a, b) d IH]; cbn [dict_del map fst]; intros H; [firstorder|]. inversion H as [|? ? Hn Hd]; subst.
  destruct (Z.eqb_spec a k) as [->|Ha]; cbn [map fst In].
  - split; [intros Hx; split; auto; intros ->; auto|intros ([<-|Hx] & Hne); auto; congruence].
  - rewrite IH by auto. split; [intros [<-|(Hx & Hne)]; auto|intros ([<-|Hx] & Hne); auto].
Qed.
Lemma del_nodup d k : NoDup (map fst d) -> NoDup (map fst (dict_del d k)).
Proof.
  induction d as [|(a, b) d IH]; cbn [dict_del map fst]; intros H; auto. inversion H as [|? ? Hn Hd]; subst.
  destruct (Z.eqb_spec a k) as [->|Ha]; auto. cbn [map fst]. constructor; auto. intros Hx. apply del_keys in Hx; tauto.
Qed.
Lemma get_del d k k' : NoDup (map fst d) -> dict_get (dict_del d k) k' = if (k =? k')%Z then 0%Qc else dict_get d k'.
Proof.
  induction d as [|(a, b) d IH]; cbn [dict_del dict_get map fst]; intros H; [destruct (k =? k')%Z; auto|]. inversion H as [|? ? Hn Hd]; subst.
  destruct (Z.eqb_spec a k) as [->|Ha].
  - destruct (Z.eqb_spec k k') as [->|]; auto.
    clear -Hn. induction d as [|(a, b') d IH]; cbn [dict_get map fst] in *; auto.
    destruct (Z.eqb_spec a k') as [->|]; [exfalso; apply Hn; left; auto|]. apply IH. intros Hx; apply Hn; right; auto.
  - cbn [dict_get]. rewrite IH by auto. destruct (Z.eqb_spec a k'), (Z.eqb_spec k k'); congruence.
Qed.
Lemma set_keys d k v x : In x (map fst (dict_set d k v)) <-> In x (map fst d) \/ x = k.
Proof.
  induction d as [|(a, b) d IH]; cbn [dict_set map fst In]; [firstorder|].
  destruct (Z.eqb_spec a k) as [->|Ha]; cbn [map fst In]; [split; [tauto|intros [?|?]; auto]|]. rewrite IH. tauto.
Qed.
Lemma set_nodup d k v : NoDup (map fst d) -> NoDup (map fst (dict_set d k v)).
Proof.
  induction d as [|(a, b) d IH]; cbn [dict_set map fst]; intros H; [repeat constructor; auto|]. inversion H as [|? ? Hn Hd]; subst.
  destruct (Z.eqb_spec a k) as [->|Ha]; cbn [map fst]; [constructor; auto|]. constructor; auto.
  intros Hx. apply set_keys in Hx as [Hx| ->]; auto.
Qed.
Lemma get_key d k v : NoDup (map fst d) -> In (k, v) d -> dict_get d k = v.
Proof.
  induction d as [|(a, b) d IH]; cbn [dict_get map fst In]; intros H; [intros []|]. intros [E|Hin]; inversion H as [|? ? Hn Hd]; subst.
  - injection E as -> ->. rewrite Z.eqb_refl. auto.
  - destruct (Z.eqb_spec a k) as [->|]; auto. exfalso. apply Hn. apply in_map_iff. exists (k, v); auto.
Qed.

(** * The calls *)
Lemma collected_snoc cs c : collected (cs ++ [c]) = after (collected cs) c.
Proof. unfold collected. rewrite fold_left_app. reflexivity. Qed.
Lemma run_snoc A cs c : run A (cs ++ [c]) = match c with SetEntry i j v => ij_setEntry (run A cs) i j v | AddToEntry i j v => ij_addToEntry (run A cs) i j v end.
Proof. unfold run. rewrite fold_left_app. reflexivity. Qed.

Section Calls.
  Variables (n m : nat).
  Hypothesis (Hn : int32 n) (Hm : int32 m).

  Lemma small i j : i < n -> j < m -> (Z.of_nat i < 2 ^ 31)%Z /\ (Z.of_nat j < 2 ^ 31)%Z.
  Proof using Hn Hm. unfold int32 in *. lia. Qed.

  Lemma run_spec cs : within n m cs ->
    let A := run (ij_new n m) cs in
    ij_rows A = n /\ ij_cols A = m /\ NoDup (map fst (entries A)) /\
    (forall k, In k (map fst (entries A)) <-> exists c, In c cs /\ k = encode (fst (place c)) (snd (place c))) /\
    (forall i j, i < n -> j < m -> dict_get (entries A) (encode i j) = collected cs i j).
  Proof using Hn Hm.
    induction cs as [|c cs IH] using rev_ind; intros W.
    - cbn. repeat split; auto; try constructor; try tauto. intros (c & [] & _).
    - assert (W' : within n m cs) by (intros c' Hc; apply W, in_or_app; auto).
      destruct (IH W') as (R & C & N & K & G). clear IH.
      destruct (W c ltac:(apply in_or_app; right; left; auto)) as (Hi & Hj).
      assert (KK : forall k, (exists c', In c' (cs ++ [c]) /\ k = encode (fst (place c')) (snd (place c'))) <->
        In k (map fst (entries (run (ij_new n m) cs))) \/ k = encode (fst (place c)) (snd (place c))).
      { intros k. rewrite K. split.
        - intros (c' & Hc & E). apply in_app_or in Hc as [Hc|[<-|[]]]; auto. left. exists c'; auto.
        - intros [(c' & Hc & E)|E]; [exists c'|exists c]; split; auto; apply in_or_app; auto. right; left; auto. }
      assert (EE : forall i j, i < n -> j < m ->
        (encode (fst (place c)) (snd (place c)) =? encode i j)%Z = (i =? fst (place c)) && (j =? snd (place c))).
      { intros i j Hi' Hj'. destruct (Z.eqb_spec (encode (fst (place c)) (snd (place c))) (encode i j)) as [E|E].
        - destruct (small _ _ Hi Hj), (small _ _ Hi' Hj'). apply encode_inj in E as (<- & <-); auto. rewrite !Nat.eqb_refl; auto.
        - destruct (Nat.eqb_spec i (fst (place c))) as [->|], (Nat.eqb_spec j (snd (place c))) as [->|]; auto; congruence. }
      cbn zeta. rewrite run_snoc, collected_snoc. destruct c as [a b v|a b v]; cbn [place fst snd] in *.
      + unfold ij_setEntry. cbn [ij_rows ij_cols entries]. split; [auto|]. split; [auto|]. split; [apply set_nodup; auto|]. split.
        * intros k. rewrite set_keys, KK. tauto.
        * intros i j Hi' Hj'. rewrite get_set, EE by auto. unfold after. cbn [place fst snd].
          destruct (_ && _); auto.
      + unfold ij_addToEntry, dict_pop. cbn [ij_rows ij_cols entries]. split; [auto|]. split; [auto|].
        split; [apply set_nodup, del_nodup; auto|]. split.
        * intros k. rewrite set_keys, del_keys, KK by auto. destruct (Z.eq_dec k (encode a b)); tauto.
        * intros i j Hi' Hj'. rewrite get_set, get_del, EE by auto. unfold after. cbn [place fst snd].
          destruct (Nat.eqb_spec i a) as [->|], (Nat.eqb_spec j b) as [->|]; cbn [andb]; auto. rewrite G; auto.
  Qed.

  Lemma getEntry_thm cs i j : within n m cs -> i < n -> j < m ->
    ij_getEntry (run (ij_new n m) cs) i j = collected cs i j.
  Proof using Hn Hm. intros W Hi Hj. apply (run_spec cs W); auto. Qed.

  (** The entries as a list of (row, (column, value)). *)
  Definition trip (d : dict) : list (nat * (nat * Qc)) := map (fun p => (rowOf (fst p), (colOf (fst p), snd p))) d.

  Lemma keys_decode cs k : within n m cs -> In k (map fst (entries (run (ij_new n m) cs))) ->
    rowOf k < n /\ colOf k < m /\ k = encode (rowOf k) (colOf k) /\ exists c, In c cs /\ place c = (rowOf k, colOf k).
  Proof using Hn Hm.
    intros W Hk. apply (run_spec cs W) in Hk as (c & Hc & ->). destruct (W c Hc) as (Hi & Hj).
    destruct (small _ _ Hi Hj). rewrite rowOf_encode, colOf_encode by auto. repeat split; auto. exists c. split; auto. destruct (place c); auto.
  Qed.

  Lemma ent_trip d i j : NoDup (map fst d) -> (forall k, In k (map fst d) -> k = encode (rowOf k) (colOf k)) ->
    (Z.of_nat i < 2 ^ 31)%Z -> (Z.of_nat j < 2 ^ 31)%Z ->
    ent (items (trip d) i) j = dict_get d (encode i j).
  Proof.
    intros Nd Hk Hi Hj. induction d as [|(k, v) d IH]; [reflexivity|]. cbn [map fst] in *. inversion Nd as [|? ? Hno Nd']; subst.
    unfold trip. cbn [map fst snd]. rewrite items_cons. cbn [fst snd dict_get]. fold (trip d).
    specialize (IH Nd' ltac:(intros; apply Hk; right; auto)).
    destruct (Z.eqb_spec k (encode i j)) as [->|Hne].
    - rewrite rowOf_encode, colOf_encode, Nat.eqb_refl, ent_cons by auto. cbn [fst snd]. rewrite Nat.eqb_refl, IH.
      assert (forall d, ~ In (encode i j) (map fst d) -> dict_get d (encode i j) = 0%Qc) as G.
      { clear. induction d as [|(a, b) d IH]; cbn [map fst dict_get In]; intros H; auto.
        destruct (Z.eqb_spec a (encode i j)); [exfalso; auto|]. apply IH. tauto. }
      rewrite G by auto. ring.
    - pose proof (Hk k (or_introl eq_refl)) as Ek. destruct (Nat.eqb_spec (rowOf k) i) as [Er|]; auto.
      rewrite ent_cons, IH. cbn [fst snd]. destruct (Nat.eqb_spec (colOf k) j) as [Ec|]; [|ring].
      exfalso. apply Hne. rewrite Ek, Er, Ec. auto.
  Qed.

  Lemma trip_nodup d i : NoDup (map fst d) -> (forall k, In k (map fst d) -> k = encode (rowOf k) (colOf k)) ->
    NoDup (map fst (items (trip d) i)).
  Proof.
    intros Nd Hk. induction d as [|(k, v) d IH]; [constructor|]. cbn [map fst] in *. inversion Nd as [|? ? Hno Nd']; subst.
    unfold trip. cbn [map fst snd]. rewrite items_cons. cbn [fst snd]. fold (trip d).
    specialize (IH Nd' ltac:(intros; apply Hk; right; auto)).
    destruct (Nat.eqb_spec (rowOf k) i) as [Er|]; auto. cbn [map fst]. constructor; auto.
    intros H. apply Hno. apply in_map_iff in H as ((c, w) & Ec & Hin). apply (proj1 (in_items _ _ _)) in Hin.
    unfold trip in Hin. apply in_map_iff in Hin as ((k', v') & E & Hin'). cbn [fst snd] in *. injection E as E1 E2 _.
    assert (Hk' : In k' (map fst d)) by (apply in_map_iff; exists (k', v'); auto).
    replace k with k'; auto. rewrite (Hk k' (or_intror Hk')), (Hk k (or_introl eq_refl)). congruence.
  Qed.

  Lemma getData_loop (d : dict) P Q :
    map fst d = P ++ Q ->
    for_list Q (fun hv '(Ib, Jb, data, k) =>
      Ib' <- wr Ib k (rowOf hv) ;; Jb' <- wr Jb k (colOf hv) ;; data' <- wr data k (dict_get d hv) ;; Ok (Ib', Jb', data', S k))
      (map Some (map rowOf P) ++ alloc (length Q), map Some (map colOf P) ++ alloc (length Q),
       map Some (map (dict_get d) P) ++ alloc (length Q), length P)
    = Ok (map Some (map rowOf (P ++ Q)), map Some (map colOf (P ++ Q)), map Some (map (dict_get d) (P ++ Q)), length (P ++ Q)).
  Proof.
    revert P. induction Q as [|k Q IH]; intros P E.
    - cbn [for_list length alloc repeat]. change (@alloc nat 0) with (@nil (option nat)). change (@alloc Qc 0) with (@nil (option Qc)). rewrite !app_nil_r. reflexivity.
    - cbn [for_list length]. rewrite !wr_next_at by (rewrite map_length; auto). cbn [bind].
      specialize (IH (P ++ [k]) ltac:(rewrite <- app_assoc; exact E)). rewrite !map_app in IH. cbn [map] in IH.
      rewrite app_length in IH. cbn [length] in IH. rewrite Nat.add_1_r in IH. rewrite <- !app_assoc in IH. cbn [app] in IH.
      rewrite !map_app in *. cbn [map] in *. rewrite !app_length in *. cbn [length] in *. rewrite <- !app_assoc. exact IH.
  Qed.

  Lemma getData_thm cs : within n m cs -> exists Is Js data, ij_getData (run (ij_new n m) cs) = Ok (Is, Js, data) /\
    length Js = length Is /\ length data = length Is /\
    NoDup (combine Is Js) /\ (forall p, In p (combine Is Js) <-> exists c, In c cs /\ place c = p) /\
    forall k, k < length Is -> nth k data 0%Qc = collected cs (nth k Is 0) (nth k Js 0).
  Proof using Hn Hm.
    intros W. destruct (run_spec cs W) as (_ & _ & Nd & K & G). set (A := run (ij_new n m) cs) in *.
    pose proof (fun k => keys_decode cs k W) as KD. fold A in KD.
    exists (map rowOf (map fst (entries A))), (map colOf (map fst (entries A))), (map (dict_get (entries A)) (map fst (entries A))).
    split; [|split; [rewrite !map_length; auto|split; [rewrite !map_length; auto|]]].
    - unfold ij_getData. pose proof (getData_loop (entries A) [] (map fst (entries A)) eq_refl) as L. cbn [app map length] in L.
      rewrite !map_length in L. rewrite L. cbn [bind]. rewrite !all_init_some. cbn [bind]. rewrite ?all_init_some. cbn [bind]. reflexivity.
    - assert (Ec : combine (map rowOf (map fst (entries A))) (map colOf (map fst (entries A))) = map (fun k => (rowOf k, colOf k)) (map fst (entries A))).
      { clear. induction (map fst (entries A)) as [|k l IH]; cbn [map combine]; congruence. }
      rewrite Ec. split; [|split].
      + clear -Nd KD. induction (map fst (entries A)) as [|k l IH]; cbn [map]; [constructor|]. inversion Nd as [|? ? Hno Nd']; subst.
        constructor; [|apply IH; auto; intros; apply KD; right; auto].
        intros H. apply in_map_iff in H as (k' & E & Hk'). injection E as E1 E2. apply Hno.
        destruct (KD k (or_introl eq_refl)) as (_ & _ & -> & _), (KD k' (or_intror Hk')) as (_ & _ & Ek & _). rewrite <- E1, <- E2, <- Ek. auto.
      + intros p. rewrite in_map_iff. split.
        * intros (k & <- & Hk). destruct (KD k Hk) as (_ & _ & _ & c & Hc & E). exists c; auto.
        * intros (c & Hc & <-). destruct (W c Hc) as (Hi & Hj). destruct (small _ _ Hi Hj).
          exists (encode (fst (place c)) (snd (place c))). rewrite rowOf_encode, colOf_encode by auto. split; [destruct (place c); auto|].
          apply K. exists c; auto.
      + intros k Hk. rewrite !map_length in Hk. pose (kz := nth k (map fst (entries A)) 0%Z).
        assert (Hin : In kz (map fst (entries A))) by (apply nth_In; rewrite map_length; auto).
        destruct (KD kz Hin) as (H1 & H2 & E & _).
        rewrite (nth_indep (map (dict_get (entries A)) _) 0%Qc (dict_get (entries A) 0%Z)) by (rewrite !map_length; auto).
        rewrite (nth_indep (map rowOf _) 0 (rowOf 0%Z)), (nth_indep (map colOf _) 0 (colOf 0%Z)) by (rewrite !map_length; auto).
        rewrite !map_nth. fold kz. rewrite <- G by auto. rewrite <- E. reflexivity.
  Qed.

  Lemma shift_back_short (f : nat -> nat) :
    (ip3 <- for_range_down (n - 1) 0 (fun i ip => p <- aget ip (i - 1) ;; aset ip i p) (tab (n + 1) f) ;; aset ip3 0 0)
    = Ok (tab (n + 1) (fun k => match k with O => 0 | S k' => if k =? n then f n else f k' end)).
  Proof.
    loop_inv (fun i (ip : list nat) => length ip = n + 1 /\ (forall k, k <= i -> nth k ip 0 = f k) /\ nth n ip 0 = f n /\
         (forall k, i < k <= n - 1 -> nth k ip 0 = f (k - 1))) st E HI.
    3: { intros i s0 Hi (L & P & R & Q).
         rewrite (aget_nth _ _ 0) by lia. cbn [bind]. rewrite aset_ok by lia. eexists; split; [reflexivity|].
         split; [rewrite upd_length; auto|]. split; [intros k Hk; rewrite nth_upd_neq by lia; apply P; lia|].
         split; [rewrite nth_upd_neq by lia; auto|].
         intros k Hk. destruct (Nat.eq_dec k i) as [->|]; [rewrite nth_upd_eq by lia; apply P; lia|].
         rewrite nth_upd_neq by lia. apply Q; lia. }
    - lia.
    - rewrite tab_length. repeat split; auto; intros; try (apply nth_tab; lia). lia.
    - destruct HI as (L & P & R & Q). rewrite E. cbn [bind]. rewrite aset_ok by lia. f_equal.
      apply (eq_tab _ _ _ 0); [rewrite upd_length; auto|]. intros [|k] Hk; [apply nth_upd_eq; lia|].
      rewrite nth_upd_neq by lia. destruct (Nat.eqb_spec (S k) n) as [->|]; auto. rewrite Q by lia. f_equal. lia.
  Qed.

  Lemma to_csr_ok cs : within n m cs ->
    ij_to_csr (run (ij_new n m) cs) = Ok (mk n m (items (trip (entries (run (ij_new n m) cs))))).
  Proof using Hn Hm.
    intros W. destruct (run_spec cs W) as (R & C & Nd & K & G). pose proof (fun k => keys_decode cs k W) as KD.
    unfold ij_to_csr. rewrite R, C. set (d := entries (run (ij_new n m) cs)) in *. set (L := trip d).
    assert (HL : forall p, In p L -> fst p < n).
    { intros p Hp. unfold L, trip in Hp. apply in_map_iff in Hp as ((k, v) & <- & Hk). cbn [fst snd].
      apply KD. apply in_map_iff. exists (k, v); auto. }
    assert (Hlen : length d = nsum n (bsz L)) by (rewrite nnz_ok by auto; unfold L, trip; rewrite map_length; auto).
    rewrite for_list_map.
    assert (E1 : for_list d (fun x ip => q <- aget ip (rowOf (fst x) + 1) ;; aset ip (rowOf (fst x) + 1) (q + 1)) (repeat 0 (n + 1))
      = for_list L (fun t ip => incr ip (fst t + 1)) (repeat 0 (n + 1))) by (unfold L, trip; rewrite for_list_map; reflexivity).
    rewrite E1. destruct (count_ok n L HL) as (ip0 & E & H1 & H2 & H3). rewrite E. cbn [bind].
    rewrite (prefix_loop n ip0 (bsz L)) by auto. cbn [bind]. rewrite Hlen.
    rewrite for_list_map.
    assert (E2 : forall l st, (forall p, In p l -> In p d) ->
      for_list l (fun x '(ip, ind, dat) => p <- aget ip (rowOf (fst x)) ;; ind' <- wr ind p (colOf (fst x)) ;;
         dat' <- wr dat p (dict_get d (fst x)) ;; ip' <- aset ip (rowOf (fst x)) (p + 1) ;; Ok (ip', ind', dat')) st
      = for_list (trip l) (fun p st => putb (fst p) (fst (snd p)) (snd (snd p)) st) st).
    { unfold trip. induction l as [|(k, v) l IH]; intros st Hl; [reflexivity|]. cbn [for_list map fst snd].
      rewrite (get_key d k v) by (auto; apply Hl; left; auto). destruct st as ((ip, ind), dat). unfold putb at 1.
      match goal with |- bind ?x _ = bind ?y _ => change y with x; destruct x as [s1|e]; cbn [bind]; auto end.
      apply IH. intros p Hp; apply Hl; right; auto. }
    rewrite E2 by auto. fold L. rewrite fill_loop_ok by auto. cbn [bind]. rewrite fill_state_done. cbn [bind].
    pose proof (shift_back_short (fun c => nsum (if c <? n then S c else n) (bsz L))) as ES.
    destruct (for_range_down (n - 1) 0 _ (tab (n + 1) (fun c => nsum (if c <? n then S c else n) (bsz L)))) as [ip3|e]; cbn [bind] in *; [|discriminate].
    rewrite ES. cbn [bind]. rewrite !all_init_some. cbn [bind]. rewrite ?all_init_some. cbn [bind]. unfold mk. do 2 f_equal.
    apply tab_ext. intros [|k] Hk; [reflexivity|]. destruct (Nat.eqb_spec (S k) n) as [E0|].
    + rewrite (proj2 (Nat.ltb_ge n n)) by lia. rewrite E0. reflexivity.
    + rewrite (proj2 (Nat.ltb_lt k n)) by lia. reflexivity.
  Qed.

  Lemma to_csr_thm cs : within n m cs -> exists A, ij_to_csr (run (ij_new n m) cs) = Ok A /\
    wf_csr n m A /\ nodup_csr n A /\ (forall i j, i < n -> j < m -> matrix A i j = collected cs i j) /\
    (forall i j, i < n -> In j (map fst (rowlist (c_indptr A) (c_indices A) (c_data A) i)) <-> exists c, In c cs /\ place c = (i, j)).
  Proof using Hn Hm.
    intros W. rewrite to_csr_ok by auto. destruct (run_spec cs W) as (_ & _ & Nd & K & G). pose proof (fun k => keys_decode cs k W) as KD.
    set (d := entries (run (ij_new n m) cs)) in *. eexists; split; [reflexivity|].
    assert (Kd : forall k, In k (map fst d) -> k = encode (rowOf k) (colOf k)) by (intros k Hk; apply KD; auto).
    split; [|split; [|split]].
    - apply mk_wf. intros i p Hi Hp. apply (proj1 (in_items _ _ _)) in Hp. unfold trip in Hp. apply in_map_iff in Hp as ((k, v) & E & Hin). cbn [fst snd] in E.
      injection E as _ <-. cbn [fst]. apply KD. apply in_map_iff. exists (k, v); auto.
    - intros i Hi. unfold mk. cbn [c_indptr c_indices c_data]. rewrite mk_row by auto. apply trip_nodup; auto.
    - intros i j Hi Hj. rewrite mk_matrix by auto. destruct (small _ _ Hi Hj). rewrite ent_trip by auto. apply G; auto.
    - intros i j Hi. unfold mk. cbn [c_indptr c_indices c_data]. rewrite mk_row by auto. split.
      + intros H. apply in_map_iff in H as ((c, v) & <- & H). apply (proj1 (in_items _ _ _)) in H. unfold trip in H. apply in_map_iff in H as ((k, v') & E & Hin).
        cbn [fst snd] in *. injection E as E1 E2 _. destruct (KD k) as (_ & _ & _ & c' & Hc & Ec); [apply in_map_iff; exists (k, v'); auto|].
        exists c'. split; auto. congruence.
      + intros (c & Hc & E). destruct (W c Hc) as (Hi' & Hj'). destruct (small _ _ Hi' Hj').
        assert (Hk : In (encode i j) (map fst d)) by (apply K; exists c; rewrite E; auto).
        apply in_map_iff in Hk as ((k, v) & Ek & Hin). cbn [fst] in Ek. subst k.
        apply in_map_iff. exists (j, v). split; auto. apply in_items. unfold trip. apply in_map_iff. exists (encode i j, v). cbn [fst snd].
        rewrite E in *. cbn [fst snd] in *. rewrite rowOf_encode, colOf_encode by auto. auto.
  Qed.
End Calls.
