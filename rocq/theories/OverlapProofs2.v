(** The exchange of messages for ranks that run any operations, given what each of them does on
    its own: the messages come in the right order and are not overwritten. *)
From Coq Require Import Sorted.
From Verif Require Import Util Lin OverlapModel OverlapSpec OverlapProofs.
Local Open Scope nat_scope.
Set Default Proof Using "Type".

(** What a rank does on its own, if the n-th message from q to p is [msg q p n]. *)
Record lst := Lst { l_mem : mem; l_sent : nat -> nat; l_post : nat -> nat; l_S : list (nat * nat); l_U : list (nat * nat); l_R : list (nat * nat); l_con : nat; l_coll : nat }.

Section Protocol.
  Variables (P : nat) (mgr : nat -> manager) (chan : nat -> nat -> list (nat * list Qc)) (cols : list (nat * (nat -> list Qc))).

  Definition msg (p q n : nat) : list Qc := snd (nth n (chan p q) (0, [])).
  Definition sig (p q n : nat) : nat := fst (nth n (chan p q) (0, [])).
  Definition csig (c : nat) : nat := fst (nth c cols (0, fun _ => [])).
  Definition cval (c : nat) : nat -> list Qc := snd (nth c cols (0, fun _ => [])).

  Definition acc (p : nat) (base : list Qc) (R : list (nat * nat)) : list Qc :=
    tab (length base) (fun i => (vat base i + suml (map (fun x => add_in (shared mgr p (fst x)) (msg (fst x) p (snd x - 51)) i) R))%Qc).
  Definition fits (p : nat) (m : mem) (d q : nat) : Prop := In q (neighbours (mgr p)) /\ d < length m /\ forall i, In i (shared mgr p q) -> i < length (reg m d).

  Definition lsend (p tau q v : nat) (l : lst) : Prop :=
    q < P /\ q <> p /\ In q (neighbours (mgr p)) /\ v < length (l_mem l) /\ (forall i, In i (shared mgr p q) -> i < length (reg (l_mem l) v)) /\
    map (vat (reg (l_mem l) v)) (shared mgr p q) = msg p q (l_sent l q) /\ l_sent l q < length (chan p q) /\ sig p q (l_sent l q) = tau /\
    (forall t, ~ In (q, t) (l_S l)) /\ (forall t, ~ In (q, t) (l_U l)).
  Definition lpre (p tau : nat) (o : op) (l : lst) : Prop :=
    match o with
    | OCompute f => True
    | OWaitall => forall q t, In (q, t) (l_S l) -> sig p q (t - 51) < tau
    | OSend q v | OSendU q v => lsend p tau q v l
    | ORecv q => q < P /\ q <> p /\ In q (neighbours (mgr p)) /\ (forall t, ~ In (q, t) (l_R l)) /\ l_post l q < length (chan q p) /\ sig q p (l_post l q) = tau
    | OCopy s d => s < length (l_mem l) /\ d < length (l_mem l) /\ length (reg (l_mem l) s) = length (reg (l_mem l) d)
    | ODrain d => d < length (l_mem l) /\ forall q t, In (q, t) (l_R l) -> fits p (l_mem l) d q /\ sig q p (t - 51) < tau
    | OWait q v => (exists t, In (q, t) (l_R l)) /\ fits p (l_mem l) v q /\ NoDup (shared mgr p q) /\ sig q p (l_post l q - 1) < tau
    | OWaitallU => forall q t, In (q, t) (l_U l) -> sig p q (t - 51) < tau
    | OContribute h => l_con l = l_coll l /\ l_con l < length cols /\ csig (l_con l) = tau /\ h (l_mem l) = cval (l_con l) p
    | OResult g => l_con l = S (l_coll l) /\ csig (l_coll l) < tau
    | OReturn => True
    end.
  Definition lpost (p : nat) (o : op) (l : lst) : lst :=
    match o with
    | OCompute f => Lst (f (l_mem l)) (l_sent l) (l_post l) (l_S l) (l_U l) (l_R l) (l_con l) (l_coll l)
    | OWaitall => Lst (l_mem l) (l_sent l) (l_post l) [] (l_U l) (l_R l) (l_con l) (l_coll l)
    | OSend q v => Lst (l_mem l) (put (l_sent l) q (S (l_sent l q))) (l_post l) (l_S l ++ [(q, S (50 + l_sent l q))]) (l_U l) (l_R l) (l_con l) (l_coll l)
    | OSendU q v => Lst (l_mem l) (put (l_sent l) q (S (l_sent l q))) (l_post l) (l_S l) (l_U l ++ [(q, S (50 + l_sent l q))]) (l_R l) (l_con l) (l_coll l)
    | ORecv q => Lst (l_mem l) (l_sent l) (put (l_post l) q (S (l_post l q))) (l_S l) (l_U l) (l_R l ++ [(q, S (50 + l_post l q))]) (l_con l) (l_coll l)
    | OCopy s d => Lst (set_reg (l_mem l) d (reg (l_mem l) s)) (l_sent l) (l_post l) (l_S l) (l_U l) (l_R l) (l_con l) (l_coll l)
    | ODrain d => Lst (set_reg (l_mem l) d (acc p (reg (l_mem l) d) (l_R l))) (l_sent l) (l_post l) (l_S l) (l_U l) [] (l_con l) (l_coll l)
    | OWait q v => Lst (set_reg (l_mem l) v (tab (length (reg (l_mem l) v)) (take_in (shared mgr p q) (msg q p (l_post l q - 1)) (reg (l_mem l) v))))
                       (l_sent l) (l_post l) (l_S l) (l_U l) (filter (fun x => negb (fst x =? q)) (l_R l)) (l_con l) (l_coll l)
    | OWaitallU => Lst (l_mem l) (l_sent l) (l_post l) (l_S l) [] (l_R l) (l_con l) (l_coll l)
    | OContribute h => Lst (l_mem l) (l_sent l) (l_post l) (l_S l) (l_U l) (l_R l) (S (l_con l)) (l_coll l)
    | OResult g => Lst (g (tab P (cval (l_coll l))) (l_mem l)) (l_sent l) (l_post l) (l_S l) (l_U l) (l_R l) (l_con l) (S (l_coll l))
    | OReturn => l
    end.
  Fixpoint lrun (p : nat) (ops : list (nat * op)) (l f : lst) : Prop :=
    match ops with [] => l = f | o :: r => lpre p (fst o) (snd o) l /\ lrun p r (lpost p (snd o) l) f end.

  (** Requests are for the newest message *)
  Record lwf (p : nat) (l : lst) : Prop := Lwf {
    wf_S : forall q t, In (q, t) (l_S l) -> t = 50 + l_sent l q /\ 0 < l_sent l q /\ q < P /\ q <> p;
    wf_U : forall q t, In (q, t) (l_U l) -> t = 50 + l_sent l q /\ 0 < l_sent l q /\ q < P /\ q <> p;
    wf_R : forall q t, In (q, t) (l_R l) -> t = 50 + l_post l q /\ 0 < l_post l q /\ q < P /\ q <> p;
    wf_nodup : NoDup (map fst (l_R l)) }.

  Lemma put_eq {X} (f : nat -> X) k v : put f k v k = v.
  Proof. unfold put. rewrite Nat.eqb_refl. reflexivity. Qed.
  Lemma put_neq {X} (f : nat -> X) k v j : j <> k -> put f k v j = f j.
  Proof. unfold put. intros H. apply Nat.eqb_neq in H. rewrite H. reflexivity. Qed.
  Lemma put2_eq {X} (f : nat -> nat -> X) i k v : put2 f i k v i k = v.
  Proof. unfold put2. rewrite !Nat.eqb_refl. reflexivity. Qed.
  Lemma put2_neq {X} (f : nat -> nat -> X) i k v a b : (a <> i \/ b <> k) -> put2 f i k v a b = f a b.
  Proof. unfold put2. intros [H|H]; apply Nat.eqb_neq in H; rewrite H; cbn; auto. rewrite andb_false_r. auto. Qed.

  Lemma NoDup_snoc {X} (l : list X) x : NoDup l -> ~ In x l -> NoDup (l ++ [x]).
  Proof.
    induction l as [|y l IH]; intros H Hn; cbn. - repeat constructor. intros [].
    - inversion_clear H as [|? ? H1 H2]. constructor.
      + intros Hi. apply in_app_iff in Hi as [Hi|[->|[]]]; auto. apply Hn. left. auto.
      + apply IH; auto. intros Hi. apply Hn. right. auto.
  Qed.
  Lemma NoDup_filter_map {X} (g : X -> nat) f (l : list X) : NoDup (map g l) -> NoDup (map g (filter f l)).
  Proof.
    induction l as [|y l IH]; cbn; intros H; auto. inversion_clear H as [|? ? H1 H2]. destruct (f y); cbn; auto. constructor; auto.
    intros Hi. apply H1. apply in_map_iff in Hi as (z & <- & Hz). apply filter_In in Hz as (Hz & _). apply in_map; auto.
  Qed.

  Lemma lwf_post p tau o l : lwf p l -> lpre p tau o l -> lwf p (lpost p o l).
  Proof.
    intros [HS HU HR Hn] H. destruct o as [f| |q v|q v|q|s d|d|q v| |h|g| ]; cbn [lpost] in *; try (constructor; cbn; auto; fail).
    - constructor; cbn; auto. intros q t [].
    - destruct H as (Hq & Hqp & _ & _ & _ & _ & _ & _ & H1 & H2). constructor; cbn -[Nat.add]; auto.
      + intros q' t Hi. apply in_app_iff in Hi as [Hi|[Hi|[]]].
        * destruct (Nat.eq_dec q' q) as [->|Hne]; [destruct (H1 _ Hi)|]. rewrite put_neq by auto. auto.
        * injection Hi as <- <-. rewrite put_eq. repeat split; auto; lia.
      + intros q' t Hi. destruct (Nat.eq_dec q' q) as [->|Hne]; [destruct (H2 _ Hi)|]. rewrite put_neq by auto. auto.
    - destruct H as (Hq & Hqp & _ & _ & _ & _ & _ & _ & H1 & H2). constructor; cbn -[Nat.add]; auto.
      + intros q' t Hi. destruct (Nat.eq_dec q' q) as [->|Hne]; [destruct (H1 _ Hi)|]. rewrite put_neq by auto. auto.
      + intros q' t Hi. apply in_app_iff in Hi as [Hi|[Hi|[]]].
        * destruct (Nat.eq_dec q' q) as [->|Hne]; [destruct (H2 _ Hi)|]. rewrite put_neq by auto. auto.
        * injection Hi as <- <-. rewrite put_eq. repeat split; auto; lia.
    - destruct H as (Hq & Hqp & _ & H1 & _). constructor; cbn -[Nat.add]; auto.
      + intros q' t Hi. apply in_app_iff in Hi as [Hi|[Hi|[]]].
        * destruct (Nat.eq_dec q' q) as [->|Hne]; [destruct (H1 _ Hi)|]. rewrite put_neq by auto. auto.
        * injection Hi as <- <-. rewrite put_eq. repeat split; auto; lia.
      + rewrite map_app. cbn. apply NoDup_snoc; auto. intros Hi. apply in_map_iff in Hi as ((q' & t) & E & Hi). cbn in E. subst q'. destruct (H1 _ Hi).
    - constructor; cbn -[Nat.add]; auto; [intros q t [] | constructor].
    - constructor; cbn -[Nat.add]; auto; [|apply NoDup_filter_map; auto].
      intros q' t Hi. apply filter_In in Hi as (Hi & _). auto.
    - constructor; cbn -[Nat.add]; auto. intros q t [].
  Qed.

  (** * The state of all ranks and channels *)
  Record rok (p : nat) (ops : list (nat * op)) (l : lst) (f : lst) (r : rank) : Prop := Rok {
    ok_ops : r_ops r = map snd ops;
    ok_sorted : StronglySorted le (map fst ops);
    ok_run : lrun p ops l f;
    ok_wf : lwf p l;
    ok_mem : r_mem r = l_mem l;
    ok_tagS : forall q, r_tagS r q = 50 + l_sent l q;
    ok_tagR : forall q, r_tagR r q = 50 + l_post l q;
    ok_S : r_reqS r = l_S l;
    ok_U : r_reqU r = l_U l;
    ok_R : r_reqR r = l_R l;
    ok_coll : r_coll r = l_coll l }.

  Definition tags (a b : nat) : list nat := map (fun n => 51 + n) (seq a (b - a)).
  Definition letters (p q a b : nat) : list (nat * list Qc) := map (fun n => (51 + n, msg p q n)) (seq a (b - a)).
  (** s messages were sent, r asked for, c used; x were copied and d delivered *)
  Record chan_at (p q s r c x d : nat) (rp rq : rank) (sd : list nat) (nt : list (nat * list Qc)) (rv : list nat) : Prop := Chan {
    ch_tagS : r_tagS rp q = 50 + s;
    ch_tagR : r_tagR rq p = 50 + r;
    ch_order : c <= d /\ d <= x /\ x <= s /\ d <= r /\ r <= S c /\ s <= S x;
    ch_req : In (p, 50 + r) (r_reqR rq) <-> c < r;
    ch_send : x < s -> In (q, 50 + s) (r_reqS rp ++ r_reqU rp);
    ch_out : x < s -> r_out rp q = msg p q x;
    ch_sd : sd = tags x s;
    ch_nt : nt = letters p q d x;
    ch_rv : rv = tags d r;
    ch_in : c < d -> r_in rq p = msg p q c;
    ch_len : length (r_in rq p) = length (shared mgr q p);
    ch_msg : forall n, n < s -> length (msg p q n) = length (shared mgr p q) }.
  Definition chan_ok (p q : nat) (rp rq : rank) sd nt rv : Prop := exists s r c x d, chan_at p q s r c x d rp rq sd nt rv.

  Variable fin : nat -> lst.
  Record inv (w : world) (ops : nat -> list (nat * op)) (l : nat -> lst) : Prop := Inv {
    inv_rank : forall p, p < P -> rok p (ops p) (l p) (fin p) (w_rank w p);
    inv_chan : forall p q, p < P -> q < P -> p <> q -> chan_ok p q (w_rank w p) (w_rank w q) (w_send w p q) (w_net w p q) (w_recv w p q);
    inv_coll : forall c p, p < P -> w_coll w c p = if c <? l_con (l p) then Some (cval c p) else None;
    inv_self : forall p, w_send w p p = [] /\ w_recv w p p = [] }.

  Hypothesis Hval : forall p q, p < P -> q < P -> length (shared mgr p q) = length (shared mgr q p).
  Hypothesis Hrank : forall p q, p < P -> In q (neighbours (mgr p)) -> q < P /\ q <> p.

  (** What the sender or the receiver may change *)
  Lemma chan_sender p q rp rp' rq sd nt rv : chan_ok p q rp rq sd nt rv ->
    r_tagS rp' q = r_tagS rp q -> r_out rp' q = r_out rp q -> (forall t, In t sd -> In (q, t) (r_reqS rp ++ r_reqU rp) -> In (q, t) (r_reqS rp' ++ r_reqU rp')) ->
    chan_ok p q rp' rq sd nt rv.
  Proof.
    intros (s & r & c & x & d & [H1 H2 H3 H4 H5 H6 H7 H8 H9 H10 H11 H12]) E1 E2 E3.
    exists s, r, c, x, d. constructor; auto; try congruence.
    - intros Hx. apply E3; auto. subst sd. unfold tags. apply in_map_iff. exists x. split; [lia|]. apply in_seq. lia.
    - intros Hx. rewrite E2. auto.
  Qed.
  Lemma chan_receiver p q rp rq rq' sd nt rv : chan_ok p q rp rq sd nt rv ->
    r_tagR rq' p = r_tagR rq p -> r_in rq' p = r_in rq p -> (forall t, In (p, t) (r_reqR rq') <-> In (p, t) (r_reqR rq)) ->
    chan_ok p q rp rq' sd nt rv.
  Proof.
    intros (s & r & c & x & d & [H1 H2 H3 H4 H5 H6 H7 H8 H9 H10 H11 H12]) E1 E2 E3.
    exists s, r, c, x, d. constructor; auto; try congruence.
    - rewrite E3. auto. - intros Hx. rewrite E2; auto.
  Qed.

  (** Rank p makes a step that changes its channels as given *)
  Lemma inv_move w ops l p o tau ops' rk' w' :
    inv w ops l -> p < P -> ops p = (tau, o) :: ops' -> lpre p tau o (l p) ->
    rok p ops' (lpost p o (l p)) (fin p) rk' ->
    w_rank w' = put (w_rank w) p rk' ->
    (forall q, q < P -> q <> p -> chan_ok p q rk' (w_rank w q) (w_send w' p q) (w_net w' p q) (w_recv w' p q)) ->
    (forall q, q < P -> q <> p -> chan_ok q p (w_rank w q) rk' (w_send w' q p) (w_net w' q p) (w_recv w' q p)) ->
    (forall a b, a <> p -> b <> p -> w_send w' a b = w_send w a b /\ w_net w' a b = w_net w a b /\ w_recv w' a b = w_recv w a b) ->
    (forall c q, q < P -> w_coll w' c q = if c <? l_con (put l p (lpost p o (l p)) q) then Some (cval c q) else None) ->
    (forall a, w_send w' a a = [] /\ w_recv w' a a = []) ->
    inv w' (put ops p ops') (put l p (lpost p o (l p))).
  Proof.
    intros [I1 I2 I3 I4] Hp Eo Hpre Hrk Ew H1 H2 H3 H4 H5. constructor; auto.
    - intros q Hq. rewrite Ew. destruct (Nat.eq_dec q p) as [->|Hne]; [rewrite !put_eq; auto | rewrite !put_neq by auto; auto].
    - intros a b Ha Hb Hab. rewrite Ew. destruct (Nat.eq_dec a p) as [->|Hap].
      + rewrite put_eq, put_neq by auto. auto.
      + rewrite (put_neq _ _ _ a) by auto. destruct (Nat.eq_dec b p) as [->|Hbp].
        * rewrite put_eq. auto.
        * rewrite put_neq by auto. destruct (H3 a b) as (-> & -> & ->); auto.
  Qed.

  (** A step that leaves the channels alone *)
  Lemma inv_quiet w ops l p o tau ops' rk' :
    inv w ops l -> p < P -> ops p = (tau, o) :: ops' -> lpre p tau o (l p) ->
    rok p ops' (lpost p o (l p)) (fin p) rk' ->
    l_con (lpost p o (l p)) = l_con (l p) ->
    r_tagS rk' = r_tagS (w_rank w p) -> r_tagR rk' = r_tagR (w_rank w p) -> r_out rk' = r_out (w_rank w p) -> r_in rk' = r_in (w_rank w p) ->
    (forall q t, q < P -> q <> p -> In t (w_send w p q) -> In (q, t) (r_reqS (w_rank w p) ++ r_reqU (w_rank w p)) -> In (q, t) (r_reqS rk' ++ r_reqU rk')) ->
    r_reqR rk' = r_reqR (w_rank w p) ->
    inv (set_rank w p rk') (put ops p ops') (put l p (lpost p o (l p))).
  Proof.
    intros HI Hp Eo Hpre Hrk Hc E1 E2 E3 E4 E5 E6. eapply inv_move with (o := o) (rk' := rk'); eauto; destruct HI as [I1 I2 I3 I4].
    - cbn. intros q Hq Hqp. eapply chan_sender; [apply I2; auto| | |]; try congruence. intros t Ht. apply E5; auto.
    - cbn. intros q Hq Hqp. eapply chan_receiver; [apply I2; auto| | |]; try congruence. intros t. rewrite E6. tauto.
    - cbn. intros c q Hq. rewrite I3 by auto. destruct (Nat.eq_dec q p) as [->|Hne]; [rewrite put_eq, Hc; auto | rewrite put_neq by auto; auto].
    - apply I4.
  Qed.

  Lemma pending_in t l : pending t l = true <-> In t l.
  Proof.
    unfold pending. rewrite existsb_exists. split.
    - intros (x & Hx & E). apply Nat.eqb_eq in E. subst. auto.
    - intros H. exists t. split; auto. apply Nat.eqb_refl.
  Qed.
  Lemma complete_in w p reqs : complete w p reqs = true <-> forall q t, In (q, t) reqs -> ~ In t (w_send w p q).
  Proof.
    unfold complete. rewrite forallb_forall. split.
    - intros H q t Hi Hp. specialize (H _ Hi). cbn in H. apply pending_in in Hp. rewrite Hp in H. discriminate.
    - intros H (q & t) Hi. cbn. destruct (pending t (w_send w p q)) eqn:E; auto. apply pending_in in E. destruct (H _ _ Hi E).
  Qed.
  Lemma tags_nil a b : b <= a -> tags a b = [].
  Proof. intros H. unfold tags. replace (b - a) with 0 by lia. reflexivity. Qed.
  Lemma tags_one a : tags a (S a) = [51 + a].
  Proof. unfold tags. replace (S a - a) with 1 by lia. reflexivity. Qed.
  Lemma letters_snoc p q a b : a <= b -> letters p q a (S b) = letters p q a b ++ [(51 + b, msg p q b)].
  Proof. intros H. unfold letters. replace (S b - a) with (S (b - a)) by lia. rewrite seq_S, map_app. cbn -[Nat.add]. replace (a + (b - a)) with b by lia. reflexivity. Qed.
  Lemma letters_cons p q a b : a < b -> letters p q a b = (51 + a, msg p q a) :: letters p q (S a) b.
  Proof. intros H. unfold letters. replace (b - a) with (S (b - S a)) by lia. reflexivity. Qed.
  Lemma letters_nil p q a b : b <= a -> letters p q a b = [].
  Proof. intros H. unfold letters. replace (b - a) with 0 by lia. reflexivity. Qed.

  (** Sending *)
  Lemma chan_sent p q rp rp' rq sd nt rv data : chan_ok p q rp rq sd nt rv ->
    (forall t, ~ In (q, t) (r_reqS rp ++ r_reqU rp)) ->
    r_tagS rp' q = S (r_tagS rp q) -> r_out rp' q = data -> In (q, S (r_tagS rp q)) (r_reqS rp' ++ r_reqU rp') ->
    data = msg p q (r_tagS rp q - 50) -> length data = length (shared mgr p q) ->
    chan_ok p q rp' rq (sd ++ [S (r_tagS rp q)]) nt rv.
  Proof.
    intros (s & r & c & x & d & [H1 H2 H3 H4 H5 H6 H7 H8 H9 H10 H11 H12]) Hn E1 E2 E3 E4 E5.
    assert (x = s) as ->. { assert (~ x < s) by (intros Hx; eapply Hn; eauto). lia. }
    rewrite H1 in *. replace (50 + s - 50) with s in * by lia.
    exists (S s), r, c, s, d. constructor; auto; try lia.
    - intros _. congruence.
    - subst sd. rewrite tags_nil, tags_one by lia. reflexivity.
    - intros n Hn'. destruct (Nat.eq_dec n s) as [->|]; [congruence|]. apply H12. lia.
  Qed.
  (** Asking for a message *)
  Lemma chan_posted p q rp rq rq' sd nt rv : chan_ok p q rp rq sd nt rv ->
    (forall t, ~ In (p, t) (r_reqR rq)) ->
    r_tagR rq' p = S (r_tagR rq p) -> r_in rq' p = r_in rq p -> In (p, S (r_tagR rq p)) (r_reqR rq') ->
    chan_ok p q rp rq' sd nt (rv ++ [S (r_tagR rq p)]).
  Proof.
    intros (s & r & c & x & d & [H1 H2 H3 H4 H5 H6 H7 H8 H9 H10 H11 H12]) Hn E1 E2 E3.
    assert (c = r) as ->. { assert (~ c < r) by (intros Hx; apply H4 in Hx; eapply Hn; eauto). lia. }
    assert (d = r) as -> by lia. rewrite H2 in *.
    exists s, (S r), r, x, r. constructor; auto; try lia; try congruence.
    - replace (50 + S r) with (S (50 + r)) by lia. split; auto.
    - subst rv. rewrite tags_nil, tags_one by lia. reflexivity.
  Qed.
  (** Using a message that was delivered *)
  Lemma chan_used p q rp rq rq' sd nt rv t : chan_ok p q rp rq sd nt rv ->
    In (p, t) (r_reqR rq) -> t = r_tagR rq p -> ~ In t rv ->
    r_in rq p = msg p q (t - 51) /\ length (msg p q (t - 51)) = length (shared mgr p q) /\
    (r_tagR rq' p = r_tagR rq p -> r_in rq' p = r_in rq p -> (forall t, ~ In (p, t) (r_reqR rq')) -> chan_ok p q rp rq' sd nt rv).
  Proof.
    intros (s & r & c & x & d & [H1 H2 H3 H4 H5 H6 H7 H8 H9 H10 H11 H12]) Hi Et Hp. subst t. rewrite H2 in *.
    apply H4 in Hi. assert (r = S c) as -> by lia.
    assert (d = S c) as ->.
    { destruct (Nat.eq_dec d c) as [->|]; [|lia]. exfalso. apply Hp. subst rv. rewrite tags_one. left. lia. }
    replace (50 + S c - 51) with c by lia. split; [apply H10; lia|]. split; [apply H12; lia|].
    intros E1 E2 E3. exists s, (S c), (S c), x, (S c). constructor; auto; try lia; try congruence.
    split; [intros Hi'; destruct (E3 _ Hi') | lia].
  Qed.

  Lemma process_ok proc f w ops l p q d t : inv w ops l -> p < P -> In (q, t) (r_reqR (w_rank w p)) ->
    fits p (r_mem (w_rank w p)) d q -> ~ In t (w_recv w q p) ->
    (forall x v, length (shared mgr p q) = length x -> (forall i, In i (shared mgr p q) -> i < length v) -> proc (shared mgr p q) x v = Ok (f x v)) ->
    process proc (mgr p) q d (w_rank w p) = Ok (set_reg (r_mem (w_rank w p)) d (f (msg q p (t - 51)) (reg (r_mem (w_rank w p)) d))).
  Proof using Hval.
    intros [I1 I2 I3 I4] Hp Hi (Hq & Hd & Hs) Hr Hf. pose proof (I1 p Hp) as [E1 E2 E3 E4 E5 E6 E7 E8 E9 E10 E11].
    rewrite E10 in Hi. destruct (wf_R _ _ E4 _ _ Hi) as (Et & Hpos & HqP & Hqp).
    destruct (chan_used q p _ _ (w_rank w p) _ _ _ t (I2 q p HqP Hp Hqp)) as (Ein & El & _); auto; [congruence|rewrite E7; auto|].
    unfold process. destruct (find_overlap_in _ _ Hq) as (o & Eo). rewrite Eo. cbn [bind].
    rewrite (aget_nth _ d []) by auto. cbn [bind]. change (nth d (r_mem (w_rank w p)) []) with (reg (r_mem (w_rank w p)) d).
    rewrite (find_overlap_shared _ _ _ _ Eo), Hf; auto.
    - cbn [bind]. rewrite aset_ok by auto. rewrite Ein. reflexivity.
    - rewrite Ein, El. auto.
  Qed.

  Lemma acc_cons p base x R1 R2 : acc p base (R1 ++ x :: R2) =
    acc p (tab (length base) (fun i => (vat base i + add_in (shared mgr p (fst x)) (msg (fst x) p (snd x - 51)) i)%Qc)) (R1 ++ R2).
  Proof.
    unfold acc. rewrite tab_length. apply tab_ext. intros i Hi. rewrite vat_tab by auto.
    rewrite !map_app, !suml_app. cbn [map suml]. ring.
  Qed.
  Lemma set_reg_set m d v u : set_reg (set_reg m d v) d u = set_reg m d u.
  Proof. apply upd_upd. Qed.
  Lemma reg_set m d v : d < length m -> reg (set_reg m d v) d = v.
  Proof. apply nth_upd_eq. Qed.
  Lemma set_reg_length m d v : length (set_reg m d v) = length m.
  Proof. apply upd_length. Qed.

  Ltac ranks := repeat match goal with H : inv _ _ _ |- _ => destruct H end.

  (** The steps of the ranks *)
  Lemma rank_step w ops l p : inv w ops l -> p < P ->
    exists ws, rank_next P mgr p w = Ok ws /\ forall w', In w' ws -> exists ops' l', inv w' ops' l'.
  Proof using Hval Hrank.
    intros HI Hp. pose proof HI as [I1 I2 I3 I4]. pose proof (I1 p Hp) as HR. pose proof HR as [E1 E2 E3 E4 E5 E6 E7 E8 E9 E10 E11].
    unfold rank_next. rewrite E1. destruct (ops p) as [|(tau & o) ops'] eqn:Eo; cbn [map snd]; [eexists; split; [reflexivity|intros ? []]|].
    cbn [lrun fst snd] in E3. destruct E3 as (Hpre & Hrun). cbn [map fst] in E2. apply StronglySorted_inv in E2 as (Hs & _).
    pose proof (lwf_post _ _ _ _ E4 Hpre) as Hwf.
    destruct o as [f| |q v|q v|q|s d|d|q v| |h|g| ]; cbn [run_op].
    - (* compute *) eexists; split; [reflexivity|]. intros w' [<-|[]]. do 2 eexists. eapply inv_quiet with (p := p) (tau := tau); eauto.
      constructor; cbn; auto. congruence.
    - (* Waitall *) destruct (complete w p (r_reqS (w_rank w p))) eqn:Ec; eexists; (split; [reflexivity|]); [|intros ? []].
      intros w' [<-|[]]. do 2 eexists. eapply inv_quiet with (p := p) (tau := tau); eauto.
      + constructor; cbn; auto.
      + cbn. intros q t Hq Hqp Ht Hi. apply in_app_iff in Hi as [Hi|Hi]; auto. exfalso.
        eapply complete_in in Ec; eauto.
    - (* Isend *) destruct Hpre as (Hq & Hqp & Hin & Hv & Hr & Hm & Hlen & Hsig & HnS & HnU).
      unfold send. destruct (find_overlap_in _ _ Hin) as (ov & Eov). rewrite Eov. cbn [bind]. rewrite E5.
      rewrite (aget_nth _ v []) by auto. cbn [bind]. change (nth v (l_mem (l p)) []) with (reg (l_mem (l p)) v).
      rewrite (find_overlap_shared _ _ _ _ Eov), gather_ok by auto. cbn [bind].
      eexists; split; [reflexivity|]. intros w' [<-|[]]. do 2 eexists. cbn [set_reqs r_mem r_out r_in r_tagS r_tagR r_reqS r_reqU r_reqR r_coll].
      eapply inv_move with (p := p) (tau := tau) (o := OSend q v); [exact HI|exact Hp|exact Eo| | |reflexivity|..].
      + repeat split; auto.
      + constructor; cbn -[Nat.add]; auto.
        * intros q'. unfold put. destruct (q' =? q); auto. rewrite E6. lia.
        * rewrite E8, E6. reflexivity.
      + cbn. intros q' Hq' Hqp'. destruct (Nat.eq_dec q' q) as [->|Hne].
        * rewrite put2_eq. eapply chan_sent; [apply I2; auto|..]; cbn.
          -- intros t Hi. rewrite E8, E9 in Hi. apply in_app_iff in Hi as [Hi|Hi]; [eapply HnS; eauto|eapply HnU; eauto].
          -- apply put_eq. -- apply put_eq. -- rewrite !in_app_iff. left. right. left. auto.
          -- rewrite Hm, E6. f_equal. lia.
          -- apply map_length.
        * rewrite put2_neq by auto. eapply chan_sender; [apply I2; auto|..]; cbn.
          -- rewrite put_neq; auto. -- rewrite put_neq; auto. -- intros t _. rewrite !in_app_iff. tauto.
      + cbn. intros q' Hq' Hqp'. rewrite put2_neq by auto. eapply chan_receiver; [apply I2; auto|..]; cbn; auto. tauto.
      + cbn. intros a b Ha Hb. rewrite put2_neq by auto. auto.
      + cbn. intros c q' Hq'. rewrite I3 by auto. unfold put. destruct (Nat.eqb_spec q' p) as [->|]; auto.
      + cbn. intros a. rewrite ?put2_neq by (destruct (Nat.eq_dec a p); [right|left]; congruence). apply I4.
    - destruct Hpre as (Hq & Hqp & Hin & Hv & Hr & Hm & Hlen & Hsig & HnS & HnU).
      unfold send. destruct (find_overlap_in _ _ Hin) as (ov & Eov). rewrite Eov. cbn [bind]. rewrite E5.
      rewrite (aget_nth _ v []) by auto. cbn [bind]. change (nth v (l_mem (l p)) []) with (reg (l_mem (l p)) v).
      rewrite (find_overlap_shared _ _ _ _ Eov), gather_ok by auto. cbn [bind].
      eexists; split; [reflexivity|]. intros w' [<-|[]]. do 2 eexists. cbn [set_reqs r_mem r_out r_in r_tagS r_tagR r_reqS r_reqU r_reqR r_coll].
      eapply inv_move with (p := p) (tau := tau) (o := OSendU q v); [exact HI|exact Hp|exact Eo| | |reflexivity|..].
      + repeat split; auto.
      + constructor; cbn -[Nat.add]; auto.
        * intros q'. unfold put. destruct (q' =? q); auto. rewrite E6. lia.
        * rewrite E9, E6. reflexivity.
      + cbn. intros q' Hq' Hqp'. destruct (Nat.eq_dec q' q) as [->|Hne].
        * rewrite put2_eq. eapply chan_sent; [apply I2; auto|..]; cbn.
          -- intros t Hi. rewrite E8, E9 in Hi. apply in_app_iff in Hi as [Hi|Hi]; [eapply HnS; eauto|eapply HnU; eauto].
          -- apply put_eq. -- apply put_eq. -- rewrite !in_app_iff. right. right. left. auto.
          -- rewrite Hm, E6. f_equal. lia.
          -- apply map_length.
        * rewrite put2_neq by auto. eapply chan_sender; [apply I2; auto|..]; cbn.
          -- rewrite put_neq; auto. -- rewrite put_neq; auto. -- intros t _. rewrite !in_app_iff. tauto.
      + cbn. intros q' Hq' Hqp'. rewrite put2_neq by auto. eapply chan_receiver; [apply I2; auto|..]; cbn; auto. tauto.
      + cbn. intros a b Ha Hb. rewrite put2_neq by auto. auto.
      + cbn. intros c q' Hq'. rewrite I3 by auto. unfold put. destruct (Nat.eqb_spec q' p) as [->|]; auto.
      + cbn. intros a. rewrite ?put2_neq by (destruct (Nat.eq_dec a p); [right|left]; congruence). apply I4.
    - (* Irecv *) destruct Hpre as (Hq & Hqp & Hin & HnR & Hlen & Hsig). eexists; split; [reflexivity|]. intros w' [<-|[]]. do 2 eexists.
      eapply inv_move with (p := p) (tau := tau) (o := ORecv q); [exact HI|exact Hp|exact Eo| | |reflexivity|..].
      + repeat split; auto.
      + constructor; cbn -[Nat.add]; auto.
        * intros q'. unfold put. destruct (q' =? q); auto. rewrite E7. lia.
        * rewrite E10, E7. reflexivity.
      + cbn. intros q' Hq' Hqp'. rewrite put2_neq by auto. eapply chan_sender; [apply I2; auto|..]; cbn; auto.
      + cbn. intros q' Hq' Hqp'. destruct (Nat.eq_dec q' q) as [->|Hne].
        * rewrite put2_eq. eapply chan_posted; [apply I2; auto|..]; cbn; auto.
          -- intros t. rewrite E10. apply HnR. -- apply put_eq. -- apply in_app_iff. right. left. auto.
        * rewrite put2_neq by auto. eapply chan_receiver; [apply I2; auto|..]; cbn; auto.
          -- apply put_neq; auto. -- intros t. rewrite in_app_iff. cbn. split; [intros [H|[H|[]]]; auto; congruence | auto].
      + cbn. intros a b Ha Hb. rewrite put2_neq by auto. auto.
      + cbn. intros c q' Hq'. rewrite I3 by auto. unfold put. destruct (Nat.eqb_spec q' p) as [->|]; auto.
      + cbn. intros a. rewrite put2_neq by (destruct (Nat.eq_dec a p); [left|right]; congruence). apply I4.
    - (* copy *) destruct Hpre as (Hs1 & Hd & Hl). rewrite E5. rewrite (aget_nth _ s []), (aget_nth _ d []) by auto. cbn [bind].
      rewrite copy_into_ok by apply Hl. cbn [bind]. rewrite aset_ok by auto. cbn [bind].
      eexists; split; [reflexivity|]. intros w' [<-|[]]. do 2 eexists. eapply inv_quiet with (p := p) (tau := tau) (o := OCopy s d); eauto.
      + repeat split; auto. + constructor; cbn; auto.
    - (* drain *) destruct Hpre as (Hd & Hfit). destruct (r_reqR (w_rank w p)) as [|x0 R0] eqn:ER.
      + eexists; split; [reflexivity|]. intros w' [<-|[]]. do 2 eexists. eapply inv_quiet with (p := p) (tau := tau) (o := ODrain d); eauto.
        * split; auto.
        * constructor; cbn; auto. rewrite E5, <- E10. unfold acc. cbn [map suml].
          rewrite <- (list_eq_tab (reg (l_mem (l p)) d) 0%Qc) || idtac.
          assert (tab (length (reg (l_mem (l p)) d)) (fun i => (vat (reg (l_mem (l p)) d) i + 0)%Qc) = reg (l_mem (l p)) d) as ->.
          { symmetry. apply (eq_tab _ _ _ 0%Qc); auto. intros i Hi. unfold vat. ring. }
          unfold set_reg. rewrite upd_same; auto. apply nth_error_nth'. auto.
      + rewrite <- ER. rewrite <- ER in E10. clear x0 R0 ER.
        loop_inv (fun (k : nat) (acc0 : list world) => forall w', In w' acc0 -> exists ops' l', inv w' ops' l') ws E HIws.
        * lia.
        * intros ? [].
        * intros k ws0 Hk Hws0. destruct (nth_error_lt (r_reqR (w_rank w p)) k) as ((q & t) & Ek); [lia|].
          rewrite (aget_ok _ _ _ Ek). cbn [bind]. destruct (pending t (w_recv w q p)) eqn:Epd; [eexists; split; [reflexivity|auto]|].
          assert (~ In t (w_recv w q p)) as Hnp by (intros Hin; apply pending_in in Hin; congruence).
          pose proof (nth_error_In _ _ Ek) as Hin. pose proof Hin as HinR. rewrite E10 in Hin. destruct (Hfit _ _ Hin) as (Hft & Hsg).
          rewrite (process_ok _ (fun x v => tab (length v) (fun i => (vat v i + add_in (shared mgr p q) x i)%Qc)) w ops l p q d t); auto;
            [|rewrite E5; auto|intros x v Hx Hv; apply accumulateProcess_ok; auto].
          cbn [bind]. eexists; split; [reflexivity|]. intros w' Hw'. apply in_app_iff in Hw' as [Hw'|[<-|[]]]; auto.
          destruct (pop_split _ _ _ Ek) as (R1 & R2 & ER & Epop). rewrite Epop. cbn [set_reqs set_mem r_ops r_mem r_out r_in r_tagS r_tagR r_reqS r_reqU r_reqR r_coll].
          destruct (wf_R _ _ E4 _ _ Hin) as (Et & Hpos & HqP & Hqp).
          assert (NoDup (map fst (R1 ++ (q, t) :: R2))) as HnR by (rewrite <- ER, E10; apply (wf_nodup _ _ E4)).
          rewrite map_app in HnR. cbn [map fst] in HnR. pose proof (NoDup_remove _ _ _ HnR) as (HnR1 & HnR2). rewrite <- map_app in HnR1, HnR2.
          set (m' := set_reg (r_mem (w_rank w p)) d _).
          pose (l' := Lst m' (l_sent (l p)) (l_post (l p)) (l_S (l p)) (l_U (l p)) (R1 ++ R2) (l_con (l p)) (l_coll (l p))).
          assert (length (reg m' d) = length (reg (l_mem (l p)) d)) as Hlm.
          { unfold m'. rewrite reg_set, tab_length, E5 by (rewrite E5; auto). reflexivity. }
          assert (lpost p (ODrain d) l' = lpost p (ODrain d) (l p)) as Hpost.
          { unfold lpost, l'. cbn [l_mem l_sent l_post l_S l_U l_R l_con l_coll]. f_equal. unfold m'. rewrite set_reg_set, reg_set, E5 by (rewrite E5; auto).
            f_equal. rewrite <- E10, ER. symmetry. apply (acc_cons p _ (q, t)). }
          exists ops, (put l p l').
          assert (inv (set_rank w p (Rank (ODrain d :: map snd ops') m' (r_out (w_rank w p)) (r_in (w_rank w p)) (r_tagS (w_rank w p)) (r_tagR (w_rank w p)) (r_reqS (w_rank w p)) (r_reqU (w_rank w p)) (R1 ++ R2) (r_coll (w_rank w p)))) ops (put l p l')) as G; [|exact G].
          constructor.
          -- intros q' Hq'. cbn. destruct (Nat.eq_dec q' p) as [->|Hne]; [|rewrite !put_neq by auto; auto]. rewrite !put_eq, Eo.
             constructor; cbn [map fst snd r_ops r_mem r_out r_in r_tagS r_tagR r_reqS r_reqU r_reqR r_coll]; auto.
             ++ pose proof (ok_sorted _ _ _ _ _ HR) as Hso. exact Hso.
             ++ cbn [lrun fst snd]. rewrite Hpost. split; auto. split.
                ** unfold l', m'. cbn [l_mem]. rewrite set_reg_length, E5. auto.
                ** intros q2 t2 Hi2. cbn in Hi2. assert (In (q2, t2) (l_R (l p))) as Hi3. { rewrite <- E10, ER. apply in_app_iff. apply in_app_iff in Hi2 as [?|?]; cbn; auto. }
                   destruct (Hfit _ _ Hi3) as ((F1 & F2 & F3) & F4). split; auto. split; auto. unfold l'. cbn [l_mem]. rewrite Hlm. split; auto. unfold m'. rewrite set_reg_length, E5. auto.
             ++ constructor; cbn; try apply E4; auto. intros q2 t2 Hi2. apply (wf_R _ _ E4). rewrite <- E10, ER. apply in_app_iff. apply in_app_iff in Hi2 as [?|?]; cbn; auto.
          -- intros a b Ha Hb Hab. cbn. destruct (Nat.eq_dec a p) as [->|Hap].
             ++ rewrite put_eq, put_neq by auto. eapply chan_sender; [apply I2; auto|..]; auto.
             ++ rewrite (put_neq _ _ _ a) by auto. destruct (Nat.eq_dec b p) as [->|Hbp]; [|rewrite put_neq by auto; auto]. rewrite put_eq.
                destruct (Nat.eq_dec a q) as [->|Haq].
                ** eapply chan_used with (t := t); [apply I2; auto|auto|rewrite E7; auto|auto| | |]; cbn; auto.
                   intros t' Hi. apply HnR2. apply in_map_iff. exists (q, t'). auto.
                ** eapply chan_receiver; [apply I2; auto|..]; cbn; auto. intros t'. rewrite ER, !in_app_iff. cbn. split; [intros [?|?]; auto | intros [?|[H|?]]; auto; congruence].
          -- intros c q' Hq'. cbn. rewrite I3 by auto. unfold put. destruct (Nat.eqb_spec q' p) as [->|]; auto.
          -- apply I4.
        * rewrite E. eexists; split; [reflexivity|auto].
    - (* wait in unique *) destruct Hpre as ((t & Hin) & Hft & Hnd & Hsg).
      destruct (wf_R _ _ E4 _ _ Hin) as (Et & Hpos & HqP & Hqp).
      rewrite E10. destruct (find (fun x => fst x =? q) (l_R (l p))) as [(q' & t')|] eqn:Ef.
      2:{ eapply find_none in Ef; eauto. cbn in Ef. rewrite Nat.eqb_refl in Ef. discriminate. }
      apply find_some in Ef as (Hin' & Eq). cbn in Eq. apply Nat.eqb_eq in Eq. subst q'.
      destruct (wf_R _ _ E4 _ _ Hin') as (Et' & _). assert (t' = t) as -> by congruence.
      destruct (pending t (w_recv w q p)) eqn:Epd; [eexists; split; [reflexivity|intros ? []]|].
      assert (~ In t (w_recv w q p)) as Hnp by (intros Hi; apply pending_in in Hi; congruence).
      rewrite (process_ok _ (fun x v => tab (length v) (take_in (shared mgr p q) x v)) w ops l p q v t); auto;
        [|rewrite E10; auto|rewrite E5; auto|intros x u Hx Hu; apply uniqueProcess_ok; auto].
      cbn [bind]. eexists; split; [reflexivity|]. intros w' [<-|[]]. do 2 eexists. cbn [set_reqs set_mem r_ops r_mem r_out r_in r_tagS r_tagR r_reqS r_reqU r_reqR r_coll].
      eapply inv_move with (p := p) (tau := tau) (o := OWait q v); [exact HI|exact Hp|exact Eo| | |reflexivity|..].
      + split; [eexists; eauto|]. auto.
      + constructor; cbn [map fst snd r_ops r_mem r_out r_in r_tagS r_tagR r_reqS r_reqU r_reqR r_coll]; auto.
        cbn [lpost l_mem]. rewrite E5, Et. replace (50 + l_post (l p) q - 51) with (l_post (l p) q - 1) by lia. reflexivity.
      + cbn. intros q' Hq' Hqp'. eapply chan_sender; [apply I2; auto|..]; cbn; auto.
      + cbn. intros q' Hq' Hqp'. destruct (Nat.eq_dec q' q) as [->|Hne].
        * eapply chan_used with (t := t); [apply I2; auto|rewrite E10; auto|rewrite E7; auto|auto| | |]; cbn; auto.
          intros t' Hi. apply filter_In in Hi as (_ & Hi). cbn in Hi. rewrite Nat.eqb_refl in Hi. discriminate.
        * eapply chan_receiver; [apply I2; auto|..]; cbn; auto. intros t'. rewrite filter_In, E10. cbn. apply Nat.eqb_neq in Hne. rewrite Hne. cbn. tauto.
      + cbn. auto.
      + cbn. intros c q' Hq'. rewrite I3 by auto. unfold put. destruct (Nat.eqb_spec q' p) as [->|]; auto.
      + cbn. intros a. rewrite ?put2_neq by (destruct (Nat.eq_dec a p); [right|left]; congruence). apply I4.
    - (* Waitall of unique *) destruct (complete w p (r_reqU (w_rank w p))) eqn:Ec; eexists; (split; [reflexivity|]); [|intros ? []].
      intros w' [<-|[]]. do 2 eexists. eapply inv_quiet with (p := p) (tau := tau); eauto.
      + constructor; cbn; auto.
      + cbn. intros q t Hq Hqp Ht Hi. apply in_app_iff in Hi as [Hi|Hi]; [apply in_app_iff; auto|]. exfalso.
        eapply complete_in in Ec; eauto.
    - (* contribute *) destruct Hpre as (Hc1 & Hc2 & Hc3 & Hc4). eexists; split; [reflexivity|]. intros w' [<-|[]]. do 2 eexists.
      eapply inv_move with (p := p) (tau := tau) (o := OContribute h); [exact HI|exact Hp|exact Eo| | |reflexivity|..].
      + repeat split; auto.
      + constructor; cbn; auto.
      + cbn. intros q' Hq' Hqp'. eapply chan_sender; [apply I2; auto|..]; cbn; auto.
      + cbn. intros q' Hq' Hqp'. eapply chan_receiver; [apply I2; auto|..]; cbn; auto. tauto.
      + cbn. auto.
      + cbn. intros c q' Hq'. rewrite E11, <- Hc1, E5, Hc4. destruct (Nat.eq_dec q' p) as [->|Hne].
        * rewrite put_eq. cbn [l_con]. destruct (Nat.eq_dec c (l_con (l p))) as [->|Hnc].
          -- rewrite put2_eq, Nat.leb_refl. auto.
          -- rewrite put2_neq, I3 by auto. destruct (Nat.ltb_spec c (l_con (l p))), (Nat.leb_spec c (l_con (l p))); auto; lia.
        * rewrite put2_neq, put_neq, I3 by auto. reflexivity.
      + apply I4.
    - (* result *) destruct Hpre as (Hc1 & Hc2).
      destruct (contributions (w_coll w (r_coll (w_rank w p))) 0 P) as [cl|] eqn:Ecl; eexists; (split; [reflexivity|]); [|intros ? []].
      intros w' [<-|[]]. do 2 eexists.
      assert (cl = tab P (cval (l_coll (l p)))) as ->.
      { rewrite E11 in Ecl. unfold tab. assert (forall n f0 cl0, f0 + n <= P -> contributions (w_coll w (l_coll (l p))) f0 n = Some cl0 -> cl0 = map (cval (l_coll (l p))) (seq f0 n)) as G; [|apply (G P 0); auto].
        induction n as [|n IH]; intros f0 cl0 Hle Hcl; cbn [contributions seq map] in *; [congruence|].
        rewrite I3 in Hcl by lia. destruct (l_coll (l p) <? l_con (l f0)); [|discriminate].
        destruct (contributions _ (S f0) n) eqn:E; [|discriminate]. apply IH in E; [|lia]. injection Hcl as <-. congruence. }
      eapply inv_quiet with (p := p) (tau := tau) (o := OResult g); eauto.
      + split; auto.
      + constructor; cbn; auto. * congruence. 
    - eexists; split; [reflexivity|]. intros w' [<-|[]]. do 2 eexists. eapply inv_quiet with (p := p) (tau := tau) (o := OReturn); eauto.
      constructor; cbn; auto.
  Qed.

  (** The steps of MPI *)
  Lemma chan_copied p q i t rp rq sd nt rv : chan_ok p q rp rq sd nt rv -> nth_error sd i = Some t ->
    chan_ok p q rp rq (pop i sd) (nt ++ [(t, r_out rp q)]) rv.
  Proof.
    intros (s & r & c & x & d & [H1 H2 H3 H4 H5 H6 H7 H8 H9 H10 H11 H12]) E.
    assert (x < s) as Hx. { destruct (Nat.lt_ge_cases x s); auto. subst sd. rewrite tags_nil in E by auto. destruct i; discriminate. }
    assert (s = S x) as -> by lia. subst sd. rewrite tags_one in *. destruct i as [|[|i]]; cbn -[Nat.add] in E; try discriminate. injection E as <-.
    exists (S x), r, c, (S x), d. constructor; auto; try lia.
    - rewrite tags_nil by lia. reflexivity.
    - subst nt. rewrite H6, letters_snoc by lia. reflexivity.
  Qed.
  Lemma copy_step b w ops l p q i w' : inv w ops l -> p < P -> q < P -> copy_next b p q i w = Some w' -> p <> q -> inv w' ops l.
  Proof.
    intros [I1 I2 I3 I4] Hp Hq E Hpq. unfold copy_next in E. destruct (nth_error (w_send w p q) i) as [t|] eqn:Et; [|discriminate].
    destruct (b || pending t (w_recv w p q)); [|discriminate]. injection E as <-. constructor; cbn; auto.
    2:{ intros a. rewrite !put2_neq by (destruct (Nat.eq_dec a p); [right|left]; congruence). auto. }
    intros a c Ha Hc Hac. destruct (Nat.eq_dec a p) as [->|Hap]; [destruct (Nat.eq_dec c q) as [->|Hcq]|].
    - rewrite !put2_eq. apply chan_copied; auto.
    - rewrite !put2_neq by auto. auto.
    - rewrite !put2_neq by auto. auto.
  Qed.

  Lemma deliver_step w ops l p q i : inv w ops l -> p < P -> q < P -> p <> q ->
    exists o, deliver_next p q i w = Ok o /\ forall w', o = Some w' -> inv w' ops l.
  Proof using Hval.
    intros [I1 I2 I3 I4] Hp Hq Hpq. unfold deliver_next. destruct (nth_error (w_recv w p q) i) as [t|] eqn:Et; [|eexists; split; [reflexivity|discriminate]].
    destruct (I2 p q Hp Hq Hpq) as (s & r & c & x & d & [H1 H2 H3 H4 H5 H6 H7 H8 H9 H10 H11 H12]).
    assert (d < r) as Hdr. { destruct (Nat.lt_ge_cases d r); auto. rewrite H9, tags_nil in Et by auto. destruct i; discriminate. }
    assert (r = S c) as -> by lia. assert (d = c) as -> by lia.
    rewrite H9, tags_one in Et. destruct i as [|[|i]]; cbn -[Nat.add] in Et; try discriminate. injection Et as <-.
    rewrite H8. destruct (Nat.lt_ge_cases c x) as [Hcx|Hcx].
    2:{ rewrite letters_nil by auto. cbn. eexists; split; [reflexivity|discriminate]. }
    rewrite letters_cons by auto. cbn -[Nat.add]. rewrite Nat.eqb_refl.
    assert (length (msg p q c) = length (r_in (w_rank w q) p)) as Hl by (rewrite H11, H12 by lia; auto).
    rewrite Hl, Nat.leb_refl. cbn -[Nat.add]. eexists; split; [reflexivity|]. intros w' E. injection E as <-.
    rewrite skipn_all2, app_nil_r by lia. constructor; cbn -[Nat.add].
    - intros q' Hq'. unfold put. destruct (Nat.eqb_spec q' q) as [->|]; auto. destruct (I1 q Hq) as [E1 E2 E3 E4 E5 E6 E7 E8 E9 E10 E11]. constructor; auto.
    - intros a b Ha Hb Hab. destruct (Nat.eq_dec a p) as [->|Hap]; [destruct (Nat.eq_dec b q) as [->|Hbq]|].
      + rewrite !put2_eq, put_eq, put_neq by auto. exists s, (S c), c, x, (S c). constructor; cbn -[Nat.add]; auto; try lia.
        * rewrite H9, tags_one, Nat.sub_diag. reflexivity.
        * intros _. apply put_eq.
        * rewrite put_eq. lia.
      + rewrite !put2_neq by auto. unfold put. destruct (Nat.eqb_spec p q); [congruence|]. destruct (Nat.eqb_spec b q); [congruence|]. auto.
      + rewrite !put2_neq by auto. unfold put at 1. destruct (Nat.eqb_spec a q) as [->|Haq].
        * rewrite put_neq by auto. eapply chan_sender; [apply I2; auto|..]; auto.
        * unfold put at 1. destruct (Nat.eqb_spec b q) as [->|Hbq]; auto. eapply chan_receiver; [apply I2; auto|..]; cbn; auto. apply put_neq. auto. tauto.
    - auto.
    - intros a. rewrite !put2_neq by (destruct (Nat.eq_dec a p); [right|left]; congruence). auto.
  Qed.
End Protocol.
