(** What one rank does in a program, and the theorem for all ranks. *)
From Coq Require Import Sorted.
From Verif Require Import Util Lin OverlapModel OverlapSpec OverlapProofs OverlapProofs2 OverlapProofs3.
Local Open Scope nat_scope.
Set Default Proof Using "Type".

Definition is_in (q : nat) (l : list nat) : bool := existsb (Nat.eqb q) l.
Lemma is_in_true q l : is_in q l = true <-> In q l.
Proof. apply (pending_in q l). Qed.
Lemma is_in_count q l : NoDup l -> count_occ Nat.eq_dec l q = if is_in q l then 1 else 0.
Proof.
  intros H. destruct (is_in q l) eqn:E.
  - apply is_in_true in E. pose proof (proj1 (NoDup_count_occ Nat.eq_dec l) H q). apply (count_occ_In Nat.eq_dec) in E. lia.
  - apply count_occ_not_In. intros Hi. apply is_in_true in Hi. congruence.
Qed.

(** The message from p to q in a call *)
Definition active (mgr : nat -> manager) (c : call) (p q : nat) : bool :=
  match c with Acc _ _ | Exch _ _ _ => is_in q (neighbours (mgr p)) | Uni _ => is_in q (neighbours (mgr p)) && (q <? p) | Coll _ _ => false end.
Definition data (mgr : nat -> manager) (c : call) (m : nat -> mem) (p q : nat) : list Qc :=
  match c with Acc s _ | Exch s _ _ | Uni s => map (vat (reg (m p) s)) (shared mgr p q) | Coll _ _ => [] end.
Definition chan_now (mgr : nat -> manager) (p q k : nat) (r : round) (m : nat -> mem) : list (nat * list Qc) :=
  if active mgr (what r) p q then [(2 * k, data mgr (what r) (fun q => pre r q (m q)) p q)] else [].
Definition col_now (k : nat) (r : round) (m : nat -> mem) : list (nat * (nat -> list Qc)) :=
  match what r with Coll h _ => [(2 * k, fun q => h q (pre r q (m q)))] | _ => [] end.
Fixpoint chan_list (P : nat) (mgr : nat -> manager) (p q k : nat) (prog : list round) (m : nat -> mem) : list (nat * list Qc) :=
  match prog with [] => [] | r :: rest => chan_now mgr p q k r m ++ chan_list P mgr p q (S k) rest (round_spec P mgr r m) end.
Fixpoint col_list (P : nat) (mgr : nat -> manager) (k : nat) (prog : list round) (m : nat -> mem) : list (nat * (nat -> list Qc)) :=
  match prog with [] => [] | r :: rest => col_now k r m ++ col_list P mgr (S k) rest (round_spec P mgr r m) end.

Definition stamp (k : nat) (o : op) : nat :=
  match o with ODrain _ | OWait _ _ | OWaitallU | OResult _ | OReturn => S (2 * k) | _ => 2 * k end.
Definition stamped (k : nat) (ops : list op) : list (nat * op) := map (fun o => (stamp k o, o)) ops.
Fixpoint stamped_program (m : manager) (p k : nat) (prog : list round) : list (nat * op) :=
  match prog with [] => [] | r :: rest => stamped k (OCompute (pre r p) :: call_ops m p (what r)) ++ stamped_program m p (S k) rest end.

Lemma stamped_snd k ops : map snd (stamped k ops) = ops.
Proof. unfold stamped. rewrite map_map. cbn. apply map_id. Qed.
Lemma stamped_program_snd m p : forall prog k, map snd (stamped_program m p k prog) = program_ops m p prog.
Proof. induction prog as [|r prog IH]; intros k; cbn [stamped_program]; auto. rewrite map_app, stamped_snd, IH. reflexivity. Qed.

Lemma sorted_app (a b : list nat) : StronglySorted le a -> StronglySorted le b -> (forall x y, In x a -> In y b -> x <= y) -> StronglySorted le (a ++ b).
Proof.
  induction a as [|x a IH]; intros Ha Hb H; cbn; auto. apply StronglySorted_inv in Ha as (Ha & Hf). constructor.
  - apply IH; auto. intros; apply H; cbn; auto.
  - apply Forall_forall. intros y Hy. apply in_app_iff in Hy as [Hy|Hy]; [eapply Forall_forall in Hf; eauto|apply H; cbn; auto].
Qed.
Lemma sorted_const k (l : list nat) : (forall x, In x l -> x = k) -> StronglySorted le l.
Proof.
  induction l as [|x l IH]; intros H; constructor; auto. - apply IH. intros; apply H; cbn; auto.
  - apply Forall_forall. intros y Hy. rewrite (H x), (H y); cbn; auto.
Qed.
Definition body_op (o : op) : Prop := match o with ODrain _ | OWait _ _ | OWaitallU | OResult _ | OReturn => False | _ => True end.
Lemma stamped_sorted k a b : (forall o, In o a -> body_op o) -> (forall o, In o b -> ~ body_op o) -> StronglySorted le (map fst (stamped k (a ++ b))).
Proof.
  intros Ha Hb. unfold stamped. rewrite map_map, map_app. cbn.
  assert (forall x, In x (map (fun o => stamp k o) a) -> x = 2 * k) as Ea. { intros x Hx. apply in_map_iff in Hx as (o & <- & Ho). specialize (Ha o Ho). destruct o; cbn in *; tauto. }
  assert (forall x, In x (map (fun o => stamp k o) b) -> x = S (2 * k)) as Eb. { intros x Hx. apply in_map_iff in Hx as (o & <- & Ho). specialize (Hb o Ho). destruct o; cbn in *; tauto. }
  apply sorted_app.
  - eapply sorted_const; eauto. - eapply sorted_const; eauto. - intros x y Hx Hy. apply Ea in Hx. apply Eb in Hy. lia.
Qed.
Lemma stamped_bounds k ops x : In x (map fst (stamped k ops)) -> 2 * k <= x /\ x <= S (2 * k).
Proof. unfold stamped. rewrite map_map. cbn. intros H. apply in_map_iff in H as (o & <- & _). destruct o; cbn; lia. Qed.
Lemma call_split m p c : exists a b, call_ops m p c = a ++ b /\ (forall o, In o a -> body_op o) /\ (forall o, In o b -> ~ body_op o).
Proof.
  destruct c as [s d|s f d|v|h g]; cbn [call_ops].
  - exists (OWaitall :: flat_map (fun q => [OSend q s; ORecv q]) (neighbours m) ++ match d with None => [] | Some d => [OCopy s d] end), [ODrain (match d with None => s | Some d => d end); OReturn].
    split; [cbn; rewrite <- app_assoc; reflexivity|]. split.
    + intros o [<-|Ho]; cbn; auto. apply in_app_iff in Ho as [Ho|Ho].
      * apply in_flat_map in Ho as (q & _ & [<-|[<-|[]]]); cbn; auto. * destruct d; [destruct Ho as [<-|[]]; cbn; auto|destruct Ho].
    + intros o [<-|[<-|[]]]; cbn; auto.
  - exists (OWaitall :: map (fun q => OSend q s) (neighbours m) ++ [OCompute (f p)] ++ map ORecv (neighbours m)), [ODrain d; OReturn].
    split; [cbn; rewrite <- app_assoc; reflexivity|]. split.
    + intros o [<-|Ho]; cbn; auto. apply in_app_iff in Ho as [Ho|[<-|Ho]]; cbn; auto; apply in_map_iff in Ho as (q & <- & _); cbn; auto.
    + intros o [<-|[<-|[]]]; cbn; auto.
  - exists (map (fun q => if q <? p then OSendU q v else ORecv q) (neighbours m)), (flat_map (fun q => if q <? p then [] else [OWait q v]) (neighbours m) ++ [OWaitallU; OReturn]).
    split; [reflexivity|]. split.
    + intros o Ho. apply in_map_iff in Ho as (q & <- & _). destruct (q <? p); cbn; auto.
    + intros o Ho. apply in_app_iff in Ho as [Ho|[<-|[<-|[]]]]; cbn; auto. apply in_flat_map in Ho as (q & _ & Ho). destruct (q <? p); [destruct Ho|destruct Ho as [<-|[]]; cbn; auto].
  - exists [OContribute (h p)], [OResult (g p); OReturn]. split; [reflexivity|]. split; [intros o [<-|[]]; cbn; auto|intros o [<-|[<-|[]]]; cbn; auto].
Qed.
Lemma program_bounds m p : forall prog k x, In x (map fst (stamped_program m p k prog)) -> 2 * k <= x.
Proof.
  induction prog as [|r prog IH]; intros k x H; cbn [stamped_program] in H; [destruct H|]. rewrite map_app in H. apply in_app_iff in H as [H|H].
  - apply stamped_bounds in H. lia. - apply IH in H. lia.
Qed.
Lemma program_sorted m p : forall prog k, StronglySorted le (map fst (stamped_program m p k prog)).
Proof.
  induction prog as [|r prog IH]; intros k; cbn [stamped_program]; [constructor|]. rewrite map_app. apply sorted_app; auto.
  - destruct (call_split m p (what r)) as (a & b & -> & Ha & Hb). apply (stamped_sorted k (OCompute (pre r p) :: a) b); auto. intros o [<-|Ho]; cbn; auto.
  - intros x y Hx Hy. apply stamped_bounds in Hx. apply program_bounds in Hy. lia.
Qed.

Ltac pair_eq Ei := let Ea := fresh in let Eb := fresh in pose proof (f_equal fst Ei) as Ea; pose proof (f_equal snd Ei) as Eb; cbn [fst snd] in Ea, Eb; clear Ei; rewrite <- Ea, <- Eb; clear Ea Eb.
Section Rank.
  Variables (P K : nat) (size : nat -> nat) (mgr : nat -> manager) (chan : nat -> nat -> list (nat * list Qc)) (cols : list (nat * (nat -> list Qc))).
  Hypothesis Hvalid : valid P size mgr.
  Local Notation run := (lrun P mgr chan cols).

  Lemma lrun_app p a : forall b l f, run p (a ++ b) l f <-> exists m, run p a l m /\ run p b m f.
  Proof.
    induction a as [|o a IH]; intros b l f; cbn [app lrun].
    - split; [intros H; exists l; auto|intros (m & -> & H); auto].
    - rewrite IH. split.
      + intros (H1 & m & H2 & H3). exists m. auto.
      + intros (m & (H1 & H2) & H3). split; auto. exists m. auto.
  Qed.

  Definition sends (ops : list op) : list nat := flat_map (fun o => match o with OSend q _ | OSendU q _ => [q] | _ => [] end) ops.
  Definition recvs (ops : list op) : list nat := flat_map (fun o => match o with ORecv q => [q] | _ => [] end) ops.
  Definition reqs_S (p : nat) (dn : nat -> nat -> list (nat * list Qc)) (ops : list op) : list (nat * nat) := flat_map (fun o => match o with OSend q _ => [(q, 51 + length (dn p q))] | _ => [] end) ops.
  Definition reqs_U (p : nat) (dn : nat -> nat -> list (nat * list Qc)) (ops : list op) : list (nat * nat) := flat_map (fun o => match o with OSendU q _ => [(q, 51 + length (dn p q))] | _ => [] end) ops.
  Definition reqs_R (p : nat) (dn : nat -> nat -> list (nat * list Qc)) (ops : list op) : list (nat * nat) := flat_map (fun o => match o with ORecv q => [(q, 51 + length (dn q p))] | _ => [] end) ops.

  Section Body.
    Variables (p k : nat) (dn : nat -> nat -> list (nat * list Qc)) (m : mem).
    Definition send_ok (q v : nat) : Prop :=
      q < P /\ q <> p /\ In q (neighbours (mgr p)) /\ v < length m /\ (forall i, In i (shared mgr p q) -> i < length (reg m v)) /\
      map (vat (reg m v)) (shared mgr p q) = msg chan p q (length (dn p q)) /\ length (dn p q) < length (chan p q) /\ sig chan p q (length (dn p q)) = 2 * k.
    Definition recv_ok (q : nat) : Prop := q < P /\ q <> p /\ In q (neighbours (mgr p)) /\ length (dn q p) < length (chan q p) /\ sig chan q p (length (dn q p)) = 2 * k.
    Definition opok (o : op) : Prop := match o with OSend q v | OSendU q v => send_ok q v | ORecv q => recv_ok q | _ => False end.

    Lemma run_body : forall ops l, (forall o, In o ops -> opok o) -> NoDup (sends ops) -> NoDup (recvs ops) -> l_mem l = m ->
      (forall q, In q (sends ops) -> l_sent l q = length (dn p q) /\ (forall t, ~ In (q, t) (l_S l)) /\ (forall t, ~ In (q, t) (l_U l))) ->
      (forall q, In q (recvs ops) -> l_post l q = length (dn q p) /\ (forall t, ~ In (q, t) (l_R l))) ->
      exists f, run p (stamped k ops) l f /\ l_mem f = m /\
        (forall q, l_sent f q = l_sent l q + count_occ Nat.eq_dec (sends ops) q) /\
        (forall q, l_post f q = l_post l q + count_occ Nat.eq_dec (recvs ops) q) /\
        l_S f = l_S l ++ reqs_S p dn ops /\ l_U f = l_U l ++ reqs_U p dn ops /\ l_R f = l_R l ++ reqs_R p dn ops /\ l_con f = l_con l /\ l_coll f = l_coll l.
    Proof.
      induction ops as [|o ops IH]; intros l Ho Hns Hnr Hm Hs Hr.
      - exists l. cbn. rewrite !app_nil_r. repeat split; auto.
      - assert (opok o) as Hok by (apply Ho; left; auto).
        assert (forall o', In o' ops -> opok o') as Ho' by (intros o' Hi; apply Ho; right; auto).
        destruct o as [g| |q v|q v|q|s d|d|q v| |h|g| ]; try (destruct Hok; fail).
        + destruct (Hs q ltac:(left; auto)) as (Esq & HS & HU). change (sends (OSend q v :: ops)) with (q :: sends ops) in *. inversion_clear Hns as [|? ? Hq Hns'].
          destruct (IH (lpost P mgr chan cols p (OSend q v) l)) as (f & R & E1 & E2 & E3 & E4 & E5 & E6 & E7 & E8); auto.
          { intros q' Hq'. assert (q' <> q) by (intros ->; auto). cbn. rewrite put_neq by auto. destruct (Hs q' ltac:(right; auto)) as (A & B & C). split; auto. split; auto.
            intros t Hi. apply in_app_iff in Hi as [Hi|[Hi|[]]]; [eapply B; eauto|congruence]. }
          exists f. cbn [stamped map lrun fst snd stamp]. split; [split; [|exact R]|].
          { destruct Hok as (A1 & A2 & A3 & A4 & A5 & A6 & A7 & A8). cbn [lpre]. unfold lsend. rewrite Esq, Hm. repeat split; auto. }
          repeat split; auto.
          * intros q'. rewrite E2. cbn [lpost l_sent count_occ]. unfold put. destruct (Nat.eqb_spec q' q) as [->|]; destruct (Nat.eq_dec q _); try congruence; lia.
          * rewrite E4. cbn [lpost l_S]. rewrite Esq, <- app_assoc. reflexivity.
        + destruct (Hs q ltac:(left; auto)) as (Esq & HS & HU). change (sends (OSendU q v :: ops)) with (q :: sends ops) in *. inversion_clear Hns as [|? ? Hq Hns'].
          destruct (IH (lpost P mgr chan cols p (OSendU q v) l)) as (f & R & E1 & E2 & E3 & E4 & E5 & E6 & E7 & E8); auto.
          { intros q' Hq'. assert (q' <> q) by (intros ->; auto). cbn. rewrite put_neq by auto. destruct (Hs q' ltac:(right; auto)) as (A & B & C). split; auto. split; auto.
            intros t Hi. apply in_app_iff in Hi as [Hi|[Hi|[]]]; [eapply C; eauto|congruence]. }
          exists f. cbn [stamped map lrun fst snd stamp]. split; [split; [|exact R]|].
          { destruct Hok as (A1 & A2 & A3 & A4 & A5 & A6 & A7 & A8). cbn [lpre]. unfold lsend. rewrite Esq, Hm. repeat split; auto. }
          repeat split; auto.
          * intros q'. rewrite E2. cbn [lpost l_sent count_occ]. unfold put. destruct (Nat.eqb_spec q' q) as [->|]; destruct (Nat.eq_dec q _); try congruence; lia.
          * rewrite E5. cbn [lpost l_U]. rewrite Esq, <- app_assoc. reflexivity.
        + destruct (Hr q ltac:(left; auto)) as (Erq & HR). change (recvs (ORecv q :: ops)) with (q :: recvs ops) in *. inversion_clear Hnr as [|? ? Hq Hnr'].
          destruct (IH (lpost P mgr chan cols p (ORecv q) l)) as (f & R & E1 & E2 & E3 & E4 & E5 & E6 & E7 & E8); auto.
          { intros q' Hq'. assert (q' <> q) by (intros ->; auto). cbn. rewrite put_neq by auto. destruct (Hr q' ltac:(right; auto)) as (A & B). split; auto.
            intros t Hi. apply in_app_iff in Hi as [Hi|[Hi|[]]]; [eapply B; eauto|congruence]. }
          exists f. cbn [stamped map lrun fst snd stamp]. split; [split; [|exact R]|].
          { destruct Hok as (A1 & A2 & A3 & A4 & A5). cbn [lpre]. rewrite Erq. repeat split; auto. }
          repeat split; auto.
          * intros q'. rewrite E3. cbn [lpost l_post count_occ]. unfold put. destruct (Nat.eqb_spec q' q) as [->|]; destruct (Nat.eq_dec q _); try congruence; lia.
          * rewrite E6. cbn [lpost l_R]. rewrite Erq, <- app_assoc. reflexivity.
    Qed.
  End Body.

  (** Waiting for the messages of unique, one after the other *)
  Lemma run_waits p k dn v (w : nat -> list Qc) : forall qs l, NoDup qs ->
    l_R l = map (fun q => (q, 51 + length (dn q p : list (nat * list Qc)))) qs ->
    (forall q, In q qs -> l_post l q = S (length (dn q p)) /\ fits mgr p (l_mem l) v q /\ NoDup (shared mgr p q) /\ sig chan q p (length (dn q p)) = 2 * k /\ msg chan q p (length (dn q p)) = values_of mgr p q (w q)) ->
    exists f, run p (stamped k (map (fun q => OWait q v) qs)) l f /\ l_mem f = (match qs with [] => l_mem l | _ => set_reg (l_mem l) v (fold_left (taken mgr p w) qs (reg (l_mem l) v)) end) /\
      l_R f = [] /\ l_sent f = l_sent l /\ l_post f = l_post l /\ l_S f = l_S l /\ l_U f = l_U l /\ l_con f = l_con l /\ l_coll f = l_coll l.
  Proof.
    induction qs as [|q qs IH]; intros l Hn ER Hq.
    - exists l. cbn in *. repeat split; auto.
    - inversion_clear Hn as [|? ? Hnq Hn']. destruct (Hq q ltac:(left; auto)) as (Ep & (F1 & F2 & F3) & Hd & Esg & Em).
      destruct (IH (lpost P mgr chan cols p (OWait q v) l)) as (f & R & E1 & E2 & E3 & E4 & E5 & E6 & E7 & E8); auto.
      + cbn [lpost l_R]. rewrite ER. cbn [map filter fst]. rewrite Nat.eqb_refl. cbn [negb].
        clear - Hnq. induction qs as [|q' qs IH]; cbn [map filter fst]; auto. destruct (Nat.eqb_spec q' q) as [->|]; [exfalso; apply Hnq; left; auto|].
        cbn [negb]. f_equal. apply IH. intros Hi. apply Hnq. right. auto.
      + intros q' Hq'. destruct (Hq q' ltac:(right; auto)) as (A1 & (A2 & A3 & A4) & A5 & A6 & A7). cbn [lpost l_post l_mem]. repeat split; auto.
        * rewrite set_reg_length. auto.
        * rewrite reg_set by auto. rewrite tab_length. auto.
      + exists f. cbn [map stamped lrun fst snd stamp]. split; [split; [|exact R]|].
        * cbn [lpre]. split; [exists (51 + length (dn q p)); rewrite ER; left; auto|]. split; [repeat split; auto|]. split; auto.
          rewrite Ep. replace (S (length (dn q p)) - 1) with (length (dn q p)) by lia. rewrite Esg. lia.
        * repeat split; auto. rewrite E1. cbn [lpost l_mem].
          assert (tab (length (reg (l_mem l) v)) (take_in (shared mgr p q) (msg chan q p (l_post l q - 1)) (reg (l_mem l) v)) = taken mgr p w (reg (l_mem l) v) q) as ->.
          { rewrite Ep. replace (S (length (dn q p)) - 1) with (length (dn q p)) by lia. rewrite Em. reflexivity. }
          cbn [fold_left]. destruct qs as [|q2 qs]; [reflexivity|]. rewrite set_reg_set, reg_set by auto. reflexivity.
  Qed.

  Lemma sends_app a b : sends (a ++ b) = sends a ++ sends b.
  Proof. apply flat_map_app. Qed.
  Lemma flat_one {X Y} (f : X -> Y) l : flat_map (fun x => [f x]) l = map f l.
  Proof. induction l; cbn; congruence. Qed.
  Lemma flat_none {X Y} (l : list X) : flat_map (fun _ => @nil Y) l = [].
  Proof. induction l; cbn; auto. Qed.
  Lemma flat_map_map {X Y Z} (f : X -> Y) (g : Y -> list Z) l : flat_map g (map f l) = flat_map (fun x => g (f x)) l.
  Proof. induction l; cbn; congruence. Qed.
  Lemma flat_map_flat {X Y Z} (f : X -> list Y) (g : Y -> list Z) l : flat_map g (flat_map f l) = flat_map (fun x => flat_map g (f x)) l.
  Proof. induction l; cbn; auto. rewrite flat_map_app. congruence. Qed.
  Lemma flat_map_ext_in {X Y} (f g : X -> list Y) l : (forall x, In x l -> f x = g x) -> flat_map f l = flat_map g l.
  Proof. induction l as [|x l IH]; cbn; intros H; auto. rewrite (H x) by auto. f_equal. apply IH. auto. Qed.
  Lemma flat_filter {X Y} (c : X -> bool) (f : X -> Y) l : flat_map (fun x => if c x then [f x] else []) l = map f (filter c l).
  Proof. induction l as [|x l IH]; cbn; auto. destruct (c x); cbn; congruence. Qed.

  (** State of rank p before round k *)
  Record ready (p k : nat) (dn : nat -> nat -> list (nat * list Qc)) (dc : list (nat * (nat -> list Qc))) (m : mem) (l : lst) : Prop := Ready {
    rd_mem : l_mem l = m;
    rd_sent : forall q, q < P -> l_sent l q = length (dn p q);
    rd_post : forall q, q < P -> l_post l q = length (dn q p);
    rd_U : l_U l = [];
    rd_R : l_R l = [];
    rd_con : l_con l = length dc;
    rd_coll : l_coll l = length dc;
    rd_S : forall q t, In (q, t) (l_S l) -> sig chan p q (t - 51) < 2 * k }.

  Lemma acc_spec p base R (v : nat -> list Qc) dn : R = map (fun q => (q, 51 + length (dn q p : list (nat * list Qc)))) (neighbours (mgr p)) ->
    (forall q, In q (neighbours (mgr p)) -> msg chan q p (length (dn q p)) = values_of mgr p q (v q)) ->
    acc mgr chan p base R = accumulated mgr p base v.
  Proof.
    intros -> H. unfold acc, accumulated. apply tab_ext. intros i Hi. f_equal. rewrite map_map. cbn [fst snd]. f_equal. apply map_ext_in.
    intros q Hq. replace (51 + length (dn q p) - 51) with (length (dn q p)) by lia. rewrite H by auto. reflexivity.
  Qed.

  Definition next_dn (k : nat) (r : round) (m : nat -> mem) (dn : nat -> nat -> list (nat * list Qc)) (a b : nat) : list (nat * list Qc) := dn a b ++ chan_now mgr a b k r m.

  Lemma neighbour_facts p q : p < P -> In q (neighbours (mgr p)) -> q < P /\ q <> p /\ In p (neighbours (mgr q)).
  Proof using Hvalid. intros Hp Hq. destruct (valid_rank _ _ _ Hvalid p q Hp Hq) as (H1 & H2). split; auto. split; auto. eapply valid_sym; eauto. Qed.

  (** One round *)
  Lemma run_round p k r m dn dc l (rest : nat -> nat -> list (nat * list Qc)) (crest : list (nat * (nat -> list Qc))) :
    p < P -> (forall q, q < P -> shaped K (size q) (m q)) -> keeps P K size (pre r) -> proper_call P K size mgr (what r) ->
    (forall a b, a < P -> b < P -> chan a b = dn a b ++ chan_now mgr a b k r m ++ rest a b) ->
    cols = dc ++ col_now k r m ++ crest ->
    ready p k dn dc (m p) l ->
    (match what r with Uni _ => l_S l = [] | _ => True end) ->
    exists f, run p (stamped k (OCompute (pre r p) :: call_ops (mgr p) p (what r))) l f /\
      ready p (S k) (next_dn k r m dn) (dc ++ col_now k r m) (round_spec P mgr r m p) f /\
      (match what r with Acc _ _ | Exch _ _ _ => True | _ => l_S f = l_S l end).
  Proof using Hvalid.
    intros Hp Hsh Hkeep Hcall Hchan Hcols [R1 R2 R3 R4 R5 R6 R7 R8] HU.
    set (m0 := fun q => pre r q (m q)).
    assert (forall q, q < P -> shaped K (size q) (m0 q)) as Hsh0 by (intros q Hq; apply Hkeep; auto).
    pose proof (valid_keys _ _ _ Hvalid p Hp) as Hnd.
    assert (forall a b, a < P -> b < P -> active mgr (what r) a b = true ->
      msg chan a b (length (dn a b)) = data mgr (what r) m0 a b /\ sig chan a b (length (dn a b)) = 2 * k /\ length (dn a b) < length (chan a b)) as Hmsg.
    { intros a b Ha Hb Hact. unfold msg, sig. rewrite (Hchan a b Ha Hb). unfold chan_now. rewrite Hact. rewrite app_nth2, Nat.sub_diag by lia. cbn [app nth fst snd].
      repeat split. rewrite app_length. cbn [length]. lia. }
    pose (l1 := lpost P mgr chan cols p (OCompute (pre r p)) l).
    assert (l_mem l1 = m0 p) as Em1 by (cbn; rewrite R1; reflexivity).
    assert (forall a b, length (chan_now mgr a b k r m) = if active mgr (what r) a b then 1 else 0) as Hnow by (intros a b; unfold chan_now; destruct (active mgr (what r) a b); auto).
    assert (forall a b, a < P -> b < P -> is_in b (neighbours (mgr a)) = is_in a (neighbours (mgr b))) as sym_in.
    { intros a b Ha Hb. destruct (is_in b (neighbours (mgr a))) eqn:E1, (is_in a (neighbours (mgr b))) eqn:E2; auto.
      - apply is_in_true in E1. apply (valid_sym _ _ _ Hvalid) in E1; auto. apply is_in_true in E1. congruence.
      - apply is_in_true in E2. apply (valid_sym _ _ _ Hvalid) in E2; auto. apply is_in_true in E2. congruence. }
    assert (forall q c l0, is_in q (filter c l0) = is_in q l0 && c q) as in_filter.
    { intros q c l0. destruct (is_in q (filter c l0)) eqn:E1.
      - apply is_in_true in E1. apply filter_In in E1 as (E1 & E2). apply is_in_true in E1. rewrite E1, E2. auto.
      - destruct (is_in q l0) eqn:E2, (c q) eqn:E3; auto. apply is_in_true in E2. assert (In q (filter c l0)) as E4 by (apply filter_In; auto). apply is_in_true in E4. congruence. }
    unfold next_dn, round_spec. fold m0. destruct r as [pr c]. cbn [what pre] in *.
    destruct c as [s d|s g d|v|h g]; cbn [call_ops].
    - (* accumulate *)
      destruct Hcall as (Hs & Hd). set (ops := flat_map (fun q => [OSend q s; ORecv q]) (neighbours (mgr p))).
      assert (sends ops = neighbours (mgr p)) as Esd. { unfold sends, ops. rewrite flat_map_flat. cbn. rewrite flat_one. apply map_id. }
      assert (recvs ops = neighbours (mgr p)) as Erc. { unfold recvs, ops. rewrite flat_map_flat. cbn. rewrite flat_one. apply map_id. }
      assert (forall q, In q (neighbours (mgr p)) -> active mgr (Acc s d) p q = true /\ active mgr (Acc s d) q p = true) as Hact.
      { intros q Hq. destruct (neighbour_facts p q Hp Hq) as (_ & _ & Hq'). cbn. split; apply is_in_true; auto. }
      destruct (run_body p k dn (m0 p) ops (lpost P mgr chan cols p OWaitall l1)) as (f1 & Rn1 & F1 & F2 & F3 & F4 & F5 & F6 & F7 & F8).
      + intros o Ho. apply in_flat_map in Ho as (q & Hq & Ho). destruct (neighbour_facts p q Hp Hq) as (Hq1 & Hq2 & Hq3). destruct (Hact q Hq) as (A1 & A2).
        destruct (Hmsg p q Hp Hq1 A1) as (M1 & M2 & M3). destruct (Hmsg q p Hq1 Hp A2) as (M4 & M5 & M6).
        destruct (Hsh0 p Hp) as (L1 & L2).
        destruct Ho as [<-|[<-|[]]]; cbn [opok].
        * repeat split; auto; try lia. intros i Hi. rewrite L2 by auto. eapply (valid_range _ _ _ Hvalid); eauto.
        * repeat split; auto.
      + rewrite Esd. auto. + rewrite Erc. auto. + exact Em1.
      + rewrite Esd. intros q Hq. destruct (neighbour_facts p q Hp Hq) as (Hq1 & _). split; [apply R2; auto|]. cbn. rewrite R4. split; intros t [].
      + rewrite Erc. intros q Hq. destruct (neighbour_facts p q Hp Hq) as (Hq1 & _). split; [apply R3; auto|]. cbn. rewrite R5. intros t [].
      + cbn [l_S l_U l_R l_con l_coll lpost l1 l_sent l_post] in *.
        assert (l_R f1 = map (fun q => (q, 51 + length (dn q p))) (neighbours (mgr p))) as ER.
        { rewrite F6, R5. cbn [app]. unfold reqs_R, ops. rewrite flat_map_flat. cbn -[Nat.add]. apply flat_one. }
        assert (l_S f1 = map (fun q => (q, 51 + length (dn p q))) (neighbours (mgr p))) as ES.
        { rewrite F4. cbn [app]. unfold reqs_S, ops. rewrite flat_map_flat. cbn -[Nat.add]. apply flat_one. }
        assert (l_U f1 = []) as EU. { rewrite F5, R4. cbn [app]. unfold reqs_U, ops. rewrite flat_map_flat. cbn. apply flat_none. }
        set (dd := match d with None => s | Some d => d end).
        pose (f2 := match d with None => f1 | Some d => lpost P mgr chan cols p (OCopy s d) f1 end).
        destruct (Hsh0 p Hp) as (L1 & L2). assert (dd < K) as Hdd by (unfold dd; destruct d; auto).
        assert (reg (l_mem f2) dd = reg (m0 p) s /\ K <= length (l_mem f2) /\ forall v, set_reg (l_mem f2) dd v = set_reg (m0 p) dd v) as (Ed & El & Est).
        { unfold f2, dd. destruct d as [d|]; cbn [lpost l_mem]; rewrite F1; [|auto]. rewrite reg_set, set_reg_length by lia. split; auto. split; [lia|].
          intros v. apply set_reg_set. }
        assert (l_R f2 = l_R f1 /\ l_S f2 = l_S f1 /\ l_U f2 = l_U f1 /\ l_sent f2 = l_sent f1 /\ l_post f2 = l_post f1 /\ l_con f2 = l_con f1 /\ l_coll f2 = l_coll f1) as (G1 & G2 & G3 & G4 & G5 & G6 & G7).
        { unfold f2. destruct d; cbn; auto 10. }
        exists (lpost P mgr chan cols p (ODrain dd) f2). split; [|split; [|auto]].
        * cbn [stamped map lrun fst snd stamp]. fold (stamped k). split; [exact I|]. split; [intros q t Hi; apply R8; auto|].
          fold l1. rewrite !map_app. apply lrun_app. exists f1. split; [exact Rn1|]. apply lrun_app. exists f2. split.
          -- unfold f2. destruct d as [d|]; cbn [map lrun fst snd stamp]; [|auto]. split; auto. cbn [lpre]. rewrite F1. repeat split; try lia. rewrite !L2; auto.
          -- cbn [map lrun fst snd stamp]. fold dd. split; [|split; [exact I|reflexivity]]. cbn [lpre]. split; [lia|]. rewrite G1, ER. intros q t Hi.
             apply in_map_iff in Hi as (q' & Ei & Hi). pair_eq Ei. destruct (neighbour_facts p q' Hp Hi) as (Hq1 & Hq2 & Hq3). destruct (Hact q' Hi) as (A1 & A2).
             destruct (Hmsg q' p Hq1 Hp A2) as (M4 & M5 & M6). split.
             ++ repeat split; auto; [lia|]. rewrite Ed, L2 by auto. intros i Hi'. eapply (valid_range _ _ _ Hvalid); eauto.
             ++ replace (51 + length (dn q' p) - 51) with (length (dn q' p)) by lia. lia.
        * constructor; cbn [lpost l_mem l_sent l_post l_S l_U l_R l_con l_coll].
          -- cbn [call_spec]. fold dd. rewrite Est, Ed. f_equal. apply acc_spec with (dn := dn); [congruence|].
             intros q Hq. destruct (neighbour_facts p q Hp Hq) as (Hq1 & _). destruct (Hact q Hq) as (A1 & A2). destruct (Hmsg q p Hq1 Hp A2) as (M4 & _). exact M4.
          -- intros q Hq. rewrite G4, F2, Esd, is_in_count, R2, app_length, Hnow by auto. reflexivity.
          -- intros q Hq. rewrite G5, F3, Erc, is_in_count, R3, app_length, Hnow by auto. cbn [active]. f_equal. rewrite (sym_in q p) by auto. reflexivity.
          -- congruence. -- reflexivity.
          -- rewrite G6, F7, R6. unfold col_now. cbn [what]. rewrite app_nil_r. reflexivity.
          -- rewrite G7, F8, R7. unfold col_now. cbn [what]. rewrite app_nil_r. reflexivity.
          -- intros q t Hi. rewrite G2, ES in Hi. apply in_map_iff in Hi as (q' & Ei & Hi). pair_eq Ei.
             destruct (neighbour_facts p q' Hp Hi) as (Hq1 & Hq2 & Hq3). destruct (Hact q' Hi) as (A1 & A2). destruct (Hmsg p q' Hp Hq1 A1) as (M1 & M2 & M3).
             replace (51 + length (dn p q') - 51) with (length (dn p q')) by lia. lia.
    - (* send, compute, receive *)
      destruct Hcall as (Hs & Hd & Hg). set (ops := map (fun q => OSend q s) (neighbours (mgr p))). set (ops2 := map ORecv (neighbours (mgr p))).
      assert (sends ops = neighbours (mgr p)) as Esd. { unfold sends, ops. rewrite flat_map_map. cbn. rewrite flat_one. apply map_id. }
      assert (recvs ops = []) as Erc. { unfold recvs, ops. rewrite flat_map_map. cbn. apply flat_none. }
      assert (sends ops2 = []) as Esd2. { unfold sends, ops2. rewrite flat_map_map. cbn. apply flat_none. }
      assert (recvs ops2 = neighbours (mgr p)) as Erc2. { unfold recvs, ops2. rewrite flat_map_map. cbn. rewrite flat_one. apply map_id. }
      assert (forall q, In q (neighbours (mgr p)) -> active mgr (Exch s g d) p q = true /\ active mgr (Exch s g d) q p = true) as Hact.
      { intros q Hq. destruct (neighbour_facts p q Hp Hq) as (_ & _ & Hq'). cbn. split; apply is_in_true; auto. }
      destruct (Hsh0 p Hp) as (L1 & L2).
      destruct (run_body p k dn (m0 p) ops (lpost P mgr chan cols p OWaitall l1)) as (f1 & Rn1 & F1 & F2 & F3 & F4 & F5 & F6 & F7 & F8).
      + intros o Ho. apply in_map_iff in Ho as (q & <- & Hq). destruct (neighbour_facts p q Hp Hq) as (Hq1 & Hq2 & Hq3). destruct (Hact q Hq) as (A1 & A2).
        destruct (Hmsg p q Hp Hq1 A1) as (M1 & M2 & M3). cbn [opok].
        repeat split; auto; try lia. intros i Hi. rewrite L2 by auto. eapply (valid_range _ _ _ Hvalid); eauto.
      + rewrite Esd. auto. + rewrite Erc. constructor. + exact Em1.
      + rewrite Esd. intros q Hq. destruct (neighbour_facts p q Hp Hq) as (Hq1 & _). split; [apply R2; auto|]. cbn. rewrite R4. split; intros t [].
      + rewrite Erc. intros q [].
      + cbn [l_S l_U l_R l_con l_coll lpost l1 l_sent l_post] in *.
        assert (shaped K (size p) (g p (m0 p))) as (L3 & L4) by (apply Hg; auto).
        pose (f2 := lpost P mgr chan cols p (OCompute (g p)) f1).
        destruct (run_body p k dn (g p (m0 p)) ops2 f2) as (f3 & Rn2 & J1 & J2 & J3 & J4 & J5 & J6 & J7 & J8).
        * intros o Ho. apply in_map_iff in Ho as (q & <- & Hq). destruct (neighbour_facts p q Hp Hq) as (Hq1 & Hq2 & Hq3). destruct (Hact q Hq) as (A1 & A2).
          destruct (Hmsg q p Hq1 Hp A2) as (M4 & M5 & M6). cbn [opok]. repeat split; auto.
        * rewrite Esd2. constructor. * rewrite Erc2. auto. * cbn. rewrite F1. reflexivity.
        * rewrite Esd2. intros q [].
        * rewrite Erc2. intros q Hq. destruct (neighbour_facts p q Hp Hq) as (Hq1 & _). cbn [f2 lpost l_post l_R]. rewrite F3, Erc, R3, F6, R5 by auto. split; [cbn [count_occ]; lia|].
          cbn [app]. unfold reqs_R, ops. rewrite flat_map_map. cbn. rewrite flat_none. intros t [].
        * cbn [f2 l_S l_U l_R l_con l_coll lpost l_sent l_post] in *.
          assert (l_R f3 = map (fun q => (q, 51 + length (dn q p))) (neighbours (mgr p))) as ER.
          { rewrite J6, F6, R5. cbn [app]. unfold reqs_R, ops, ops2. rewrite !flat_map_map. cbn -[Nat.add]. rewrite flat_none. apply flat_one. }
          assert (l_S f3 = map (fun q => (q, 51 + length (dn p q))) (neighbours (mgr p))) as ES.
          { rewrite J4, F4. cbn [app]. unfold reqs_S, ops, ops2. rewrite !flat_map_map. cbn -[Nat.add]. rewrite flat_none, app_nil_r. apply flat_one. }
          assert (l_U f3 = []) as EU. { rewrite J5, F5, R4. cbn [app]. unfold reqs_U, ops, ops2. rewrite !flat_map_map. cbn. rewrite !flat_none. reflexivity. }
          exists (lpost P mgr chan cols p (ODrain d) f3). split; [|split; [|auto]].
          -- cbn [stamped map lrun fst snd stamp]. split; [exact I|]. split; [intros q t Hi; apply R8; auto|].
             fold l1. rewrite map_app. apply lrun_app. exists f1. split; [exact Rn1|]. cbn [app map lrun fst snd stamp]. split; [exact I|].
             rewrite map_app. apply lrun_app. exists f3. split; [exact Rn2|].
             cbn [map lrun fst snd stamp]. split; [|split; [exact I|reflexivity]]. cbn [lpre]. rewrite J1. split; [lia|]. rewrite ER. intros q t Hi.
             apply in_map_iff in Hi as (q' & Ei & Hi). pair_eq Ei. destruct (neighbour_facts p q' Hp Hi) as (Hq1 & Hq2 & Hq3). destruct (Hact q' Hi) as (A1 & A2).
             destruct (Hmsg q' p Hq1 Hp A2) as (M4 & M5 & M6). split.
             ++ repeat split; auto; [lia|]. rewrite L4 by auto. intros i Hi'. eapply (valid_range _ _ _ Hvalid); eauto.
             ++ replace (51 + length (dn q' p) - 51) with (length (dn q' p)) by lia. lia.
          -- constructor; cbn [lpost l_mem l_sent l_post l_S l_U l_R l_con l_coll].
             ++ cbn [call_spec]. rewrite J1. f_equal. apply acc_spec with (dn := dn); [congruence|].
                intros q Hq. destruct (neighbour_facts p q Hp Hq) as (Hq1 & _). destruct (Hact q Hq) as (A1 & A2). destruct (Hmsg q p Hq1 Hp A2) as (M4 & _). exact M4.
             ++ intros q Hq. rewrite J2, F2, Esd, Esd2, is_in_count, R2, app_length, Hnow by auto. cbn [count_occ active]. lia.
             ++ intros q Hq. rewrite J3, F3, Erc, Erc2. cbn [count_occ]. rewrite is_in_count, R3, app_length, Hnow by auto. cbn [count_occ active]. rewrite (sym_in q p) by auto. lia.
             ++ congruence. ++ reflexivity.
             ++ rewrite J7, F7, R6. unfold col_now. cbn [what]. rewrite app_nil_r. reflexivity.
             ++ rewrite J8, F8, R7. unfold col_now. cbn [what]. rewrite app_nil_r. reflexivity.
             ++ intros q t Hi. rewrite ES in Hi. apply in_map_iff in Hi as (q' & Ei & Hi). pair_eq Ei.
                destruct (neighbour_facts p q' Hp Hi) as (Hq1 & Hq2 & Hq3). destruct (Hact q' Hi) as (A1 & A2). destruct (Hmsg p q' Hp Hq1 A1) as (M1 & M2 & M3).
                replace (51 + length (dn p q') - 51) with (length (dn p q')) by lia. lia.
    - (* unique *)
      destruct Hcall as (Hv & Hndup). set (ops := map (fun q => if q <? p then OSendU q v else ORecv q) (neighbours (mgr p))).
      assert (sends ops = filter (fun q => q <? p) (neighbours (mgr p))) as Esd.
      { unfold sends, ops. rewrite flat_map_map. rewrite (flat_map_ext_in _ (fun q => if q <? p then [q] else [])); [rewrite (flat_filter _ (fun q => q)); apply map_id|]. intros q _. destruct (q <? p); auto. }
      assert (recvs ops = filter (fun q => p <? q) (neighbours (mgr p))) as Erc.
      { unfold recvs, ops. rewrite flat_map_map. rewrite (flat_map_ext_in _ (fun q => if p <? q then [q] else [])); [rewrite (flat_filter _ (fun q => q)); apply map_id|].
        intros q Hq. destruct (neighbour_facts p q Hp Hq) as (_ & Hne & _). destruct (Nat.ltb_spec q p), (Nat.ltb_spec p q); auto; lia. }
      destruct (Hsh0 p Hp) as (L1 & L2).
      destruct (run_body p k dn (m0 p) ops l1) as (f1 & Rn1 & F1 & F2 & F3 & F4 & F5 & F6 & F7 & F8).
      + intros o Ho. apply in_map_iff in Ho as (q & <- & Hq). destruct (neighbour_facts p q Hp Hq) as (Hq1 & Hq2 & Hq3).
        destruct (Nat.ltb_spec q p) as [Hlt|Hge]; cbn [opok].
        * destruct (Hmsg p q Hp Hq1) as (M1 & M2 & M3). { cbn. apply andb_true_iff. split; [apply is_in_true; auto|apply Nat.ltb_lt; auto]. }
          repeat split; auto; try lia. intros i Hi. rewrite L2 by auto. eapply (valid_range _ _ _ Hvalid); eauto.
        * destruct (Hmsg q p Hq1 Hp) as (M4 & M5 & M6). { cbn. apply andb_true_iff. split; [apply is_in_true; auto|apply Nat.ltb_lt; lia]. }
          repeat split; auto.
      + rewrite Esd. apply NoDup_filter. auto. + rewrite Erc. apply NoDup_filter. auto. + exact Em1.
      + rewrite Esd. intros q Hq. apply filter_In in Hq as (Hq & _). destruct (neighbour_facts p q Hp Hq) as (Hq1 & _). split; [apply R2; auto|]. cbn. rewrite R4, HU. split; intros t [].
      + rewrite Erc. intros q Hq. apply filter_In in Hq as (Hq & _). destruct (neighbour_facts p q Hp Hq) as (Hq1 & _). split; [apply R3; auto|]. cbn. rewrite R5. intros t [].
      + cbn [l_S l_U l_R l_con l_coll lpost l1 l_sent l_post] in *.
        set (qs := filter (fun q => p <? q) (neighbours (mgr p))) in *.
        assert (l_R f1 = map (fun q => (q, 51 + length (dn q p))) qs) as ER.
        { rewrite F6, R5. cbn [app]. unfold reqs_R, ops, qs. rewrite flat_map_map. rewrite <- (flat_filter (fun q => p <? q) (fun q => (q, 51 + length (dn q p)))). apply flat_map_ext_in.
          intros q Hq. destruct (neighbour_facts p q Hp Hq) as (_ & Hne & _). destruct (Nat.ltb_spec q p), (Nat.ltb_spec p q); auto; lia. }
        assert (l_S f1 = l_S l) as ES. { rewrite F4. unfold reqs_S, ops. rewrite flat_map_map. rewrite (flat_map_ext_in _ (fun _ => [])), flat_none, app_nil_r; auto. intros q _. destruct (q <? p); auto. }
        assert (l_U f1 = map (fun q => (q, 51 + length (dn p q))) (filter (fun q => q <? p) (neighbours (mgr p)))) as EU.
        { rewrite F5, R4. cbn [app]. unfold reqs_U, ops. rewrite flat_map_map. rewrite <- (flat_filter (fun q => q <? p) (fun q => (q, 51 + length (dn p q)))). apply flat_map_ext_in.
          intros q Hq. destruct (q <? p); auto. }
        destruct (run_waits p k dn v (fun q => reg (m0 q) v) qs f1) as (f2 & Rn2 & J1 & J2 & J3 & J4 & J5 & J6 & J7 & J8); auto.
        { apply NoDup_filter. auto. }
        { intros q Hq. unfold qs in Hq. apply filter_In in Hq as (Hq & Hlt). apply Nat.ltb_lt in Hlt. destruct (neighbour_facts p q Hp Hq) as (Hq1 & Hq2 & Hq3).
          destruct (Hmsg q p Hq1 Hp) as (M4 & M5 & M6). { cbn. apply andb_true_iff. split; [apply is_in_true; auto|apply Nat.ltb_lt; lia]. }
          split; [rewrite F3, Erc, is_in_count, R3 by (auto; apply NoDup_filter; auto)|].
          { replace (is_in q qs) with true; [lia|]. symmetry. apply is_in_true. apply filter_In. split; auto. apply Nat.ltb_lt. auto. }
          split; [|split; [auto|split; [auto|exact M4]]]. rewrite F1. repeat split; auto; [lia|]. rewrite L2 by auto. intros i Hi. eapply (valid_range _ _ _ Hvalid); eauto. }
        exists (lpost P mgr chan cols p OWaitallU f2). split; [|split].
        * cbn [stamped map lrun fst snd stamp]. split; [exact I|]. fold l1. rewrite !map_app. apply lrun_app. exists f1. split; [exact Rn1|].
          apply lrun_app. exists f2. split.
          -- assert (flat_map (fun q => if q <? p then [] else [OWait q v]) (neighbours (mgr p)) = map (fun q => OWait q v) qs) as ->; [|exact Rn2].
             unfold qs. rewrite <- (flat_filter (fun q => p <? q) (fun q => OWait q v)). apply flat_map_ext_in. intros q Hq. destruct (neighbour_facts p q Hp Hq) as (_ & Hne & _).
             destruct (Nat.ltb_spec q p), (Nat.ltb_spec p q); auto; lia.
          -- cbn [map lrun fst snd stamp]. split; [|split; [exact I|reflexivity]]. cbn [lpre]. rewrite J6, EU. intros q t Hi. apply in_map_iff in Hi as (q' & Ei & Hi). pair_eq Ei.
             apply filter_In in Hi as (Hi & Hlt). destruct (neighbour_facts p q' Hp Hi) as (Hq1 & Hq2 & Hq3).
             destruct (Hmsg p q' Hp Hq1) as (M1 & M2 & M3). { cbn. apply andb_true_iff. split; [apply is_in_true; auto|auto]. }
             replace (51 + length (dn p q') - 51) with (length (dn p q')) by lia. lia.
        * constructor; cbn [lpost l_mem l_sent l_post l_S l_U l_R l_con l_coll].
          -- rewrite J1, F1. cbn [call_spec]. fold qs. destruct qs as [|q0 qs0]; [|reflexivity]. cbn [fold_left]. unfold set_reg. rewrite upd_same; auto. apply nth_error_nth'. lia.
          -- intros q Hq. rewrite J3, F2, Esd, is_in_count, R2, app_length, Hnow by (auto; apply NoDup_filter; auto). cbn [active]. f_equal. rewrite in_filter. reflexivity.
          -- intros q Hq. rewrite J4, F3, Erc, is_in_count, R3, app_length, Hnow by (auto; apply NoDup_filter; auto). cbn [active]. f_equal. unfold qs. rewrite in_filter, (sym_in q p) by auto. reflexivity.
          -- reflexivity. -- auto.
          -- rewrite J7, F7, R6. unfold col_now. cbn [what]. rewrite app_nil_r. reflexivity.
          -- rewrite J8, F8, R7. unfold col_now. cbn [what]. rewrite app_nil_r. reflexivity.
          -- rewrite J5, ES, HU. intros q t [].
        * cbn [lpost l_S]. congruence.
    - (* collective operations *)
      exists (lpost P mgr chan cols p (OResult (g p)) (lpost P mgr chan cols p (OContribute (h p)) l1)). split; [|split; [|reflexivity]].
      + cbn [stamped map lrun fst snd stamp]. split; [exact I|]. fold l1. split; [|split; [|split; [exact I|reflexivity]]].
        * cbn [lpre l1 lpost l_con l_coll l_mem]. unfold csig, cval. rewrite R6, R7, Hcols. unfold col_now. cbn [what]. rewrite app_nth2, Nat.sub_diag by lia. cbn [app nth fst snd].
          repeat split; auto. -- rewrite app_length. cbn [length]. lia. -- rewrite R1. reflexivity.
        * cbn [lpre l1 lpost l_con l_coll l_mem]. unfold csig. rewrite R6, R7, Hcols. unfold col_now. cbn [what]. rewrite app_nth2, Nat.sub_diag by lia. cbn [app nth fst snd]. split; lia.
      + constructor; cbn [l1 lpost l_mem l_sent l_post l_S l_U l_R l_con l_coll].
        * cbn [call_spec]. rewrite R1. f_equal. unfold cval. rewrite R7, Hcols. unfold col_now. cbn [what]. rewrite app_nth2, Nat.sub_diag by lia. reflexivity.
        * intros q Hq. rewrite app_length, Hnow, R2 by auto. cbn [active]. lia.
        * intros q Hq. rewrite app_length, Hnow, R3 by auto. cbn [active]. lia.
        * auto. * auto.
        * rewrite R6, app_length. cbn [col_now what length]. lia.
        * rewrite R7, app_length. cbn [col_now what length]. lia.
        * intros q t Hi. specialize (R8 q t Hi). lia.
  Qed.

  Lemma spec_shaped r m : (forall q, q < P -> shaped K (size q) (m q)) -> keeps P K size (pre r) -> proper_call P K size mgr (what r) ->
    forall q, q < P -> shaped K (size q) (round_spec P mgr r m q).
  Proof using chan.
    intros Hsh Hk Hc q Hq. unfold round_spec.
    assert (shaped K (size q) (pre r q (m q))) as Hs0 by (apply Hk; auto).
    assert (forall mm d v, shaped K (size q) mm -> length v = size q -> shaped K (size q) (set_reg mm d v)) as G.
    { intros mm d v (A1 & A2) Hv. split; [rewrite set_reg_length; auto|]. intros k Hlt. unfold reg, set_reg. destruct (Nat.eq_dec d k) as [->|Hne].
      - rewrite nth_upd_eq by lia. auto. - rewrite nth_upd_neq by auto. apply A2. auto. }
    destruct (what r) as [s d|s f d|v|h g]; cbn [call_spec proper_call] in *.
    - apply G; auto. unfold accumulated. rewrite tab_length. apply Hs0. tauto.
    - destruct Hc as (A1 & A2 & A3). assert (shaped K (size q) (f q (pre r q (m q)))) as Hs1 by (apply A3; auto). apply G; auto. unfold accumulated. rewrite tab_length. apply Hs1. auto.
    - apply G; auto. destruct Hc as (A1 & _).
      assert (forall qs base, length base = size q -> length (fold_left (taken mgr q (fun q0 => reg (pre r q0 (m q0)) v)) qs base) = size q) as L.
      { induction qs as [|q0 qs IH]; cbn; auto. intros base Hb. apply IH. unfold taken. rewrite tab_length. auto. }
      apply L. apply Hs0. auto.
    - apply Hc; auto.
  Qed.

  Lemma lwf_run p : forall ops l f, lwf P p l -> run p ops l f -> lwf P p f.
  Proof. induction ops as [|o ops IH]; cbn; intros l f Hw H; [subst; auto|]. destruct H as (H1 & H2). eapply IH; [|exact H2]. eapply lwf_post; eauto. Qed.

  (** The whole program *)
  Lemma run_program p : p < P -> forall prog k m dn dc l,
    proper P K size mgr prog -> (forall q, q < P -> shaped K (size q) (m q)) ->
    (forall a b, a < P -> b < P -> chan a b = dn a b ++ chan_list P mgr a b k prog m) -> cols = dc ++ col_list P mgr k prog m ->
    ready p k dn dc (m p) l ->
    (l_S l = [] /\ unique_first prog) \/ Forall (fun r => match what r with Uni _ => False | _ => True end) prog ->
    exists f, run p (stamped_program (mgr p) p k prog) l f /\ l_mem f = program_spec P mgr prog m p /\
      (forall q, q < P -> l_sent f q = length (chan p q)) /\ (forall q, q < P -> l_post f q = length (chan q p)) /\ l_con f = length cols.
  Proof using Hvalid.
    intros Hp. induction prog as [|r prog IH]; intros k m dn dc l Hprop Hsh Hchan Hcols Hrd Huf; cbn [stamped_program].
    - exists l. destruct Hrd as [R1 R2 R3 R4 R5 R6 R7 R8]. cbn [lrun program_spec fold_left] in *. cbn [chan_list col_list] in *. repeat split; auto.
      + intros q Hq. rewrite R2, Hchan, app_nil_r by auto. auto.
      + intros q Hq. rewrite R3, Hchan, app_nil_r by auto. auto.
      + rewrite R6, Hcols, app_nil_r. auto.
    - inversion_clear Hprop as [|? ? (Hk & Hc) Hprop']. cbn [chan_list col_list] in Hchan, Hcols.
      destruct (run_round p k r m dn dc l (fun a b => chan_list P mgr a b (S k) prog (round_spec P mgr r m)) (col_list P mgr (S k) prog (round_spec P mgr r m)) Hp Hsh Hk Hc Hchan Hcols Hrd) as (f1 & Rn & Hrd' & HS).
      { destruct Huf as [(ES & Hu)|Hu]; [destruct (what r); auto|]. inversion_clear Hu as [|? ? Hu1 Hu2]. destruct (what r); auto. destruct Hu1. }
      destruct (IH (S k) (round_spec P mgr r m) (next_dn k r m dn) (dc ++ col_now k r m) f1) as (f & Rn' & E1 & E2 & E3 & E4); auto.
      + apply spec_shaped; auto.
      + intros a b Ha Hb. unfold next_dn. rewrite Hchan, <- app_assoc by auto. reflexivity.
      + rewrite Hcols, <- app_assoc. reflexivity.
      + destruct Huf as [(ES & Hu)|Hu]; [|right; inversion_clear Hu; auto]. cbn [unique_first] in Hu. destruct (what r); [right; auto|right; auto|left|left]; split; auto; congruence.
      + exists f. split; [apply lrun_app; exists f1; auto|]. split; [exact E1|]. auto.
  Qed.
End Rank.
