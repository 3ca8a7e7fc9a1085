(** Transfer matrices. *)
From Verif Require Import Util Lin DenseModel DenseSpec DenseProofs H2Model H2Spec TransferModel TransferSpec TransferProofs TransferProofs2.
Local Open Scope nat_scope.
Set Default Proof Using "Type".

Lemma points_ok G n b : wf_cluster G n -> length b = order n * dim G ->
  exists b', points G (gbox n) (order n) b = Ok b' /\ obuf (order n) (dim G) b' (fun i l => Some (node G n l i)).
Proof.
  intros H Hb. destruct (obuf_any _ _ _ Hb) as (P & HP).
  apply (obuf_loop (order n) (dim G) P (fun i l => node G n l i) (fun i j xi =>
    bj <- aget (gbox n) j ;; e <- aget (cheb G (order n)) i ;;
    wr xi (i * dim G + j) ((snd bj - fst bj) * half * (e + 1) + fst bj)%Qc) b HP).
  intros i j b1 P1 Hi Hj H1 _. rewrite (aget_nth (gbox n) j (0, 0)%Qc) by (rewrite (wc_box _ _ H); auto). cbn [bind].
  rewrite (aget_nth (cheb G (order n)) i 0%Qc) by (rewrite (wc_nodes _ _ H); auto). cbn [bind].
  match goal with |- exists _, wr _ _ ?v = _ /\ _ => replace v with (node G n j i) end; [apply obuf_wr; auto|].
  unfold node, vat. ring.
Qed.

Lemma absq_le tol a b : (0 <= tol)%Qc -> apart_by tol a b = true -> a <> b.
Proof.
  intros Ht H E. unfold apart_by in H. subst b. replace (a - a)%Qc with 0%Qc in H by ring.
  apply negb_true_iff in H. unfold absq in H. change (Qle_bool 0 0%Qc) with true in H. cbn [this] in H.
  assert (Qle_bool 0%Qc tol = true) by (apply Qle_bool_iff; exact Ht). congruence.
Qed.
Lemma absq_ge (a : Qc) : (a <= absq a)%Qc /\ (- a <= absq a)%Qc.
Proof.
  unfold absq. destruct (Qle_bool 0 a) eqn:E.
  - apply Qle_bool_iff in E. assert (H : (0 <= a)%Qc) by exact E. split; [apply Qcle_refl|].
    apply Qcle_trans with 0%Qc; auto. apply Qcopp_le_compat in H. exact H.
  - assert (H : (a <= 0)%Qc). { destruct (Qclt_le_dec a 0) as [Hl|Hl]; [apply Qclt_le_weak; auto|]. exfalso.
      assert (Qle_bool 0 a = true) by (apply Qle_bool_iff; exact Hl). congruence. }
    split; [|apply Qcle_refl]. apply Qcle_trans with 0%Qc; auto. apply Qcopp_le_compat in H. exact H.
Qed.
Lemma apart_false tol a b : clear tol a b -> apart_by tol a b = false -> a = b.
Proof.
  intros [E|H] Hf; auto. exfalso. unfold apart_by in Hf. apply negb_false_iff in Hf. apply Qle_bool_iff in Hf.
  assert (Hf' : (absq (a - b) <= tol)%Qc) by exact Hf. destruct (absq_ge (a - b)%Qc) as (H1 & H2).
  destruct H as [H|H].
  - apply (Qcle_not_lt _ _ (Qcle_trans _ _ _ H1 Hf') H).
  - replace (- (a - b))%Qc with (b - a)%Qc in H2 by ring. apply (Qcle_not_lt _ _ (Qcle_trans _ _ _ H2 Hf') H).
Qed.
Lemma sub_nz (a b : Qc) : a <> b -> (a - b <> 0)%Qc.
Proof. intros H E. apply H. replace a with (a - b + b)%Qc by ring. rewrite E. ring. Qed.

Section Build.
  Variables (G : geo) (p c : ginfo).
  Hypothesis (HG : wf_geo G) (Hp : wf_cluster G p) (Hc : wf_cluster G c) (Hcl : clear_nodes G p c).
  Let mP := order p.
  Let mC := order c.
  Definition omega_val (j l : nat) : Qc := prodf mP (fun k => node G c l j - node G p l k)%Qc.
  Definition beta_val (i l : nat) : Qc := prodf mP (fun k => if k =? i then 1%Qc else node G p l i - node G p l k)%Qc.

  Lemma omega_ok xiC xiP : is_array mC (dim G) xiC (fun i l => node G c l i) -> is_array mP (dim G) xiP (fun i l => node G p l i) ->
    exists b, build_omega G mC mP xiC xiP = Ok b /\ obuf mC (dim G) b (fun j l => Some (omega_val j l)).
  Proof using.
    intros HC HP. unfold build_omega.
    set (St := fun (j k l : nat) b => obuf mC (dim G) b (fun r s => Some (prodf (if r <? j then mP else if r =? j then (if s <? l then S k else k) else 0) (fun k => node G c s r - node G p s k)%Qc))).
    destruct (for_range_inv (fun j b => obuf mC (dim G) b (fun r s => Some (if r <? j then omega_val r s else 1%Qc)))
      (fun j om => for_range 0 mP (fun k om => for_range 0 (dim G) (fun l om =>
        a <- dget xiC j l ;; b <- dget xiP k l ;; p <- ix mC (dim G) j l ;; multo om p (a - b)%Qc) om) om) 0 mC (repeat (Some 1%Qc) (mC * dim G))) as (b & E & H).
    - lia.
    - apply (obuf_repeat mC (dim G) (Some 1%Qc)).
    - intros j b0 Hj H0.
      destruct (for_range_inv (fun k b => obuf mC (dim G) b (fun r s => Some (if r <? j then omega_val r s else if r =? j then prodf k (fun k => node G c s r - node G p s k)%Qc else 1%Qc)))
        (fun k om => for_range 0 (dim G) (fun l om =>
          a <- dget xiC j l ;; b <- dget xiP k l ;; p <- ix mC (dim G) j l ;; multo om p (a - b)%Qc) om) 0 mP b0) as (b & E & H).
      + lia.
      + eapply obuf_ext; [exact H0|]. intros r s _ _. cbn beta. cbn [prodf]. destruct (r <? j), (r =? j); auto.
      + intros k b1 Hk H1.
        destruct (for_range_inv (fun l b => obuf mC (dim G) b (fun r s => Some (if r <? j then omega_val r s else if r =? j then prodf (if s <? l then S k else k) (fun k => node G c s r - node G p s k)%Qc else 1%Qc)))
          (fun l om => a <- dget xiC j l ;; b <- dget xiP k l ;; p <- ix mC (dim G) j l ;; multo om p (a - b)%Qc) 0 (dim G) b1) as (b & E & H).
        * lia.
        * eapply obuf_ext; [exact H1|]. intros r s _ _. cbn beta. destruct (Nat.ltb_spec s 0); [lia|auto].
        * intros l b2 Hl H2. rewrite (array_get mC (dim G) xiC _ j l HC) by lia. cbn [bind]. rewrite (array_get mP (dim G) xiP _ k l HP) by lia. cbn [bind].
          rewrite ix_ok by lia. cbn [bind].
          destruct (obuf_multo mC (dim G) b2 _ j l (node G c l j - node G p l k)%Qc (prodf k (fun k => node G c l j - node G p l k)%Qc) H2) as (b3 & E3 & H3); [lia|lia| |].
          { rewrite Nat.ltb_irrefl, Nat.eqb_refl, Nat.ltb_irrefl. auto. }
          exists b3. split; auto. eapply obuf_ext; [exact H3|]. intros r s Hr Hs. cbn beta. unfold put.
          destruct (Nat.eqb_spec r j) as [->|Nr]; cbn [andb]; [|auto]. rewrite Nat.ltb_irrefl.
          destruct (Nat.eqb_spec s l) as [->|Ns]; [destruct (Nat.ltb_spec l (S l)); [auto|lia]|].
          destruct (Nat.ltb_spec s l), (Nat.ltb_spec s (S l)); auto; lia.
        * exists b. split; auto. eapply obuf_ext; [exact H|]. intros r s Hr Hs. cbn beta. destruct (Nat.ltb_spec s (dim G)); [auto|lia].
      + exists b. split; auto. eapply obuf_ext; [exact H|]. intros r s Hr Hs. cbn beta.
        destruct (Nat.ltb_spec r j), (Nat.ltb_spec r (S j)), (Nat.eqb_spec r j); auto; lia.
    - exists b. split; auto. eapply obuf_ext; [exact H|]. intros r s Hr Hs. cbn beta. destruct (Nat.ltb_spec r mC); [auto|lia].
  Qed.
  Lemma beta_ok xiP : is_array mP (dim G) xiP (fun i l => node G p l i) ->
    exists b, build_beta G mP xiP = Ok b /\ obuf mP (dim G) b (fun j l => Some (beta_val j l)).
  Proof using c mC.
    intros HP. unfold build_beta.
    set (fac := fun s r k => if k =? r then 1%Qc else (node G p s r - node G p s k)%Qc).
    destruct (for_range_inv (fun j b => obuf mP (dim G) b (fun r s => Some (if r <? j then beta_val r s else 1%Qc)))
      (fun j be => for_range 0 mP (fun k be =>
        if k =? j then Ok be else for_range 0 (dim G) (fun l be =>
          a <- dget xiP j l ;; b <- dget xiP k l ;; p <- ix mP (dim G) j l ;; multo be p (a - b)%Qc) be) be) 0 mP (repeat (Some 1%Qc) (mP * dim G))) as (b & E & H).
    - lia.
    - apply (obuf_repeat mP (dim G) (Some 1%Qc)).
    - intros j b0 Hj H0.
      destruct (for_range_inv (fun k b => obuf mP (dim G) b (fun r s => Some (if r <? j then beta_val r s else if r =? j then prodf k (fac s r) else 1%Qc)))
        (fun k be => if k =? j then Ok be else for_range 0 (dim G) (fun l be =>
          a <- dget xiP j l ;; b <- dget xiP k l ;; p <- ix mP (dim G) j l ;; multo be p (a - b)%Qc) be) 0 mP b0) as (b & E & H).
      + lia.
      + eapply obuf_ext; [exact H0|]. intros r s _ _. cbn beta. cbn [prodf]. destruct (r <? j), (r =? j); auto.
      + intros k b1 Hk H1. destruct (Nat.eqb_spec k j) as [->|Nk].
        { exists b1. split; auto. eapply obuf_ext; [exact H1|]. intros r s Hr Hs. cbn beta. destruct (r <? j); auto.
          destruct (Nat.eqb_spec r j) as [->|]; auto. cbn [prodf]. unfold fac at 3. rewrite Nat.eqb_refl. f_equal. ring. }
        destruct (for_range_inv (fun l b => obuf mP (dim G) b (fun r s => Some (if r <? j then beta_val r s else if r =? j then prodf (if s <? l then S k else k) (fac s r) else 1%Qc)))
          (fun l om => a <- dget xiP j l ;; b <- dget xiP k l ;; p <- ix mP (dim G) j l ;; multo om p (a - b)%Qc) 0 (dim G) b1) as (b & E & H).
        * lia.
        * eapply obuf_ext; [exact H1|]. intros r s _ _. cbn beta. destruct (Nat.ltb_spec s 0); [lia|auto].
        * intros l b2 Hl H2. rewrite (array_get mP (dim G) xiP _ j l HP) by lia. cbn [bind]. rewrite (array_get mP (dim G) xiP _ k l HP) by lia. cbn [bind].
          rewrite ix_ok by lia. cbn [bind].
          destruct (obuf_multo mP (dim G) b2 _ j l (node G p l j - node G p l k)%Qc (prodf k (fac l j)) H2) as (b3 & E3 & H3); [lia|lia| |].
          { rewrite Nat.ltb_irrefl, Nat.eqb_refl, Nat.ltb_irrefl. auto. }
          exists b3. split; auto. eapply obuf_ext; [exact H3|]. intros r s Hr Hs. cbn beta. unfold put.
          destruct (Nat.eqb_spec r j) as [->|Nr]; cbn [andb]; [|auto]. rewrite Nat.ltb_irrefl.
          destruct (Nat.eqb_spec s l) as [->|Ns].
          -- destruct (Nat.ltb_spec l (S l)); [|lia]. cbn [prodf]. unfold fac at 3. destruct (Nat.eqb_spec k j); [lia|auto].
          -- destruct (Nat.ltb_spec s l), (Nat.ltb_spec s (S l)); auto; lia.
        * exists b. split; auto. eapply obuf_ext; [exact H|]. intros r s Hr Hs. cbn beta. destruct (Nat.ltb_spec s (dim G)); [auto|lia].
      + exists b. split; auto. eapply obuf_ext; [exact H|]. intros r s Hr Hs. cbn beta.
        destruct (Nat.ltb_spec r j), (Nat.ltb_spec r (S j)), (Nat.eqb_spec r j); auto; lia.
    - exists b. split; auto. eapply obuf_ext; [exact H|]. intros r s Hr Hs. cbn beta. destruct (Nat.ltb_spec r mP); [auto|lia].
  Qed.

  (** The factor of one direction. *)
  Lemma factor_ok i j l : i < mP -> j < mC -> l < dim G ->
    (if apart_by tol8 (node G p l i) (node G c l j) then omega_val j l / (node G c l j - node G p l i) / beta_val i l else 1)%Qc
    = lag mP (node G p l) i (node G c l j).
  Proof using Hp Hcl.
    intros Hi Hj Hl. pose proof (Hcl l i j Hl Hi Hj) as Hx. destruct (apart_by tol8 (node G p l i) (node G c l j)) eqn:E.
    - assert (Hn : node G p l i <> node G c l j) by (apply (absq_le tol8); [discriminate|auto]).
      unfold omega_val. rewrite (prodf_without mP _ i Hi). unfold lag, beta_val.
      transitivity (prodf mP (fun k => (if k =? i then 1 else node G c l j - node G p l k) / (if k =? i then 1 else node G p l i - node G p l k))%Qc).
      + rewrite prodf_div. unfold Qcdiv. set (a := prodf mP _). set (b := prodf mP _).
        transitivity (a * ((node G c l j - node G p l i) * / (node G c l j - node G p l i)) * / b)%Qc; [ring|].
        rewrite Qcmult_inv_r by (apply sub_nz; auto). ring.
      + apply prodf_ext. intros k Hk. destruct (k =? i); auto.
    - apply (apart_false tol8 _ _ Hx) in E. rewrite <- E. rewrite lag_at by (auto; apply node_distinct; auto). rewrite Nat.eqb_refl. auto.
  Qed.

  Section Entries.
    Variables (xiC xiP omega beta : dense).
    Hypothesis (H1 : is_array mC (dim G) xiC (fun i l => node G c l i)) (H2 : is_array mP (dim G) xiP (fun i l => node G p l i))
      (H3 : is_array mC (dim G) omega omega_val) (H4 : is_array mP (dim G) beta beta_val).
    Lemma entry_ok I J b P : obuf (mP ^ dim G) (mC ^ dim G) b P -> I < mP ^ dim G -> J < mC ^ dim G -> P I J = Some 1%Qc ->
      exists b', build_entry G xiC xiP omega beta (digits mP (dim G) I) (digits mC (dim G) J) (I * mC ^ dim G + J) b = Ok b' /\
        obuf (mP ^ dim G) (mC ^ dim G) b' (put P I J (LT G p I (gpoint G c J))).
    Proof using H1 H2 H3 H4 Hp Hcl Hc.
      intros Hb HI HJ HP. unfold build_entry.
      pose proof (wc_order _ _ Hp). pose proof (wc_order _ _ Hc).
      set (fac := fun l => lag mP (node G p l) (digit mP (dim G) I l) (node G c l (digit mC (dim G) J l))).
      match goal with |- exists _, for_range _ _ ?body _ = _ /\ _ =>
        destruct (for_range_inv (fun l b => obuf (mP ^ dim G) (mC ^ dim G) b (put P I J (prodf l fac))) body 0 (dim G) b) as (b' & E & H') end.
      - lia.
      - eapply obuf_ext; [exact Hb|]. intros r s _ _. cbn beta. unfold put. cbn [prodf].
        destruct (Nat.eqb_spec r I) as [->|], (Nat.eqb_spec s J) as [->|]; auto.
      - intros l b1 Hl Hb1.
        rewrite (aget_nth (digits mP (dim G) I) l 0) by (rewrite digits_length; lia). cbn [bind].
        rewrite (aget_nth (digits mC (dim G) J) l 0) by (rewrite digits_length; lia). cbn [bind].
        unfold digits. rewrite !nth_tab by lia. set (i := digit mP (dim G) I l). set (j := digit mC (dim G) J l).
        assert (Hi : i < mP) by (apply digit_lt; auto). assert (Hj : j < mC) by (apply digit_lt; auto).
        rewrite (array_get _ _ _ _ i l H2) by lia. cbn [bind]. rewrite (array_get _ _ _ _ j l H1) by lia. cbn [bind].
        pose proof (factor_ok i j l Hi Hj ltac:(lia)) as Hfac.
        destruct (apart_by tol8 (node G p l i) (node G c l j)).
        + rewrite (array_get _ _ _ _ j l H3) by lia. cbn [bind]. rewrite (array_get _ _ _ _ i l H4) by lia. cbn [bind].
          destruct (obuf_multo _ _ b1 _ I J (omega_val j l / (node G c l j - node G p l i) / beta_val i l)%Qc (prodf l fac) Hb1 HI HJ) as (b2 & E2 & Hb2); [apply put_same|].
          exists b2. split; auto. eapply obuf_ext; [exact Hb2|]. intros r s _ _. cbn beta. unfold put. destruct (r =? I), (s =? J); auto. cbn [andb prodf].
          rewrite Hfac. auto.
        + exists b1. split; auto. eapply obuf_ext; [exact Hb1|]. intros r s _ _. cbn beta. unfold put. destruct (r =? I), (s =? J); auto. cbn [andb prodf].
          unfold fac at 3. fold i j. rewrite <- Hfac. f_equal. ring.
      - exists b'. split; [exact E|]. eapply obuf_ext; [exact H'|]. intros r s _ _. cbn beta. unfold put. destruct (r =? I), (s =? J); auto. cbn [andb].
        f_equal. unfold LT. apply prodf_ext. intros l Hl. unfold fac, gpoint. rewrite vat_tab by auto. auto.
    Qed.
  End Entries.

  Lemma build_ok pits : length (fst pits) = dim G -> length (snd pits) = dim G ->
    exists T, build G p c pits = Ok (T, pits0 G) /\ is_array (mP ^ dim G) (mC ^ dim G) T (fun I J => LT G p I (gpoint G c J)).
  Proof using HG Hp Hc Hcl.
    intros Hl1 Hl2. unfold build. fold mP mC.
    destruct (points_ok G c (alloc (mC * dim G)) Hc (alloc_length _)) as (b1 & E1 & O1). fold mC in E1, O1. rewrite E1. cbn [bind].
    destruct (obuf_dense _ _ _ _ O1) as (xiC & D1 & A1). rewrite D1. cbn [bind].
    destruct (points_ok G p (alloc (mP * dim G)) Hp (alloc_length _)) as (b2 & E2 & O2). fold mP in E2, O2. rewrite E2. cbn [bind].
    destruct (obuf_dense _ _ _ _ O2) as (xiP & D2 & A2). rewrite D2. cbn [bind].
    destruct (omega_ok xiC xiP A1 A2) as (b3 & E3 & O3). rewrite E3. cbn [bind].
    destruct (obuf_dense _ _ _ _ O3) as (omega & D3 & A3). rewrite D3. cbn [bind].
    destruct (beta_ok xiP A2) as (b4 & E4 & O4). rewrite E4. cbn [bind].
    destruct (obuf_dense _ _ _ _ O4) as (beta & D4 & A4). rewrite D4. cbn [bind].
    rewrite (pit_loop_ok mP (dim G)) by (auto; apply (wg_dim _ HG)).
    set (n := mP ^ dim G). set (m := mC ^ dim G).
    set (F := fun I J => LT G p I (gpoint G c J)).
    match goal with |- context [for_range 0 n ?body ?s0] =>
      destruct (for_range_inv (fun k (s : list Z * buf Qc) => length (fst s) = dim G /\ (k <> 0 -> fst s = repeat 0%Z (dim G)) /\
        obuf n m (snd s) (fun r s => Some (if r <? k then F r s else 1%Qc))) body 0 n s0) as ((pit2 & T) & E & Hpl & Hpz & HT) end.
    - lia.
    - cbn [fst snd]. split; [auto|]. split; [lia|]. apply (obuf_repeat n m (Some 1%Qc)).
    - intros I (pit2 & T) HI (Hpl & _ & HT). cbn [fst snd] in *. rewrite (pit_loop_ok mC (dim G)) by (auto; apply (wg_dim _ HG)). fold m.
      match goal with |- context [for_range 0 m ?body T] =>
        destruct (for_range_inv (fun k T => obuf n m T (fun r s => Some (if (r <? I) || (r =? I) && (s <? k) then F r s else 1%Qc))) body 0 m T) as (T' & E & HT') end.
      + lia.
      + eapply obuf_ext; [exact HT|]. intros r s _ _. cbn beta. destruct (Nat.ltb_spec s 0); [lia|]. rewrite andb_false_r, orb_false_r. auto.
      + intros J T1 HJ HT1. rewrite ix_ok by lia. cbn [bind].
        destruct (entry_ok xiC xiP omega beta A1 A2 A3 A4 I J T1 _ HT1) as (T2 & E & H2); [fold n; lia|fold m; lia| |].
        { rewrite Nat.ltb_irrefl, Nat.eqb_refl, Nat.ltb_irrefl. auto. }
        exists T2. split; [exact E|]. eapply obuf_ext; [exact H2|]. intros r s Hr Hs. cbn beta. unfold put.
        destruct (Nat.eqb_spec r I) as [->|]; cbn [andb orb]; auto. rewrite Nat.ltb_irrefl. cbn [orb].
        destruct (Nat.eqb_spec s J) as [->|]; [destruct (Nat.ltb_spec J (S J)); [auto|lia]|]. destruct (Nat.ltb_spec s J), (Nat.ltb_spec s (S J)); auto; lia.
      + rewrite E. cbn [bind]. eexists. split; [reflexivity|]. cbn [fst snd]. split; [apply repeat_length|]. split; [auto|].
        eapply obuf_ext; [exact HT'|]. intros r s Hr Hs. cbn beta. destruct (Nat.ltb_spec s m); [|lia]. rewrite andb_true_r.
        destruct (Nat.ltb_spec r I), (Nat.ltb_spec r (S I)), (Nat.eqb_spec r I); auto; lia.
    - match type of E with ?L = _ => match goal with |- context [for_range 0 n ?f ?s] => change (for_range 0 n f s) with L end end.
      rewrite E. cbn [bind fst snd] in *.
      destruct (obuf_dense n m T F) as (D & ED & AD).
      { eapply obuf_ext; [exact HT|]. intros r s Hr Hs. cbn beta. destruct (Nat.ltb_spec r n); [auto|lia]. }
      rewrite ED. cbn [bind]. exists D. split; [|exact AD]. unfold pits0. rewrite Hpz; auto.
      unfold n. apply Nat.pow_nonzero. pose proof (wc_order _ _ Hp). unfold mP. lia.
  Qed.
End Build.
