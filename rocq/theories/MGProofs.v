(** The multigrid code computes the mathematical cycle. *)
From Verif Require Import Util Lin CSRModel CSRProofs TriModel TriSpec TriProofs SmootherModel SmootherSpec SmootherProofs3 MGModel MGSpec.
Set Default Proof Using "Type".

Section Code.
  Variables (H : hierarchy) (top : nat) (levels : list level) (coarse : list Qc -> buf Qc -> res (buf Qc)).
  Hypothesis Hreal : realises H top levels coarse.

  (** slot l of the memory holds b and x *)
  Definition holds (mem : memory) l (b x : list Qc) : Prop := nth_error mem l = Some (map Some b, map Some x).

  Lemma get_rhs_ok mem l b x : nth_error mem l = Some (map Some b, x) -> get_rhs mem l = Ok b.
  Proof. intros E. unfold get_rhs. rewrite (aget_ok _ _ _ E). cbn [bind fst]. apply all_init_some. Qed.
  Lemma get_sol_ok mem l b x : nth_error mem l = Some (b, map Some x) -> get_sol mem l = Ok x.
  Proof. intros E. unfold get_sol. rewrite (aget_ok _ _ _ E). cbn [bind snd]. apply all_init_some. Qed.
  Lemma set_rhs_ok mem l b x v : nth_error mem l = Some (b, x) -> set_rhs mem l v = Ok (upd mem l (v, x)).
  Proof.
    intros E. unfold set_rhs. rewrite (aget_ok _ _ _ E). cbn [bind snd]. apply aset_ok. apply nth_error_Some. congruence.
  Qed.
  Lemma set_sol_ok mem l b x v : nth_error mem l = Some (b, x) -> set_sol mem l v = Ok (upd mem l (b, v)).
  Proof.
    intros E. unfold set_sol. rewrite (aget_ok _ _ _ E). cbn [bind fst]. apply aset_ok. apply nth_error_Some. congruence.
  Qed.
  Lemma into_rhs_ok mem l b x f v : nth_error mem l = Some (b, x) -> f b = Ok v -> into_rhs mem l f = Ok (upd mem l (v, x)).
  Proof. intros E Ef. unfold into_rhs. rewrite (aget_ok _ _ _ E). cbn [bind fst]. rewrite Ef. cbn [bind]. apply (set_rhs_ok _ _ _ _ _ E). Qed.
  Lemma into_sol_ok mem l b x f v : nth_error mem l = Some (b, x) -> f x = Ok v -> into_sol mem l f = Ok (upd mem l (b, v)).
  Proof. intros E Ef. unfold into_sol. rewrite (aget_ok _ _ _ E). cbn [bind snd]. rewrite Ef. cbn [bind]. apply (set_sol_ok _ _ _ _ _ E). Qed.

  Lemma mem_upd mem l b x : mem_ok (dim H) top mem -> length b = dim H l -> length x = dim H l -> mem_ok (dim H) top (upd mem l (b, x)).
  Proof.
    intros [H1 H2] Hb Hx. split; [rewrite upd_length; auto|]. intros k s E.
    destruct (Nat.eq_dec k l) as [->|Hne].
    - assert (l < length mem) by (rewrite <- (upd_length mem l (b, x)); apply nth_error_Some; congruence).
      rewrite nth_error_upd_eq in E by auto. injection E as <-. auto.
    - rewrite nth_error_upd_neq in E by auto. eauto.
  Qed.

  Lemma mem_slot mem l : mem_ok (dim H) top mem -> l <= top -> exists b x, nth_error mem l = Some (b, x) /\ length b = dim H l /\ length x = dim H l.
  Proof.
    intros [H1 H2] Hl. destruct (nth_error_lt mem l) as ([b x] & E); [lia|]. exists b, x.
    destruct (H2 _ _ E). auto.
  Qed.

  Lemma level_ok l : l < top -> exists lvl, nth_error levels l = Some lvl.
  Proof using Hreal. intros Hl. apply nth_error_lt. destruct Hreal as [-> _]. auto. Qed.

  Definition zeros n := tab n (fun _ => 0%Qc).

  Lemma smooth_ok mem l post simple b x : mem_ok (dim H) top mem -> S l <= top -> holds mem (S l) b x -> length b = dim H (S l) -> length x = dim H (S l) ->
    (simple = true -> forall i, i < dim H (S l) -> vat x i = 0%Qc) ->
    let x' := hS H (S l) post b x in
    smooth levels mem (S l) post simple = Ok (upd mem (S l) (map Some b, map Some x')) /\ length x' = dim H (S l).
  Proof using Hreal.
    intros Hm Hl E Hb Hx Hs x'. unfold smooth. rewrite Nat.sub_succ, Nat.sub_0_r.
    destruct (level_ok l) as (lvl & El); [lia|]. rewrite (aget_ok _ _ _ El). cbn [bind].
    rewrite (get_rhs_ok _ _ _ _ E). cbn [bind]. rewrite (get_sol_ok _ _ _ _ E). cbn [bind].
    destruct Hreal as (_ & _ & HL). destruct (HL _ _ El) as (_ & _ & _ & _ & HS).
    destruct (HS post simple b x Hx Hb Hs) as [E1 L1]. rewrite E1. cbn [bind]. split; auto.
    apply (set_sol_ok _ _ _ _ _ E).
  Qed.

  (** What a call leaves: same sizes, slot l updated, slots above untouched. *)
  Definition after (mem mem' : memory) l b x : Prop :=
    mem_ok (dim H) top mem' /\ holds mem' l b x /\ forall k, l < k -> nth_error mem' k = nth_error mem k.

  Lemma mg_length cyc l b x : length b = dim H l -> length x = dim H l -> l <= top -> length (mg H cyc l b x) = dim H l.
  Proof using Hreal.
    intros Hb Hx Hl. destruct Hreal as (HL0 & HC & HL). destruct l as [|l]; cbn [mg].
    - apply (HC b (alloc (dim H 0))); auto. unfold alloc. apply repeat_length.
    - destruct (level_ok l Hl) as (lvl & El). destruct (HL _ _ El) as (_ & _ & _ & _ & HS).
      apply (HS true false); auto; [apply tab_length|discriminate].
  Qed.

  Lemma iter_length cyc k l b x : length b = dim H l -> length x = dim H l -> l <= top -> length (Nat.iter k (mg H cyc l b) x) = dim H l.
  Proof using Hreal.
    intros Hb Hx Hl. induction k as [|k IH]; cbn [Nat.iter nat_rect]; auto. apply mg_length; auto.
  Qed.

  Lemma solveOnLevel_ok cyc : forall l mem simple b (x : buf Qc), l <= top -> mem_ok (dim H) top mem -> nth_error mem l = Some (map Some b, x) ->
    (l = 0 \/ exists xl, x = map Some xl /\ (simple = true -> forall i, i < dim H l -> vat xl i = 0%Qc)) ->
    exists mem', solveOnLevel levels coarse cyc l mem simple = Ok mem' /\
      forall xl, (l = 0 \/ x = map Some xl) -> after mem mem' l b (mg H cyc l b xl).
  Proof using Hreal.
    induction l as [|l IH]; intros mem simple b x Hl Hm E Hx.
    - pose proof Hreal as (_ & HC & _). pose proof Hm as [_ Hsz]. destruct (Hsz _ _ E) as [Lb Lx]. cbn [fst snd] in *. rewrite map_length in Lb.
      cbn [solveOnLevel]. rewrite (get_rhs_ok _ _ _ _ E). cbn [bind].
      destruct (HC b x Lb Lx) as [E1 L1]. rewrite (into_sol_ok _ _ _ _ _ _ E E1). eexists; split; [reflexivity|].
      intros xl _. cbn [mg]. split; [|split].
      + apply mem_upd; auto; rewrite map_length; auto.
      + unfold holds. apply nth_error_upd_eq. apply nth_error_Some. congruence.
      + intros k Hk. apply nth_error_upd_neq. lia.
    - destruct Hx as [?|(xl & -> & Hs)]; [discriminate|].
      pose proof Hm as [_ Hsz]. destruct (Hsz _ _ E) as [Lb Lx]. cbn [fst snd] in *. rewrite map_length in Lb, Lx.
      destruct (level_ok l Hl) as (lvl & El). pose proof Hreal as (_ & _ & HL). destruct (HL _ _ El) as (Hn & HA & HR & HP & HS).
      cbn [solveOnLevel]. rewrite (aget_ok _ _ _ El). cbn [bind].
      destruct (smooth_ok mem l false simple b xl Hm Hl E Lb Lx Hs) as [E1 L1]. cbv zeta in E1, L1.
      set (y := hS H (S l) false b xl) in *. rewrite E1. cbn [bind].
      set (mem1 := upd mem (S l) (map Some b, map Some y)) in *.
      assert (Hm1 : mem_ok (dim H) top mem1) by (apply mem_upd; auto; rewrite map_length; auto).
      assert (F1 : holds mem1 (S l) b y) by (apply nth_error_upd_eq; apply nth_error_Some; congruence).
      rewrite (get_sol_ok _ _ _ _ F1). cbn [bind]. rewrite (get_rhs_ok _ _ _ _ F1). cbn [bind].
      rewrite Hn. destruct (HA y b (alloc (dim H (S l))) L1 Lb) as [E2 _]; [unfold alloc; apply repeat_length|].
      rewrite E2. cbn [bind]. rewrite all_init_some. cbn [bind].
      set (r := resid (dim H (S l)) (hA H (S l)) b y) in *.
      assert (Lr : length r = dim H (S l)) by apply tab_length.
      destruct (mem_slot mem1 l Hm1) as (cb & cx & F2 & Lcb & Lcx); [lia|].
      rewrite (into_rhs_ok _ _ _ _ _ _ F2 (HR r cb Lr Lcb)). cbn [bind].
      set (d := tab (dim H l) (mv (dim H (S l)) (hR H (S l)) (vat r))).
      assert (Ld : length d = dim H l) by apply tab_length.
      set (mem2 := upd mem1 l (map Some d, cx)).
      assert (Hm2 : mem_ok (dim H) top mem2) by (apply mem_upd; auto; rewrite map_length; auto).
      assert (F3 : nth_error mem2 l = Some (map Some d, cx)) by (apply nth_error_upd_eq; apply nth_error_Some; congruence).
      rewrite (into_sol_ok _ _ _ _ _ _ F3 (set0_ok cx)). cbn [bind]. rewrite Lcx.
      set (mem3 := upd mem2 l (map Some d, map Some (tab (dim H l) (fun _ => 0%Qc)))).
      assert (Hm3 : mem_ok (dim H) top mem3) by (apply mem_upd; auto; rewrite map_length; auto using tab_length).
      assert (F4 : holds mem3 l d (zeros (dim H l))) by (apply nth_error_upd_eq; apply nth_error_Some; congruence).
      assert (F5 : holds mem3 (S l) b y).
      { unfold holds, mem3, mem2. rewrite !nth_error_upd_neq by lia. exact F1. }
      assert (F6 : forall k, S l < k -> nth_error mem3 k = nth_error mem k).
      { intros k Hk. unfold mem3, mem2, mem1. rewrite !nth_error_upd_neq by lia. reflexivity. }
      loop_inv (fun i mem' => mem_ok (dim H) top mem' /\ holds mem' l d (Nat.iter i (mg H cyc l d) (zeros (dim H l))) /\
                 forall k, l < k -> nth_error mem' k = nth_error mem3 k) mem4 E4 HI4.
      3: { intros i mem' Hi (J1 & J2 & J3).
        set (z := Nat.iter i (mg H cyc l d) (zeros (dim H l))) in *.
        destruct (IH mem' (i =? 0) d (map Some z)) as (mem'' & E5 & A5); [lia|auto|exact J2| |].
        { right. exists z. split; auto. intros Hi0. apply Nat.eqb_eq in Hi0. subst i z. cbn. intros j Hj. apply vat_tab; auto. }
        exists mem''. split; auto. destruct (A5 z) as (B1 & B2 & B3); [auto|]. split; [auto|]. split; [exact B2|].
        intros k Hk. rewrite B3, J3; auto. }
      { lia. }
      { split; auto. }
      destruct HI4 as (J1 & J2 & J3). rewrite E4. cbn [bind]. rewrite (get_sol_ok _ _ _ _ J2). cbn [bind].
      set (c := Nat.iter cyc (mg H cyc l d) (zeros (dim H l))) in *.
      assert (Lc : length c = dim H l) by (apply iter_length; auto; [apply tab_length|lia]).
      rewrite (HP c (alloc (dim H (S l))) Lc) by (unfold alloc; apply repeat_length). cbn [bind].
      assert (F7 : nth_error mem4 (S l) = Some (map Some b, map Some y)) by (rewrite J3 by lia; exact F5).
      set (cor := tab (dim H (S l)) (mv (dim H l) (hP H (S l)) (vat c))).
      rewrite (into_sol_ok _ _ _ _ (fun x => update x (map Some cor)) _ F7 (update_ok y cor ltac:(unfold cor; rewrite tab_length; lia))). unfold cor.
      cbn [bind]. rewrite L1.
      rewrite (tab_ext _ _ (fun i => vat y i + mv (dim H l) (hP H (S l)) (vat c) i)%Qc) by (intros; rewrite vat_tab; auto).
      set (z := tab (dim H (S l)) (fun i => vat y i + mv (dim H l) (hP H (S l)) (vat c) i)%Qc).
      set (mem5 := upd mem4 (S l) (map Some b, map Some z)).
      assert (Lz : length z = dim H (S l)) by apply tab_length.
      assert (Hm5 : mem_ok (dim H) top mem5) by (apply mem_upd; auto; rewrite map_length; auto).
      assert (F8 : holds mem5 (S l) b z) by (apply nth_error_upd_eq; apply nth_error_Some; congruence).
      destruct (smooth_ok mem5 l true false b z Hm5 Hl F8 Lb Lz) as [E6 L6]; [discriminate|]. cbv zeta in E6, L6.
      rewrite E6. eexists; split; [reflexivity|].
      intros xl' [?|Exl]; [discriminate|].
      assert (Exl' : xl = xl').
      { apply (f_equal all_init) in Exl. rewrite !all_init_some in Exl. congruence. }
      subst xl'. split; [|split].
      + apply mem_upd; auto; rewrite map_length; auto.
      + unfold holds. rewrite nth_error_upd_eq by (apply nth_error_Some; unfold holds in F8; congruence). reflexivity.
      + intros k Hk. unfold mem5. rewrite !nth_error_upd_neq by lia. rewrite J3 by lia. auto.
  Qed.
End Code.
