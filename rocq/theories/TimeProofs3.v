(** Proofs for the implicit-explicit schemes. *)
From Verif Require Import MeshModel MeshProofs.
From Verif Require Import LinR TimeModel TimeSpec TimeProofs.
Open Scope R_scope.
Set Default Proof Using "Type".

Lemma list_sum_app l x : list_sum (l ++ [x]) = list_sum l + x.
Proof. unfold list_sum. rewrite fold_left_app. reflexivity. Qed.
Lemma aget_nth {X} (l : list X) k d : (k < length l)%nat -> aget l k = Ok (nth k l d).
Proof. intros. unfold aget. rewrite (nth_error_nth' l d) by auto. reflexivity. Qed.

Section Imex.
  Variables (n : nat) (A : vec -> vec) (I E : operator) (g : R -> vec) (residualNew : imex_residual) (build : builder) (T : tableau) (d : R).
  Hypothesis contract : imex_contract n A I E g residualNew.
  Hypothesis tab_ok : tableau_ok T d.
  Let s := length (tb_c T).
  Let AE := entry (tb_AExpl T).
  Let AI := entry (tb_AImpl T).
  Let bE := fun k => nth k (tb_bExpl T) 0.
  Let bI := fun k => nth k (tb_bImpl T) 0.
  Let c := fun k => nth k (tb_c T) 0.

  Lemma tb_s_ok : tb_s T = s.
  Proof using All. destruct tab_ok as (_ & _ & H & _). exact H. Qed.
  Lemma row_length M k : (length M = s -> Forall (fun r : list R => length r = s) M -> (k < s)%nat -> length (nth k M []) = s).
  Proof. intros L F H. rewrite Forall_nth in F. apply F. lia. Qed.

  Lemma column_ok M k : length M = s -> Forall (fun r : list R => length r = s) M -> (k < s)%nat -> exists l, column M k = Ok l /\ list_sum l = rsum s (fun i => entry M i k).
  Proof.
    intros L F Hk. unfold column. rewrite L.
    destruct (for_range_inv (fun m l => list_sum l = rsum m (fun i => entry M i k)) (fun i c => r <- aget M i ;; x <- aget r k ;; Ok (c ++ [x])) 0 s []) as (l & -> & HL).
    - lia.
    - reflexivity.
    - intros m l Hm HL. rewrite (aget_nth M m []) by lia. rewrite bind_Ok. rewrite (aget_nth _ k 0) by (rewrite row_length; auto; lia). rewrite bind_Ok.
      eexists. split; [reflexivity|]. rewrite list_sum_app, HL. reflexivity.
    - exists l. split; auto.
  Qed.
  Lemma used_ok M b k : length M = s -> Forall (fun r : list R => length r = s) M -> length b = s -> (k < s)%nat ->
    exists v, used M b k = Ok v /\ (v = false -> rsum s (fun i => entry M i k) = 0 /\ nth k b 0 = 0).
  Proof.
    intros L F Lb Hk. unfold used. destruct (column_ok M k L F Hk) as (l & -> & HL). rewrite bind_Ok. rewrite <- HL.
    destruct (req (list_sum l) 0) eqn:Q; [|exists true; split; auto; discriminate]. apply req_spec in Q. rewrite (aget_nth b k 0) by lia. rewrite bind_Ok.
    eexists. split; [reflexivity|]. intros H. apply negb_false_iff, req_spec in H. auto.
  Qed.
  Lemma usedE k : (k < s)%nat -> exists v, used (tb_AExpl T) (tb_bExpl T) k = Ok v /\ (v = false -> bE k = 0 /\ forall i, (k < i < s)%nat -> AE i k = 0).
  Proof using All.
    intros Hk. destruct tab_ok as (L1 & L2 & L3 & L4 & F1 & F2 & _ & _ & HE & HI). destruct (used_ok _ (tb_bExpl T) k L3 F1 L1 Hk) as (v & EV & HV).
    exists v. split; auto. intros ->. destruct (HV eq_refl) as [H1 H2]. split; [auto|apply HE; auto].
  Qed.
  Lemma usedI k : (k < s)%nat -> exists v, used (tb_AImpl T) (tb_bImpl T) k = Ok v /\ (v = false -> bI k = 0 /\ forall i, (k <= i < s)%nat -> AI i k = 0).
  Proof using All.
    intros Hk. destruct tab_ok as (L1 & L2 & L3 & L4 & F1 & F2 & _ & _ & HE & HI). destruct (used_ok _ (tb_bImpl T) k L4 F2 L2 Hk) as (v & EV & HV).
    exists v. split; auto. intros ->. destruct (HV eq_refl) as [H1 H2]. split; [auto|apply HI; auto].
  Qed.
  Lemma get_AE k j : (k < s)%nat -> (j < s)%nat -> get2 (tb_AExpl T) k j = Ok (AE k j).
  Proof using All.
    intros Hk Hj. destruct tab_ok as (L1 & L2 & L3 & L4 & F1 & F2 & _). unfold get2. rewrite (aget_nth _ k []) by lia. rewrite bind_Ok. rewrite (aget_nth _ j 0) by (rewrite row_length; auto; lia). reflexivity.
  Qed.
  Lemma get_AI k j : (k < s)%nat -> (j < s)%nat -> get2 (tb_AImpl T) k j = Ok (AI k j).
  Proof using All.
    intros Hk Hj. destruct tab_ok as (L1 & L2 & L3 & L4 & F1 & F2 & _). unfold get2. rewrite (aget_nth _ k []) by lia. rewrite bind_Ok. rewrite (aget_nth _ j 0) by (rewrite row_length; auto; lia). reflexivity.
  Qed.
  Lemma zero_row_ok k : (k < s)%nat -> exists z, zero_row (tb_AExpl T) k = Ok z /\ (if z then forall j, (j < s)%nat -> AE k j = 0 else ~ forall j, (j < s)%nat -> AE k j = 0).
  Proof using All.
    intros Hk. destruct tab_ok as (L1 & L2 & L3 & L4 & F1 & F2 & _). unfold zero_row. rewrite (aget_nth _ k []) by lia. rewrite bind_Ok. eexists. split; [reflexivity|].
    pose proof (row_length _ k L3 F1 Hk) as LR. destruct (forallb _ _) eqn:Q.
    - intros j Hj. rewrite forallb_forall in Q. apply req_spec. apply Q. apply nth_In. lia.
    - intros H. assert (Q' : forallb (fun x => req x 0) (nth k (tb_AExpl T) []) = true); [|congruence]. apply forallb_forall. intros x Hx. apply req_spec.
      destruct (In_nth _ _ 0 Hx) as (j & Hj & <-). apply H. lia.
  Qed.

  Definition rows (l : list vec) : Prop := length l = s /\ forall j, (j < s)%nat -> length (nth j l []) = n.
  Lemma rows_upd l k x : rows l -> length x = n -> rows (upd l k x).
  Proof.
    intros [L H] Hx. split; [rewrite upd_length; auto|]. intros j Hj. destruct (Nat.eq_dec k j) as [->|Ne]; [rewrite nth_upd_eq by lia; auto|rewrite nth_upd_neq by auto; auto].
  Qed.

  Section Step.
    Variables (t dt : R) (fv : option (list vec)).
    Hypothesis fv_ok : match fv with Some l => length l = s | None => True end.
    Definition gk (k : nat) : vec := match fv with Some l => nth k l [] | None => g (t + c k * dt) end.
    Let time := fun k => t + c k * dt.

    Lemma force_ok F0 : rows F0 -> exists F, imex_force T residualNew t dt fv F0 = Ok F /\ rows F /\ forall k, (k < s)%nat -> (bI k <> 0 \/ exists i, (k <= i < s)%nat /\ AI i k <> 0) -> forall i, (i < n)%nat -> rat (nth k F []) i = rat (gk k) i.
    Proof using All.
      intros H0. unfold imex_force. rewrite tb_s_ok.
      match goal with |- context [for_range 0 s ?f F0] => destruct (for_range_inv (fun m (F : list vec) => rows F /\ forall k, (k < m)%nat -> (bI k <> 0 \/ exists i, (k <= i < s)%nat /\ AI i k <> 0) -> forall i, (i < n)%nat -> rat (nth k F []) i = rat (gk k) i) f 0 s F0) as (F & EF & HF & VF) end.
      - lia.
      - split; auto. intros. lia.
      - intros m F Hm (HF & VF). destruct (usedI m) as (v & -> & HV); [lia|]. rewrite bind_Ok. destruct v.
        + rewrite (aget_nth _ m 0) by (fold s; lia). rewrite bind_Ok. rewrite (aget_nth F m []) by (destruct HF; lia). rewrite bind_Ok.
          assert (Q : exists f, match fv with None => Ok None | Some l => x <- aget l m ;; Ok (Some x) end = Ok f /\ given f (g (t + nth m (tb_c T) 0 * dt)) = gk m).
          { unfold gk. destruct fv as [l|]; [|exists None; split; reflexivity]. rewrite (aget_nth l m []) by lia. rewrite bind_Ok. eexists. split; [reflexivity|]. reflexivity. }
          destruct Q as (f & -> & Ef). rewrite bind_Ok.
          destruct (contract (t + nth m (tb_c T) 0 * dt) None None (nth m F []) 0 0 0 (-1) f) as (r & -> & Lr & Vr); auto; [apply HF; lia|]. rewrite bind_Ok.
          rewrite aset_ok by (destruct HF; lia). eexists. split; [reflexivity|]. split; [apply rows_upd; auto|]. intros k Hk HU i Hi. destruct (Nat.eq_dec m k) as [<-|Ne].
          * rewrite nth_upd_eq by (destruct HF; lia). rewrite Vr, Ef by auto. ring.
          * rewrite nth_upd_neq by auto. apply VF; auto. lia.
        + eexists. split; [reflexivity|]. split; auto. intros k Hk HU i Hi. destruct (Nat.eq_dec m k) as [<-|Ne]; [|apply VF; auto; lia].
          destruct (HV eq_refl) as [H1 H2]. destruct HU as [HU|(x & Hx & HU)]; [tauto|]. destruct HU. auto.
      - exists F. split; auto.
    Qed.

    Definition goodE (U UE : list vec) (k : nat) : Prop :=
      (bE k <> 0 \/ exists i, (k < i < s)%nat /\ AE i k <> 0) -> forall i, (i < n)%nat -> rat (nth k UE []) i = rat (E (time k) (nth k U [])) i.
    Definition goodI (U UI : list vec) (k : nat) : Prop :=
      (bI k <> 0 \/ exists i, (k <= i < s)%nat /\ AI i k <> 0) -> forall i, (i < n)%nat -> rat (nth k UI []) i = rat (I (time k) (nth k U [])) i.
    Definition goodF (F : list vec) (k : nat) : Prop :=
      (bI k <> 0 \/ exists i, (k <= i < s)%nat /\ AI i k <> 0) -> forall i, (i < n)%nat -> rat (nth k F []) i = rat (gk k) i.

    Lemma rhs_ok k (U UE UI F : list vec) (rhs : vec) : (k < s)%nat -> rows UE -> rows UI -> rows F -> length rhs = n ->
      (forall j, (j < k)%nat -> goodE U UE j /\ goodI U UI j) -> (forall j, (j < s)%nat -> goodF F j) ->
      exists r : vec, imex_rhs n T k dt UE UI F rhs = Ok r /\ length r = n /\ forall i, (i < n)%nat ->
        rat r i = rat rhs i - dt * rsum k (fun j => AE k j * rat (E (time j) (nth j U [])) i + AI k j * rat (I (time j) (nth j U [])) i) + dt * rsum (S k) (fun j => AI k j * rat (gk j) i).
    Proof using All.
      intros Hk RE RI RF Lr HU HF. unfold imex_rhs.
      match goal with |- context [for_range 0 k ?f rhs] => destruct (for_range_inv (fun m (r : vec) => length r = n /\ forall i, (i < n)%nat ->
        rat r i = rat rhs i - dt * rsum m (fun j => AE k j * rat (E (time j) (nth j U [])) i + AI k j * rat (I (time j) (nth j U [])) i)) f 0%nat k rhs) as (r1 & -> & L1 & V1) end.
      - lia.
      - split; auto. intros. cbn [rsum]. ring.
      - intros j r Hj (L & V). rewrite get_AE by lia. rewrite bind_Ok.
        assert (Q1 : exists r', (if req (AE k j) 0 then Ok r else x <- aget UE j ;; Ok (axpy n r (- (dt * AE k j)) x)) = Ok r' /\ length r' = n /\
          forall i, (i < n)%nat -> rat r' i = rat r i - dt * (AE k j * rat (E (time j) (nth j U [])) i)).
        { destruct (req (AE k j) 0) eqn:Q; [apply req_spec in Q; rewrite Q; exists r; repeat split; auto; intros; ring|]. apply req_false in Q.
          rewrite (aget_nth UE j []) by (destruct RE; lia). rewrite bind_Ok. eexists. split; [reflexivity|]. split; [apply tab_length|]. intros i Hi. rewrite rat_axpy by auto.
          destruct (HU j) as [GE GI]; [lia|]. rewrite GE; auto; [ring|]. right. exists k. split; auto. lia. }
        destruct Q1 as (r' & -> & L' & V'). rewrite bind_Ok. rewrite get_AI by lia. rewrite bind_Ok.
        assert (Q2 : exists r'', (if req (AI k j) 0 then Ok r' else x <- aget UI j ;; Ok (axpy n r' (- (dt * AI k j)) x)) = Ok r'' /\ length r'' = n /\
          forall i, (i < n)%nat -> rat r'' i = rat r' i - dt * (AI k j * rat (I (time j) (nth j U [])) i)).
        { destruct (req (AI k j) 0) eqn:Q; [apply req_spec in Q; rewrite Q; exists r'; repeat split; auto; intros; ring|]. apply req_false in Q.
          rewrite (aget_nth UI j []) by (destruct RI; lia). rewrite bind_Ok. eexists. split; [reflexivity|]. split; [apply tab_length|]. intros i Hi. rewrite rat_axpy by auto.
          destruct (HU j) as [GE GI]; [lia|]. rewrite GI; auto; [ring|]. right. exists k. split; auto. lia. }
        destruct Q2 as (r'' & -> & L'' & V''). exists r''. split; [reflexivity|]. split; auto. intros i Hi. rewrite V'', V', V by auto. cbn [rsum]. ring.
      - rewrite bind_Ok.
        match goal with |- context [for_range 0 (S k) ?f r1] => destruct (for_range_inv (fun m (r : vec) => length r = n /\ forall i, (i < n)%nat -> rat r i = rat r1 i + dt * rsum m (fun j => AI k j * rat (gk j) i)) f 0%nat (S k) r1) as (r2 & -> & L2 & V2) end.
        + lia.
        + split; auto. intros. cbn [rsum]. ring.
        + intros j r Hj (L & V). rewrite get_AI by lia. rewrite bind_Ok. destruct (req (AI k j) 0) eqn:Q.
          * apply req_spec in Q. exists r. split; [reflexivity|]. split; auto. intros i Hi. cbn [rsum]. rewrite Q, V by auto. ring.
          * apply req_false in Q. rewrite (aget_nth F j []) by (destruct RF; lia). rewrite bind_Ok. eexists. split; [reflexivity|]. split; [apply tab_length|]. intros i Hi.
            rewrite rat_axpy, V by auto. rewrite (HF j); auto; [cbn [rsum]; ring|lia|]. right. exists k. split; auto. lia.
        + exists r2. split; [reflexivity|]. split; auto. intros i Hi. rewrite V2, V1 by auto. ring.
    Qed.

    Lemma final_ok (U UE UI F : list vec) (rhs : vec) : rows UE -> rows UI -> rows F -> length rhs = n ->
      (forall j, (j < s)%nat -> goodE U UE j /\ goodI U UI j /\ goodF F j) ->
      exists r : vec, imex_final n T dt UE UI F rhs = Ok r /\ length r = n /\ forall i, (i < n)%nat ->
        rat r i = rat rhs i - dt * rsum s (fun j => bE j * rat (E (time j) (nth j U [])) i + bI j * rat (I (time j) (nth j U [])) i) + dt * rsum s (fun j => bI j * rat (gk j) i).
    Proof using All.
      intros RE RI RF Lr HU. unfold imex_final. rewrite tb_s_ok. destruct tab_ok as (LbE & LbI & _). fold s in LbE, LbI.
      match goal with |- context [for_range 0 s ?f rhs] => destruct (for_range_inv (fun m (r : vec) => length r = n /\ forall i, (i < n)%nat ->
        rat r i = rat rhs i - dt * rsum m (fun j => bE j * rat (E (time j) (nth j U [])) i + bI j * rat (I (time j) (nth j U [])) i)) f 0%nat s rhs) as (r1 & -> & L1 & V1) end.
      - lia.
      - split; auto. intros. cbn [rsum]. ring.
      - intros j r Hj (L & V). rewrite (aget_nth _ j 0) by lia. rewrite bind_Ok. fold (bE j).
        assert (Q1 : exists r', (if req (bE j) 0 then Ok r else x <- aget UE j ;; Ok (axpy n r (- (dt * bE j)) x)) = Ok r' /\ length r' = n /\
          forall i, (i < n)%nat -> rat r' i = rat r i - dt * (bE j * rat (E (time j) (nth j U [])) i)).
        { destruct (req (bE j) 0) eqn:Q; [apply req_spec in Q; rewrite Q; exists r; repeat split; auto; intros; ring|]. apply req_false in Q.
          rewrite (aget_nth UE j []) by (destruct RE; lia). rewrite bind_Ok. eexists. split; [reflexivity|]. split; [apply tab_length|]. intros i Hi. rewrite rat_axpy by auto.
          destruct (HU j) as [GE GI]; [lia|]. rewrite GE; auto; ring. }
        destruct Q1 as (r' & -> & L' & V'). rewrite bind_Ok. rewrite (aget_nth _ j 0) by lia. rewrite bind_Ok. fold (bI j).
        assert (Q2 : exists r'', (if req (bI j) 0 then Ok r' else x <- aget UI j ;; Ok (axpy n r' (- (dt * bI j)) x)) = Ok r'' /\ length r'' = n /\
          forall i, (i < n)%nat -> rat r'' i = rat r' i - dt * (bI j * rat (I (time j) (nth j U [])) i)).
        { destruct (req (bI j) 0) eqn:Q; [apply req_spec in Q; rewrite Q; exists r'; repeat split; auto; intros; ring|]. apply req_false in Q.
          rewrite (aget_nth UI j []) by (destruct RI; lia). rewrite bind_Ok. eexists. split; [reflexivity|]. split; [apply tab_length|]. intros i Hi. rewrite rat_axpy by auto.
          destruct (HU j) as (GE & GI & _); [lia|]. rewrite GI; auto; ring. }
        destruct Q2 as (r'' & -> & L'' & V''). exists r''. split; [reflexivity|]. split; auto. intros i Hi. rewrite V'', V', V by auto. cbn [rsum]. ring.
      - rewrite bind_Ok.
        match goal with |- context [for_range 0 s ?f r1] => destruct (for_range_inv (fun m (r : vec) => length r = n /\ forall i, (i < n)%nat -> rat r i = rat r1 i + dt * rsum m (fun j => bI j * rat (gk j) i)) f 0%nat s r1) as (r2 & -> & L2 & V2) end.
        + lia.
        + split; auto. intros. cbn [rsum]. ring.
        + intros j r Hj (L & V). rewrite (aget_nth _ j 0) by lia. rewrite bind_Ok. fold (bI j). destruct (req (bI j) 0) eqn:Q.
          * apply req_spec in Q. exists r. split; [reflexivity|]. split; auto. intros i Hi. cbn [rsum]. rewrite Q, V by auto. ring.
          * apply req_false in Q. rewrite (aget_nth F j []) by (destruct RF; lia). rewrite bind_Ok. eexists. split; [reflexivity|]. split; [apply tab_length|]. intros i Hi.
            rewrite rat_axpy, V by auto. destruct (HU j) as (_ & _ & GF); [lia|]. rewrite GF; auto; cbn [rsum]; ring.
        + exists r2. split; [reflexivity|]. split; auto. intros i Hi. rewrite V2, V1 by auto. ring.
    Qed.

    (** One stage. *)
    Definition stage_eq (u : vec) (U : list vec) (k : nat) : Prop := forall i, (i < n)%nat ->
      rat (A (nth k U [])) i = rat (A u) i - dt * rsum (S k) (fun j => AI k j * (rat (I (time j) (nth j U [])) i - rat (gk j) i)) - dt * rsum k (fun j => AE k j * rat (E (time j) (nth j U [])) i).
    Lemma good_upd k x U UE UI u j : (j < k)%nat -> goodE U UE j /\ goodI U UI j /\ stage_eq u U j -> goodE (upd U k x) UE j /\ goodI (upd U k x) UI j /\ stage_eq u (upd U k x) j.
    Proof.
      intros Hj (H1 & H2 & H3). assert (Q : forall j', (j' <= j)%nat -> nth j' (upd U k x) [] = nth j' U []) by (intros; apply nth_upd_neq; lia). unfold goodE, goodI, stage_eq. rewrite (Q j) by auto.
      split; [auto|]. split; [auto|]. intros i Hi. rewrite H3 by auto. f_equal; [f_equal; f_equal|f_equal]; apply rsum_ext; intros j' Hj'; rewrite Q by lia; reflexivity.
    Qed.

    Variables (td : bool).
    Hypothesis implicit_solvable : forall t', solves n (fun _ => A) I t' 1 (d * dt) (build t' 1 (d * dt)).
    Hypothesis mass_solvable : forall t', solves n (fun _ => A) I t' 1 0 (build t' 1 0).
    Hypothesis constI : td = false -> constant_in_time I.
    Definition icache_ok (cache : option solver) : Prop := td = false -> match cache with Some f => solves n (fun _ => A) I 0 1 (d * dt) f | None => True end.
    Definition mcache_ok (cache : option solver) : Prop := td = false -> match cache with Some f => solves n (fun _ => A) I 0 1 0 f | None => True end.

    Lemma implicit_ok cache t' b : icache_ok cache -> b = d * dt -> exists f cache', getImplicitSolver build td cache t' 1 b = (f, cache') /\ icache_ok cache' /\ solves n (fun _ => A) I t' 1 b f.
    Proof using implicit_solvable constI.
      intros HC ->. unfold getImplicitSolver. unfold icache_ok in *. destruct td.
      - eexists _, _. split; [reflexivity|]. split; [discriminate|]. auto.
      - specialize (constI eq_refl). specialize (HC eq_refl).
        assert (Q : forall t1 t2 f, solves n (fun _ => A) I t1 1 (d * dt) f -> solves n (fun _ => A) I t2 1 (d * dt) f).
        { intros t1 t2 f H rhs x. destruct (H rhs x) as [L V]. split; auto. intros i Hi. rewrite (constI t2), <- (constI t1). apply V; auto. }
        destruct cache as [f|]; eexists _, _; (split; [reflexivity|]); split; intros; eapply Q; eauto.
    Qed.

    Lemma stage_ok k (u : vec) (st : list vec * list vec * list vec * vec * option solver) (F : list vec) : (k < s)%nat ->
      let '(U, UE, UI, rhs, cache) := st in
      rows F -> (forall j, (j < s)%nat -> goodF F j) -> length u = n -> rows U -> rows UE -> rows UI -> length rhs = n -> icache_ok cache -> (forall j, (j < k)%nat -> goodE U UE j /\ goodI U UI j /\ stage_eq u U j) ->
      exists U' UE' UI' rhs' cache', imex_stage n T residualNew build td t dt u u F k st = Ok (U', UE', UI', rhs', cache') /\
        rows U' /\ rows UE' /\ rows UI' /\ length rhs' = n /\ icache_ok cache' /\ (forall j, (j < S k)%nat -> goodE U' UE' j /\ goodI U' UI' j /\ stage_eq u U' j).
    Proof using All.
      intros Hk. destruct st as [[[[U UE] UI] rhs] cache]. intros RF HF Lu RU RE RI Lr HC HG.
      unfold imex_stage. rewrite (aget_nth _ k 0) by (fold s; lia). rewrite bind_Ok. fold (c k). destruct (zero_row_ok k Hk) as (z & -> & HZ). rewrite bind_Ok.
      match goal with |- context [bind (if z then ?x else ?y) _] => set (P := if z then x else y) end.
      assert (HP : exists U' rhs' cache', P = Ok (U', rhs', cache') /\ (exists x, U' = upd U k x /\ length x = n) /\ length rhs' = n /\ icache_ok cache' /\ stage_eq u U' k).
      { unfold P. destruct z.
        - rewrite aset_ok by (destruct RU; lia). eexists _, _, _. split; [reflexivity|]. split; [exists u; auto|]. split; [auto|]. split; [auto|].
          intros i Hi. rewrite nth_upd_eq by (destruct RU; lia).
          destruct tab_ok as (_ & _ & _ & _ & _ & _ & HR & _). specialize (HR k Hk HZ). rewrite (rsum_zero (S k)), (rsum_zero k); [ring| |]; intros j Hj.
          + rewrite HZ by lia. ring.
          + fold AI in HR. rewrite HR by lia. ring.
        - destruct (contract (t + dt) None (Some u) rhs 1 0 0 0 None) as (r1 & -> & L1 & V1); auto; [right; discriminate|]. rewrite bind_Ok.
          destruct (rhs_ok k U UE UI F r1) as (r2 & -> & L2 & V2); auto; [intros j Hj; destruct (HG j Hj) as (? & ? & ?); auto|]. rewrite bind_Ok. rewrite get_AI by lia. rewrite bind_Ok.
          assert (ED : AI k k = d) by (destruct tab_ok as (_ & _ & _ & _ & _ & _ & _ & HR & _); apply HR; auto).
          destruct (implicit_ok cache (t + c k * dt) (AI k k * dt) HC) as (f & cache' & -> & HC' & Hf); [rewrite ED; auto|].
          rewrite (aget_nth U k []) by (destruct RU; lia). rewrite bind_Ok. rewrite aset_ok by (destruct RU; lia). rewrite bind_Ok.
          destruct (Hf r2 (nth k U [])) as [Lx Vx]. set (x := f r2 (nth k U [])) in *.
          eexists _, _, _. split; [reflexivity|]. split; [exists x; auto|]. split; [auto|]. split; [auto|].
          intros i Hi. rewrite nth_upd_eq by (destruct RU; lia). specialize (Vx i Hi). rewrite V2, V1 in Vx by auto. cbn [given] in Vx.
          rewrite (rsum_ext k (fun j => AE k j * rat (E (time j) (nth j (upd U k x) [])) i) (fun j => AE k j * rat (E (time j) (nth j U [])) i)).
          2: { intros j Hj. rewrite nth_upd_neq by lia. reflexivity. }
          rewrite (rsum_ext (S k) _ (fun j => AI k j * rat (I (time j) (nth j (upd U k x) [])) i + (-1) * (AI k j * rat (gk j) i))) by (intros; ring).
          rewrite rsum_plus, rsum_scal. rewrite rsum_plus in Vx. cbn [rsum] in *. rewrite nth_upd_eq by (destruct RU; lia).
          rewrite (rsum_ext k (fun j => AI k j * rat (I (time j) (nth j (upd U k x) [])) i) (fun j => AI k j * rat (I (time j) (nth j U [])) i)).
          2: { intros j Hj. rewrite nth_upd_neq by lia. reflexivity. }
          change (t + c k * dt) with (time k) in Vx.
          set (S1 := rsum k (fun i0 => AE k i0 * _)) in *. set (S2 := rsum k (fun i0 => AI k i0 * _)) in *. lra. }
      clearbody P. destruct HP as (U' & rhs' & cache' & -> & (x & -> & Lx) & Lr' & HC' & HS). rewrite bind_Ok. cbv beta iota.
      assert (RU' : rows (upd U k x)) by (apply rows_upd; auto).
      rewrite (aget_nth (upd U k x) k []) by (destruct RU'; lia). rewrite bind_Ok. set (Uk := nth k (upd U k x) []) in *.
      destruct (usedE k Hk) as (vE & -> & HvE). rewrite bind_Ok.
      assert (QE : exists UE', (if vE then x <- aget UE k ;; x <- residualNew (t + c k * dt) (Some Uk) None x 0 0 1 0 None ;; aset UE k x else Ok UE) = Ok UE' /\ rows UE' /\ goodE (upd U k x) UE' k /\
        forall j, j <> k -> nth j UE' [] = nth j UE []).
      { destruct vE.
        - rewrite (aget_nth UE k []) by (destruct RE; lia). rewrite bind_Ok. destruct (contract (t + c k * dt) (Some Uk) None (nth k UE []) 0 0 1 0 None) as (y & -> & Ly & Vy); auto; [apply RE; auto|right; discriminate|].
          rewrite bind_Ok. rewrite aset_ok by (destruct RE; lia). eexists. split; [reflexivity|]. split; [apply rows_upd; auto|]. split; [|intros; apply nth_upd_neq; auto].
          intros _ i Hi. rewrite nth_upd_eq by (destruct RE; lia). rewrite Vy by auto. cbn [given]. unfold time, Uk. ring.
        - exists UE. split; auto. split; auto. split; auto. intros H. destruct (HvE eq_refl) as [H1 H2]. destruct H as [H|(i & Hi & H)]; [tauto|]. destruct H. auto. }
      destruct QE as (UE' & -> & RE' & GE' & NE'). rewrite bind_Ok. destruct (usedI k Hk) as (vI & -> & HvI). rewrite bind_Ok.
      assert (QI : exists UI', (if vI then x <- aget UI k ;; x <- residualNew (t + c k * dt) (Some Uk) None x 0 1 0 0 None ;; aset UI k x else Ok UI) = Ok UI' /\ rows UI' /\ goodI (upd U k x) UI' k /\
        forall j, j <> k -> nth j UI' [] = nth j UI []).
      { destruct vI.
        - rewrite (aget_nth UI k []) by (destruct RI; lia). rewrite bind_Ok. destruct (contract (t + c k * dt) (Some Uk) None (nth k UI []) 0 1 0 0 None) as (y & -> & Ly & Vy); auto; [apply RI; auto|right; discriminate|].
          rewrite bind_Ok. rewrite aset_ok by (destruct RI; lia). eexists. split; [reflexivity|]. split; [apply rows_upd; auto|]. split; [|intros; apply nth_upd_neq; auto].
          intros _ i Hi. rewrite nth_upd_eq by (destruct RI; lia). rewrite Vy by auto. cbn [given]. unfold time, Uk. ring.
        - exists UI. split; auto. split; auto. split; auto. intros H. destruct (HvI eq_refl) as [H1 H2]. destruct H as [H|(i & Hi & H)]; [tauto|]. destruct H. auto. }
      destruct QI as (UI' & -> & RI' & GI' & NI'). rewrite bind_Ok. do 5 eexists. split; [reflexivity|]. do 5 (split; [auto|]).
      intros j Hj. destruct (Nat.eq_dec j k) as [->|Ne]; [auto|]. destruct (good_upd k x U UE UI u j) as (G1 & G2 & G3); [lia|apply HG; lia|]. unfold goodE, goodI in *. rewrite NE', NI' by auto. auto.
    Qed.

    Definition imex_inv (st : imex) : Prop :=
      im_solverIsTimeDependent st = td /\ rows (im_U st) /\ rows (im_UExpl st) /\ rows (im_UImpl st) /\ rows (im_force st) /\ length (im_rhs st) = n /\ icache_ok (im_implicitSolve st) /\ mcache_ok (im_massSolve st).

    Lemma imex_step_ok st (u : vec) dt' : length u = n -> imex_inv st -> (dt' = Some dt \/ dt' = None /\ im_dt st = Some dt) ->
      exists st' u', imex_step n T residualNew build st t dt' u fv = Ok (st', t + dt, u') /\ imex_inv st' /\ im_dt st' = im_dt st /\ length u' = n /\ imex_equation n A I E gk T dt t u u'.
    Proof using All.
      intros Lu (Ht & RU & RE & RI & RF & Lr & HC & HM) Hdt. unfold imex_step, stepOfPicard.
      assert (EDT : (match dt' with Some d0 => Some d0 | None => im_dt st end) = Some dt) by (destruct Hdt as [->|[-> ->]]; auto). rewrite EDT.
      destruct (force_ok (im_force st) RF) as (F & -> & RF' & HF). rewrite bind_Ok. rewrite tb_s_ok, Ht.
      match goal with |- context [for_range 0 s ?f ?st0] => destruct (for_range_inv (fun k (x : list vec * list vec * list vec * vec * option solver) => let '(U, UE, UI, rhs, cache) := x in
        rows U /\ rows UE /\ rows UI /\ length rhs = n /\ icache_ok cache /\ (forall j, (j < k)%nat -> goodE U UE j /\ goodI U UI j /\ stage_eq u U j)) f 0%nat s st0) as (x & -> & HX) end.
      - lia.
      - do 5 (split; [auto|]). intros. lia.
      - intros k x Hk HX. pose proof (stage_ok k u x F ltac:(lia)) as Q. destruct x as [[[[U UE] UI] rhs] cache]. destruct HX as (H1 & H2 & H3 & H4 & H5 & H6).
        destruct Q as (U' & UE' & UI' & rhs' & cache' & EQ & H); auto. exists (U', UE', UI', rhs', cache'). split; [exact EQ|]. exact H.
      - destruct x as [[[[U UE] UI] rhs] cache]. destruct HX as (RU' & RE' & RI' & Lrhs & HC' & HG). rewrite bind_Ok.
        destruct (contract (t + dt) None (Some u) rhs 1 0 0 0 None) as (r1 & -> & L1 & V1); auto; [right; discriminate|]. rewrite bind_Ok.
        destruct (final_ok U UE UI F r1) as (r2 & -> & L2 & V2); auto. { intros j Hj. destruct (HG j Hj) as (? & ? & ?). split; [auto|]. split; [auto|]. intros HU. apply HF; auto. } rewrite bind_Ok.
        assert (HMS : exists f m', getMassSolver build st t = (f, m') /\ mcache_ok m' /\ forall rhs x, length (f rhs x) = n /\ forall i, (i < n)%nat -> rat (A (f rhs x)) i = rat rhs i).
        { unfold getMassSolver. rewrite Ht.
          assert (W : forall t' f, solves n (fun _ => A) I t' 1 0 f -> forall rhs x, length (f rhs x) = n /\ forall i, (i < n)%nat -> rat (A (f rhs x)) i = rat rhs i).
          { intros t' f H rhs' x. destruct (H rhs' x) as [L V]. split; auto. intros i Hi. rewrite <- V by auto. ring. }
          assert (Z : forall t' f, solves n (fun _ => A) I t' 1 0 f -> solves n (fun _ => A) I 0 1 0 f).
          { intros t' f H rhs' x. destruct (H rhs' x) as [L V]. split; auto. intros i Hi. rewrite <- V by auto. ring. }
          destruct td eqn:Etd.
          - eexists _, _. split; [reflexivity|]. split; [exact HM|]. eapply W; eauto.
          - unfold mcache_ok in *. destruct (im_massSolve st) as [f|] eqn:Ef; eexists _, _; (split; [reflexivity|]).
            + split; auto. eapply W; eauto.
            + split; [intros; eapply Z; eauto|]. eapply W; eauto. }
        destruct HMS as (f & m' & -> & HM' & Hf). destruct (Hf r2 u) as [Lu' EU]. eexists _, (f r2 u). split; [reflexivity|]. split; [|split; [reflexivity|split; [auto|]]].
        + split; [auto|]. do 6 (split; [auto|]). exact HM'.
        + exists (fun k => nth k U []). split.
          * intros k Hk i Hi. destruct (HG k Hk) as (_ & _ & HS). rewrite HS by auto. reflexivity.
          * intros i Hi. rewrite EU, V2, V1 by auto. cbn [given]. rewrite rsum_plus.
            fold s.
            assert (Q : rsum s (fun j => nth j (tb_bImpl T) 0 * (rat (I (t + nth j (tb_c T) 0 * dt) (nth j U [])) i - rat (gk j) i))
              = rsum s (fun j => bI j * rat (I (time j) (nth j U [])) i) - rsum s (fun j => bI j * rat (gk j) i)).
            { transitivity (rsum s (fun j => bI j * rat (I (time j) (nth j U [])) i + (-1) * (bI j * rat (gk j) i))); [apply rsum_ext; intros; unfold bI, time, c; ring|]. rewrite rsum_plus, rsum_scal. ring. }
            rewrite Q. unfold bE at 1. unfold time at 1. unfold c at 1. ring.
    Qed.
  End Step.
End Imex.
