(** The loops of interpolationOperator.set compute Neville's recursion. *)
From Verif Require Import Util Lin CompModel InterpModel InterpSpec InterpProofs.
Local Open Scope Qc_scope.
Set Default Proof Using "Type".

Lemma bind_Ok {A B} (a : A) (f : A -> res B) : bind (Ok a) f = f a. Proof. reflexivity. Qed.
Definition shape2 (n : nat) (W : list (list Qc)) : Prop := length W = n /\ forall j, (j < n)%nat -> length (nth j W []) = n.
Definition at2 (W : list (list Qc)) (j i : nat) : Qc := vat (nth j W []) i.
Lemma get2_ok n W j i : shape2 n W -> (j < n)%nat -> (i < n)%nat -> get2 W j i = Ok (at2 W j i).
Proof. intros (L & R) Hj Hi. unfold get2. rewrite (aget_nth W j []) by lia. rewrite bind_Ok, (aget_nth _ i 0) by (rewrite R; auto). reflexivity. Qed.
Lemma set2_ok n W j i v : shape2 n W -> (j < n)%nat -> (i < n)%nat -> exists W', set2 W j i v = Ok W' /\ shape2 n W' /\
  forall j' i', at2 W' j' i' = if ((j' =? j) && (i' =? i))%nat then v else at2 W j' i'.
Proof.
  intros (L & R) Hj Hi. unfold set2. rewrite (aget_nth W j []) by lia. rewrite bind_Ok, aset_ok by (rewrite R; auto). rewrite bind_Ok, aset_ok by lia.
  eexists. split; [reflexivity|]. split.
  - split; [rewrite upd_length; auto|]. intros j' Hj'. destruct (Nat.eq_dec j j') as [<- |Hne].
    + rewrite nth_upd_eq by lia. rewrite upd_length. auto.
    + rewrite nth_upd_neq by auto. auto.
  - intros j' i'. unfold at2. destruct (Nat.eqb_spec j' j) as [-> |Hne].
    + rewrite nth_upd_eq by lia. cbn [andb]. unfold vat. destruct (Nat.eqb_spec i' i) as [-> |Hi']; [apply nth_upd_eq; rewrite R; auto|apply nth_upd_neq; auto].
    + rewrite nth_upd_neq by auto. reflexivity.
Qed.
Lemma fill2 n K (v : nat -> nat -> list (list Qc) -> res Qc) (g : nat -> nat -> Qc) W0 : shape2 n W0 -> (K <= n)%nat ->
  (forall j i W, (j < K)%nat -> (i < n)%nat -> shape2 n W -> (forall j' i', (j < j' \/ j' = j /\ i <= i')%nat -> at2 W j' i' = at2 W0 j' i') -> v j i W = Ok (g j i)) ->
  exists W', for_range 0 K (fun j W => for_range 0 n (fun i W => w <- v j i W ;; set2 W j i w) W) W0 = Ok W' /\ shape2 n W' /\
    forall j i, (j < n)%nat -> (i < n)%nat -> at2 W' j i = if (j <? K)%nat then g j i else at2 W0 j i.
Proof.
  intros H0 HK Hv.
  destruct (for_range_inv (fun j W => shape2 n W /\ (forall j' i', (j <= j')%nat -> at2 W j' i' = at2 W0 j' i') /\ forall j' i', (j' < j)%nat -> (i' < n)%nat -> at2 W j' i' = g j' i')
    (fun j W => for_range 0 n (fun i W => w <- v j i W ;; set2 W j i w) W) 0 K W0) as (W' & E & S' & Hge & Hlt).
  - lia.
  - split; [auto|]. split; [auto|lia].
  - intros j W Hj (SW & Hge & Hlt).
    destruct (for_range_inv (fun i W => shape2 n W /\ (forall j' i', (j < j' \/ j' = j /\ i <= i')%nat -> at2 W j' i' = at2 W0 j' i') /\
        (forall j' i', (j' < j)%nat -> (i' < n)%nat -> at2 W j' i' = g j' i') /\ forall i', (i' < i)%nat -> at2 W j i' = g j i')
      (fun i W => w <- v j i W ;; set2 W j i w) 0 n W) as (W1 & E1 & S1 & G1 & L1 & D1).
    + lia.
    + split; [auto|]. split; [intros; apply Hge; lia|]. split; [auto|lia].
    + intros i V Hi (SV & GV & LV & DV). rewrite (Hv j i V) by (auto; lia). rewrite bind_Ok.
      destruct (set2_ok n V j i (g j i) SV ltac:(lia) ltac:(lia)) as (V' & E' & S' & A'). exists V'. split; [exact E'|]. split; [exact S'|]. split; [|split].
      * intros j' i' H. rewrite A'. destruct (Nat.eqb_spec j' j), (Nat.eqb_spec i' i); cbn [andb]; try lia; apply GV; lia.
      * intros j' i' H H'. rewrite A'. destruct (Nat.eqb_spec j' j); cbn [andb]; [lia|]. apply LV; auto.
      * intros i' H. rewrite A', Nat.eqb_refl. cbn [andb]. destruct (Nat.eqb_spec i' i) as [-> |]; [reflexivity|]. apply DV. lia.
    + exists W1. split; [exact E1|]. split; [exact S1|]. split; [intros; apply G1; lia|]. intros j' i' H H'. destruct (Nat.eq_dec j' j) as [-> |]; [apply D1; auto|apply L1; auto; lia].
  - exists W'. split; [exact E|]. split; [exact S'|]. intros j i Hj Hi. destruct (Nat.ltb_spec j K); [apply Hlt; auto|apply Hge; auto].
Qed.
Lemma zeros_shape n : shape2 n (zeros n).
Proof. unfold zeros. split; [apply repeat_length|]. intros j Hj. rewrite (nth_indep _ [] (repeat 0 n)) by (rewrite repeat_length; auto). rewrite nth_repeat. apply repeat_length. Qed.

Lemma increasing_lt nodes : increasing nodes -> forall j i, (i < j < length nodes)%nat -> vat nodes i < vat nodes j.
Proof.
  intros H. induction j as [|j IH]; intros i Hij; [lia|]. destruct (Nat.eq_dec i j) as [-> |]; [apply H; lia|].
  apply Qclt_trans with (vat nodes j); [apply IH; lia|apply H; lia].
Qed.
Lemma quotient_ok a b : b <> 0 -> quotient a b = Ok (a / b).
Proof. intros H. unfold quotient. destruct (Qc_eq_bool b 0) eqn:E; [apply Qc_eq_bool_correct in E; contradiction|]. reflexivity. Qed.

Section set_.
  Context (nodes : list Qc) (val : Qc).
  Let n := length nodes.
  Let x := vat nodes.
  Hypothesis inc : increasing nodes.
  Lemma distinct i j : (i < j < n)%nat -> x i - x j <> 0.
  Proof using inc. intros H E. pose proof (increasing_lt nodes inc j i H) as L. unfold x in E. assert (vat nodes i = vat nodes j) as E' by (transitivity (vat nodes i - vat nodes j + vat nodes j); [ring|rewrite E; ring]). rewrite E' in L. apply (Qclt_not_eq _ _ L). reflexivity. Qed.

  Definition holds (p : jet -> Qc) (k : nat) (W : list (list Qc)) : Prop := shape2 n W /\ forall j i, (k + j < n)%nat -> (i < n)%nat -> at2 W j i = p (w val x k j i).

  Lemma init_W_ok W : shape2 n W -> exists W', init_W n W = Ok W' /\ holds j0 0 W'.
  Proof.
    intros S0. destruct (fill2 n n (fun i j _ => Ok (if (i =? j)%nat then 1 else 0)) (fun i j => if (i =? j)%nat then 1 else 0) W S0) as (W' & E & S' & A); auto.
    exists W'. split; [exact E|]. split; [exact S'|]. intros j i Hj Hi. rewrite A by lia. destruct (Nat.ltb_spec j n); [|lia]. cbn [w]. destruct (j =? i)%nat; reflexivity.
  Qed.
  Lemma init_0_ok W : shape2 n W -> exists W', init_0 n W = Ok W' /\ holds j1 0 W' /\ holds j2 0 W'.
  Proof.
    intros S0. destruct (fill2 n n (fun i j _ => Ok 0) (fun i j => 0) W S0) as (W' & E & S' & A); auto.
    exists W'. split; [exact E|]. split; (split; [exact S'|]); intros j i Hj Hi; rewrite A by lia; (destruct (Nat.ltb_spec j n); [|lia]); cbn [w]; destruct (j =? i)%nat; reflexivity.
  Qed.
  Lemma parts k j i : (S k + j < n)%nat ->
    j0 (w val x (S k) j i) = (j0 (w val x k j i) * (val - x (S k + j)%nat) - j0 (w val x k (S j) i) * (val - x j)) / (x j - x (S k + j)%nat) /\
    j1 (w val x (S k) j i) = (j1 (w val x k j i) * (val - x (S k + j)%nat) + 1 * j0 (w val x k j i) - j1 (w val x k (S j) i) * (val - x j) - 1 * j0 (w val x k (S j) i)) / (x j - x (S k + j)%nat) /\
    j2 (w val x (S k) j i) = (j2 (w val x k j i) * (val - x (S k + j)%nat) + (1 + 1) * j1 (w val x k j i) - j2 (w val x k (S j) i) * (val - x j) - (1 + 1) * j1 (w val x k (S j) i)) / (x j - x (S k + j)%nat).
  Proof.
    intros _. cbn [w]. unfold jsub, Qcdiv. cbn [jmul jadd jopp jq j0 j1 j2]. repeat split; ring.
  Qed.
  Lemma sweep_W k W : (S k < n)%nat -> holds j0 k W -> exists W', sweep n (S k) (entry_W nodes val (S k)) W = Ok W' /\ holds j0 (S k) W'.
  Proof using inc.
    intros Hk (S0 & A0). destruct (fill2 n (n - S k) (entry_W nodes val (S k)) (fun j i => j0 (w val x (S k) j i)) W S0) as (W' & E & S' & A); [lia| |].
    - intros j i V Hj Hi SV HV. unfold entry_W. rewrite !(get2_ok n V) by (auto; lia). rewrite !HV by lia. rewrite !A0 by lia. rewrite !bind_Ok.
      rewrite (aget_nth nodes (S k + j) 0), (aget_nth nodes j 0) by (fold n; lia). rewrite !bind_Ok. 
      rewrite quotient_ok by (apply distinct; lia). f_equal. symmetry. apply parts. lia.
    - exists W'. split; [exact E|]. split; [exact S'|]. intros j i Hj Hi. rewrite A by lia. destruct (Nat.ltb_spec j (n - S k)); [reflexivity|lia].
  Qed.
  Lemma sweep_W' k c p q W1 W : (S k < n)%nat -> holds p k W -> holds q k W1 ->
    (forall j i, (S k + j < n)%nat -> q (w val x (S k) j i) = (q (w val x k j i) * (val - x (S k + j)%nat) + c * p (w val x k j i) - q (w val x k (S j) i) * (val - x j) - c * p (w val x k (S j) i)) / (x j - x (S k + j)%nat)) ->
    exists W', sweep n (S k) (fun j i W1 => entry_W' nodes val c (S k) j i W W1) W1 = Ok W' /\ holds q (S k) W'.
  Proof using inc.
    intros Hk (S0 & A0) (S1 & A1) Hq. destruct (fill2 n (n - S k) (fun j i W1 => entry_W' nodes val c (S k) j i W W1) (fun j i => q (w val x (S k) j i)) W1 S1) as (W' & E & S' & A); [lia| |].
    - intros j i V Hj Hi SV HV. unfold entry_W'. rewrite !(get2_ok n V), !(get2_ok n W) by (auto; lia). rewrite !HV by lia. rewrite !A0, !A1 by lia.
      rewrite (aget_nth nodes (S k + j) 0), (aget_nth nodes j 0) by (fold n; lia). rewrite !bind_Ok.
      rewrite quotient_ok by (apply distinct; lia). f_equal. symmetry. apply Hq. lia.
    - exists W'. split; [exact E|]. split; [exact S'|]. intros j i Hj Hi. rewrite A by lia. destruct (Nat.ltb_spec j (n - S k)); [reflexivity|lia].
  Qed.
  Lemma take_ok p W c : holds p (n - 1) W -> length c = n -> exists c', take_coeffs n W c = Ok (map Some c') /\ length c' = n /\ forall i, (i < n)%nat -> vat c' i = p (w val x (n - 1) 0 i).
  Proof.
    intros (S0 & A0) Hc. exists (tab n (fun i => p (w val x (n - 1) 0 i))). split; [|split; [apply tab_length|intros; apply vat_tab; auto]].
    unfold take_coeffs. apply fill_loop; [auto|]. intros i y Hi Hy _. rewrite (get2_ok n W) by (auto; lia). rewrite bind_Ok, A0 by lia. reflexivity.
  Qed.
  Lemma weights_exact p d c : (forall a, p a = match d with 0%nat => j0 a | 1%nat => j1 a | _ => j2 a end) -> (d <= 2)%nat -> length c = n -> (forall i, (i < n)%nat -> vat c i = p (w val x (n - 1) 0 i)) -> exact_weights nodes val d c.
  Proof using inc.
    intros Hp Hd Hc A. split; [exact Hc|]. intros q Hq. fold n in Hq. unfold weighted. fold n. destruct (Nat.eq_dec n 0) as [Z|Z].
    { rewrite Z. destruct q; [|cbn in Hq; lia]. cbn [sumf]. destruct d as [|[|[|d]]]; try lia; reflexivity. }
    assert (E : L val x n (n - 1) 0 (evalp q) = evalj q (J val 1 0)).
    { apply (L_exact val x n distinct); [lia|]. eapply pol_le; [|apply pol_list]. lia. }
    rewrite evalj_derivs in E. unfold L in E. rewrite jsum_parts in E. injection E as E0 E1 E2.
    rewrite (sumf_ext n _ (fun i => p (jmul (jq (evalp q (x i))) (w val x (n - 1) 0 i)))).
    - destruct d as [|[|[|d]]]; [| | |lia].
      + change (Nat.iter 0 deriv q) with q. rewrite <- E0. apply sumf_ext. intros. apply Hp.
      + change (Nat.iter 1 deriv q) with (deriv q). rewrite <- E1. apply sumf_ext. intros. apply Hp.
      + change (Nat.iter 2 deriv q) with (deriv (deriv q)). rewrite <- E2. apply sumf_ext. intros. apply Hp.
    - intros i Hi. rewrite A by auto. rewrite !Hp. unfold x. destruct d as [|[|d]]; cbn [jmul jq j0 j1 j2]; ring.
  Qed.
End set_.

Definition wf_iop (o : iop) : Prop := let n := length (i_nodes o) in
  increasing (i_nodes o) /\ length (i_coeffs o) = n /\ shape2 n (i_W o) /\ shape2 n (i_W1 o) /\ shape2 n (i_W2 o).
Lemma le_q_true a b : a <= b -> le_q a b = true.
Proof. intros H. unfold le_q. pose proof (proj1 (Qcle_alt a b) H) as G. destruct (a ?= b); congruence. Qed.
Lemma le_q_le a b : le_q a b = true -> a <= b.
Proof. unfold le_q. intros H. apply (proj2 (Qcle_alt a b)). destruct (a ?= b); congruence. Qed.
Lemma lt_q_lt a b : lt_q a b = true <-> a < b.
Proof. unfold lt_q. rewrite Qclt_alt. destruct (a ?= b); split; congruence. Qed.
Lemma le_q_not a b : ~ a <= b -> le_q a b = false.
Proof. intros H. destruct (le_q a b) eqn:E; [apply le_q_le in E; contradiction|reflexivity]. Qed.

Lemma loop1 {S} n (P : nat -> S -> Prop) f s : P 0%nat s -> (forall k s, (Datatypes.S k < n)%nat -> P k s -> exists s', f (Datatypes.S k) s = Ok s' /\ P (Datatypes.S k) s') ->
  exists s', for_range 1 n f s = Ok s' /\ P (n - 1)%nat s'.
Proof.
  intros H0 Hs. destruct (Nat.eq_dec n 0) as [-> |Hn]; [exists s; split; [reflexivity|exact H0]|].
  destruct (for_range_inv (fun k s => P (k - 1)%nat s) f 1 n s) as (s' & E & H); [lia|exact H0| |exists s'; auto].
  intros [|k] s0 Hk HP; [lia|]. cbn [Nat.sub] in *. rewrite Nat.sub_0_r in *. apply Hs; [lia|auto].
Qed.
Lemma set_ok o val d : wf_iop o -> i_left o <= val -> val <= i_right o -> (d <= 2)%nat ->
  exists o' c, set o val d = Ok o' /\ wf_iop o' /\ i_nodes o' = i_nodes o /\ i_left o' = i_left o /\ i_right o' = i_right o /\
    i_val o' = Some val /\ i_derivative o' = Some d /\ i_coeffs o' = map Some c /\ exact_weights (i_nodes o) val d c.
Proof.
  intros (inc & Lc & S0 & S1 & S2) Hl Hr Hd. unfold set. rewrite !le_q_true by auto. cbn [guard]. rewrite !bind_Ok.
  set (nodes := i_nodes o) in *. set (n := length nodes) in *.
  destruct (init_W_ok nodes val (i_W o) S0) as (V0 & E0 & H0). fold n in E0.
  destruct (init_0_ok nodes val (i_W1 o) S1) as (V1 & E1 & H1 & _). fold n in E1.
  destruct (init_0_ok nodes val (i_W2 o) S2) as (V2 & E2 & _ & H2). fold n in E2.
  destruct d as [|[|[|d]]]; [| | |lia].
  - rewrite E0, bind_Ok.
    destruct (loop1 n (fun k W => holds nodes val j0 k W) (fun k W => sweep n k (entry_W nodes val k) W) V0 H0) as (W & EW & HW).
    { intros k V Hk HV. apply (sweep_W nodes val inc k V Hk HV). }
    rewrite EW, bind_Ok. destruct (take_ok nodes val j0 W (i_coeffs o) HW Lc) as (c & Ec & Lc' & Hc). fold n in Ec. rewrite Ec, bind_Ok.
    eexists _, c. split; [reflexivity|]. cbn [i_nodes i_left i_right i_val i_derivative i_coeffs]. split.
    { repeat split; cbn [i_nodes i_coeffs i_W i_W1 i_W2]; fold nodes; fold n; auto; try apply HW; try apply S1; try apply S2. rewrite map_length. exact Lc'. }
    repeat split; auto. apply (weights_exact nodes val inc j0 0 c); auto.
  - rewrite E0, bind_Ok, E1, bind_Ok.
    destruct (loop1 n (fun k s => holds nodes val j0 k (fst s) /\ holds nodes val j1 k (snd s)) (fun k s => let '(W, W1) := s in
             W1 <- sweep n k (fun j i W1 => entry_W' nodes val 1 k j i W W1) W1 ;; W <- sweep n k (entry_W nodes val k) W ;; Ok (W, W1)) (V0, V1) (conj H0 H1)) as ((W & W1) & EW & HW & HW1).
    { intros k (V & V') Hk (HV & HV'). cbn [fst snd] in *.
      destruct (sweep_W' nodes val inc k 1 j0 j1 V' V Hk HV HV') as (V1' & Es & Hs); [intros; apply parts; auto|].
      destruct (sweep_W nodes val inc k V Hk HV) as (V0' & Es0 & Hs0). fold n in Es, Es0. rewrite Es, bind_Ok, Es0, bind_Ok. eexists. split; [reflexivity|]. auto. }
    rewrite EW, bind_Ok. cbn [fst snd] in *. destruct (take_ok nodes val j1 W1 (i_coeffs o) HW1 Lc) as (c & Ec & Lc' & Hc). fold n in Ec. rewrite Ec, bind_Ok.
    eexists _, c. split; [reflexivity|]. cbn [i_nodes i_left i_right i_val i_derivative i_coeffs]. split.
    { repeat split; cbn [i_nodes i_coeffs i_W i_W1 i_W2]; fold nodes; fold n; auto; try apply HW; try apply HW1; try apply S2. rewrite map_length. exact Lc'. }
    repeat split; auto. apply (weights_exact nodes val inc j1 1 c); auto.
  - rewrite E0, bind_Ok, E1, bind_Ok, E2, bind_Ok.
    destruct (loop1 n (fun k s => holds nodes val j0 k (fst (fst s)) /\ holds nodes val j1 k (snd (fst s)) /\ holds nodes val j2 k (snd s)) (fun k s => let '(W, W1, W2) := s in
             W2 <- sweep n k (fun j i W2 => entry_W' nodes val (1 + 1) k j i W1 W2) W2 ;;
             W1 <- sweep n k (fun j i W1 => entry_W' nodes val 1 k j i W W1) W1 ;; W <- sweep n k (entry_W nodes val k) W ;; Ok (W, W1, W2)) (V0, V1, V2) (conj H0 (conj H1 H2))) as (((W & W1) & W2) & EW & HW & HW1 & HW2).
    { intros k ((V & V') & V'') Hk (HV & HV' & HV''). cbn [fst snd] in *.
      destruct (sweep_W' nodes val inc k (1 + 1) j1 j2 V'' V' Hk HV' HV'') as (V2' & Es2 & Hs2); [intros; apply parts; auto|].
      destruct (sweep_W' nodes val inc k 1 j0 j1 V' V Hk HV HV') as (V1' & Es & Hs); [intros; apply parts; auto|].
      destruct (sweep_W nodes val inc k V Hk HV) as (V0' & Es0 & Hs0). fold n in Es, Es0, Es2. rewrite Es2, bind_Ok, Es, bind_Ok, Es0, bind_Ok. eexists. split; [reflexivity|]. auto. }
    rewrite EW, bind_Ok. cbn [fst snd] in *. destruct (take_ok nodes val j2 W2 (i_coeffs o) HW2 Lc) as (c & Ec & Lc' & Hc). fold n in Ec. rewrite Ec, bind_Ok.
    eexists _, c. split; [reflexivity|]. cbn [i_nodes i_left i_right i_val i_derivative i_coeffs]. split.
    { repeat split; cbn [i_nodes i_coeffs i_W i_W1 i_W2]; fold nodes; fold n; auto; try apply HW; try apply HW1; try apply HW2. rewrite map_length. exact Lc'. }
    repeat split; auto. apply (weights_exact nodes val inc j2 2 c); auto.
Qed.

Lemma new_interp_ok nodes l r : (increasing nodes -> exists o, new_interp nodes l r = Ok o /\ wf_iop o /\ i_nodes o = nodes /\ i_left o = l /\ i_right o = r) /\
  (forall o, new_interp nodes l r = Ok o -> increasing nodes).
Proof.
  unfold new_interp. cbv zeta. split.
  - intros inc. destruct (for_range_inv (fun _ (u : unit) => u = tt) (fun i _ => a <- aget nodes i ;; b <- aget nodes (i + 1) ;; guard (lt_q a b) EAssert) 0 (length nodes - 1) tt) as (u & E & ->); [lia|reflexivity| |].
    + intros k s Hk ->. rewrite (aget_nth nodes k 0), (aget_nth nodes (k + 1) 0) by lia. rewrite !bind_Ok. rewrite Nat.add_1_r.
      rewrite (proj2 (lt_q_lt _ _)) by (apply inc; lia). exists tt. auto.
    + rewrite E, bind_Ok. eexists. split; [reflexivity|]. split; [|auto]. repeat split; cbn [i_nodes i_coeffs i_W i_W1 i_W2]; auto; try apply zeros_shape. apply alloc_length.
  - intros o H i Hi. destruct (for_range _ _ _ _) as [u|] eqn:E; [|discriminate]. clear H.
    assert (G : forall k s u, for_n k s (fun i _ => a <- aget nodes i ;; b <- aget nodes (i + 1) ;; guard (lt_q a b) EAssert) tt = Ok u -> forall i, (s <= i < s + k)%nat -> lt_q (vat nodes i) (vat nodes (S i)) = true).
    { clear. induction k as [|k IH]; intros s u E i Hi; [lia|]. cbn [for_n] in E. destruct (aget nodes s) as [a|] eqn:Ea; [|discriminate]. rewrite bind_Ok in E.
      destruct (aget nodes (s + 1)) as [b|] eqn:Eb; [|discriminate]. rewrite bind_Ok in E. destruct (lt_q a b) eqn:L; [|discriminate]. cbn [guard] in E. rewrite bind_Ok in E.
      destruct (Nat.eq_dec i s) as [-> |]; [|apply (IH (S s) u E); lia]. apply aget_inv in Ea, Eb. rewrite Nat.add_1_r in Eb.
      unfold vat. rewrite (nth_error_nth _ _ 0 Ea), (nth_error_nth _ _ 0 Eb). exact L. }
    apply lt_q_lt. unfold for_range in E. eapply G; [exact E|lia].
Qed.
Lemma set_rejects o val d : (~ i_left o <= val \/ ~ val <= i_right o -> set o val d = Err EAssert) /\ (i_left o <= val -> val <= i_right o -> (2 < d)%nat -> set o val d = Err ENotImpl).
Proof.
  unfold set. split.
  - intros [H|H]; [rewrite (le_q_not _ _ H); reflexivity|]. rewrite (le_q_not _ _ H). destruct (le_q (i_left o) val); reflexivity.
  - intros Hl Hr Hd. rewrite !le_q_true by auto. destruct d as [|[|[|d]]]; try lia. reflexivity.
Qed.
