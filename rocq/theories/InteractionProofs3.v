(** Pentagons and quadrangles. *)
From Coq Require Import R_sqrt Psatz.
From Verif Require Import LinR ReorderProofs InteractionModel InteractionSpec InteractionProofs InteractionProofs2.
Open Scope R_scope.
Set Default Proof Using "Type".

Lemma quo_pos a b : 0 <= a -> 0 < b -> 0 <= a / b.
Proof. intros. apply Rmult_le_pos; [auto|left; apply Rinv_0_lt_compat; auto]. Qed.
Lemma pos_by m a b : 0 < m -> 0 <= b -> m * a = b -> 0 <= a.
Proof. intros Hm Hb E. apply Rmult_le_reg_l with m; [auto|]. lra. Qed.

Definition fan1 (i j k : nat) (c1 c : R) : mat := mset j k (1 - c) (mset k k c (mset i j (1 - c1) (mset j j c1 (mset i i 1 mzero)))).
Definition fan2 (i j k : nat) (c d : R) : mat := mset k k d (mset j k (1 - d) (mset k j c (mset j j (1 - c) (mset i i 1 mzero)))).
Definition fan3 (i j k : nat) (c2 d : R) : mat := mset i k (1 - c2) (mset k k c2 (mset k j d (mset j j (1 - d) (mset i i 1 mzero)))).
Ltac sub_by HR vol := apply (rot_sub _ _ _ _ _ _ HR);
  [rots HR; let q := fresh in intros q [->|[->| ->]]; mats; lra
  |unfold det; rots HR; mats; match goal with |- ?v = _ => rewrite <- (Rabs_pos_eq v) at 1 by auto end; f_equal; ring].

Lemma fan_sub i j k c1 c2 c d : rot i j k -> 0 < c1 < 1 -> 0 < c2 < 1 -> 0 < c -> c <= d -> d < 1 ->
  sub_simplex 3 (fan1 i j k c1 c) (fun _ => 0) (c1 * c) /\ sub_simplex 3 (fan2 i j k c d) (fun _ => 0) (d - c) /\ sub_simplex 3 (fan3 i j k c2 d) (fun _ => 0) (c2 * (1 - d)).
Proof.
  intros HR H1 H2 Hc Hcd Hd. assert (0 <= c1 * c) by (apply Rmult_le_pos; lra). assert (0 <= c2 * (1 - d)) by (apply Rmult_le_pos; lra). assert (0 <= d - c) by lra.
  split; [|split]; unfold fan1, fan2, fan3; sub_by HR 0.
Qed.
Lemma cut_pentagon i j k c1 c2 c d K : rot i j k -> 0 < c1 < 1 -> 0 < c2 < 1 -> 0 < c -> c <= d -> d < 1 ->
  (forall p, K p <-> bary 3 p /\ (p i = 1 \/ (p k = 0 /\ p j = c1) \/ (p j = 0 /\ p k = c2) \/ (p i = 0 /\ (p k = c \/ p k = d)))) ->
  subdivision 3 (linear_subs [(fan1 i j k c1 c, c1 * c); (fan2 i j k c d, d - c); (fan3 i j k c2 d, c2 * (1 - d))]) (hull 3 K).
Proof.
  intros HR H1 H2 Hc Hcd Hd HK. pose proof (fan_sub i j k c1 c2 c d HR H1 H2 Hc Hcd Hd) as (S1 & S2 & S3). split; [|split].
  - intros A b vol [E|[E|[E|[]]]]; injection E as <- <- <-; assumption.
  - intros l Hl. split.
    + intros (A & b & vol & [E|[E|[E|[]]]] & HC); injection E as <- <- <-;
      (apply (rot_cols i j k K _ _ _ HR HC); apply HK; rewrite (rot_bary i j k _ HR); unfold fan1, fan2, fan3; rots HR; mats; lra).
    + intros HH. apply (rot_bary i j k l HR) in Hl. destruct Hl as (L0 & L1 & L2 & L3).
      assert (G1 : c * (1 - c1) <= c * l i + 0 * l j + (1 - c1) * l k).
      { apply (rot_hull i j k K c 0 (1 - c1) _ l HR HH). intros p Hp. apply HK in Hp. destruct Hp as [Hb Hp].
        apply (rot_bary i j k p HR) in Hb. assert (0 < c * c1) by (apply Rmult_lt_0_compat; lra).
        assert (0 <= c * c1 * (1 - c2)) by (apply Rmult_le_pos; lra). assert (0 <= c2 * ((1 - c) * (1 - c1))) by (apply Rmult_le_pos; [lra|apply Rmult_le_pos; lra]).
        destruct Hp as [E|[[E1 E2]|[[E1 E2]|[E [E2|E2]]]]].
        - assert (EP : p k = 0) by lra. rewrite E, EP. lra.
        - assert (EP : p i = 1 - c1) by lra. rewrite E1, EP. lra.
        - assert (EP : p i = 1 - c2) by lra. rewrite E2, EP. lra.
        - rewrite E, E2. lra.
        - rewrite E, E2. assert (0 <= (1 - c1) * (d - c)) by (apply Rmult_le_pos; lra). lra. }
      assert (G2 : (1 - d) * (1 - c2) <= (1 - d) * l i + (1 - c2) * l j + 0 * l k).
      { apply (rot_hull i j k K (1 - d) (1 - c2) 0 _ l HR HH). intros p Hp. apply HK in Hp. destruct Hp as [Hb Hp].
        apply (rot_bary i j k p HR) in Hb. assert (0 < (1 - d) * c2) by (apply Rmult_lt_0_compat; lra).
        assert (0 <= (1 - d) * c2 * (1 - c1)) by (apply Rmult_le_pos; lra). assert (0 <= c1 * (d * (1 - c2))) by (apply Rmult_le_pos; [lra|apply Rmult_le_pos; lra]).
        destruct Hp as [E|[[E1 E2]|[[E1 E2]|[E [E2|E2]]]]].
        - assert (EP : p j = 0) by lra. rewrite E, EP. lra.
        - assert (EP : p i = 1 - c1) by lra. rewrite E2, EP. lra.
        - assert (EP : p i = 1 - c2) by lra. rewrite E1, EP. lra.
        - assert (EP : p j = 1 - c) by lra. rewrite E, EP. assert (0 <= (1 - c2) * (d - c)) by (apply Rmult_le_pos; lra). lra.
        - assert (EP : p j = 1 - d) by lra. rewrite E, EP. lra. }
      destruct (Rle_dec (l k * (1 - c)) (c * l j)) as [HA|HA]; [|destruct (Rle_dec (d * l j) (l k * (1 - d))) as [HB|HB]].
      * exists (fan1 i j k c1 c), (fun _ => 0), (c1 * c). split; [left; reflexivity|]. apply (rot_covers i j k _ _ _ HR).
        set (g := l k / c). assert (Eg : c * g = l k) by (unfold g; field; lra). assert (Hg : 0 <= g) by (apply quo_pos; auto).
        set (v := (l j - g * (1 - c)) / c1). assert (Ev : c1 * v = l j - g * (1 - c)) by (unfold v; field; lra).
        assert (Hv : 0 <= v). { apply quo_pos; [|lra]. apply pos_by with c (c * l j - l k * (1 - c)); [lra|lra|]. rewrite <- Eg. ring. }
        exists (1 - v - g), v, g. split; [|split; [auto|split; [auto|split; [lra|]]]].
        -- apply pos_by with (c1 * c) (c * l i + (1 - c1) * l k - c * (1 - c1)); [apply Rmult_lt_0_compat; lra|lra|].
           replace (c1 * c * (1 - v - g)) with (c1 * c - c * (c1 * v) - c1 * (c * g)) by ring. rewrite Ev, Eg.
           replace (l i) with (1 - l j - l k) by lra. replace (c * (l j - g * (1 - c))) with (c * l j - (1 - c) * (c * g)) by ring. rewrite Eg. ring.
        -- unfold fan1. rots HR; mats; repeat split; lra.
      * exists (fan3 i j k c2 d), (fun _ => 0), (c2 * (1 - d)). split; [right; right; left; reflexivity|]. apply (rot_covers i j k _ _ _ HR).
        set (v := l j / (1 - d)). assert (Ev : (1 - d) * v = l j) by (unfold v; field; lra). assert (Hv : 0 <= v) by (apply quo_pos; lra).
        set (g := (l k - v * d) / c2). assert (Eg : c2 * g = l k - v * d) by (unfold g; field; lra).
        assert (Hg : 0 <= g). { apply quo_pos; [|lra]. apply pos_by with (1 - d) (l k * (1 - d) - d * l j); [lra|lra|]. rewrite <- Ev. ring. }
        exists (1 - v - g), v, g. split; [|split; [auto|split; [auto|split; [lra|]]]].
        -- apply pos_by with (c2 * (1 - d)) ((1 - d) * l i + (1 - c2) * l j - (1 - d) * (1 - c2)); [apply Rmult_lt_0_compat; lra|lra|].
           replace (c2 * (1 - d) * (1 - v - g)) with (c2 * (1 - d) - c2 * ((1 - d) * v) - (1 - d) * (c2 * g)) by ring. rewrite Eg, Ev.
           replace (l i) with (1 - l j - l k) by lra. replace ((1 - d) * (l k - v * d)) with ((1 - d) * l k - d * ((1 - d) * v)) by ring. rewrite Ev. ring.
        -- unfold fan3. rots HR; mats; repeat split; lra.
      * assert (HD : c < d). { destruct (Req_dec c d) as [E|E]; [|lra]. subst d. lra. }
        exists (fan2 i j k c d), (fun _ => 0), (d - c). split; [right; left; reflexivity|]. apply (rot_covers i j k _ _ _ HR).
        set (g := (l k * (1 - c) - c * l j) / (d - c)). assert (Eg : (d - c) * g = l k * (1 - c) - c * l j) by (unfold g; field; lra).
        set (v := (d * l j - (1 - d) * l k) / (d - c)). assert (Ev : (d - c) * v = d * l j - (1 - d) * l k) by (unfold v; field; lra).
        assert (Hg : 0 <= g) by (apply quo_pos; lra). assert (Hv : 0 <= v) by (apply quo_pos; lra).
        assert (ES : v + g = l j + l k) by (apply Rmult_eq_reg_l with (d - c); [|lra]; rewrite Rmult_plus_distr_l, Ev, Eg; ring).
        assert (EK : c * v + d * g = l k) by (apply Rmult_eq_reg_l with (d - c); [|lra]; replace ((d - c) * (c * v + d * g)) with (c * ((d - c) * v) + d * ((d - c) * g)) by ring; rewrite Ev, Eg; ring).
        exists (l i), v, g. split; [auto|split; [auto|split; [auto|split; [lra|]]]]. unfold fan2. rots HR; mats; repeat split; lra.
  - assert (D12 : forall l, ~ (strictly_covers 3 (fan1 i j k c1 c) (fun _ => 0) l /\ strictly_covers 3 (fan2 i j k c d) (fun _ => 0) l)).
    { intros l [A B]. apply (rot_strict i j k _ _ _ HR) in A. apply (rot_strict i j k _ _ _ HR) in B.
      destruct A as (u & v & w & Hu & Hv & Hw & Hs & E0 & E1 & E2). destruct B as (u' & v' & w' & Hu' & Hv' & Hw' & Hs' & E0' & E1' & E2').
      assert (A1 : l k * (1 - c) - c * l j = - (c * (c1 * v))) by (unfold fan1 in *; rots HR; mats; rewrite E1, E2; ring).
      assert (B1 : l k * (1 - c) - c * l j = w' * (d - c)) by (unfold fan2 in *; rots HR; mats; rewrite E1', E2'; ring).
      assert (0 < c * (c1 * v)) by (apply Rmult_lt_0_compat; [lra|apply Rmult_lt_0_compat; lra]). assert (0 <= w' * (d - c)) by (apply Rmult_le_pos; lra). lra. }
    assert (D23 : forall l, ~ (strictly_covers 3 (fan2 i j k c d) (fun _ => 0) l /\ strictly_covers 3 (fan3 i j k c2 d) (fun _ => 0) l)).
    { intros l [B C]. apply (rot_strict i j k _ _ _ HR) in C. apply (rot_strict i j k _ _ _ HR) in B.
      destruct C as (u & v & w & Hu & Hv & Hw & Hs & E0 & E1 & E2). destruct B as (u' & v' & w' & Hu' & Hv' & Hw' & Hs' & E0' & E1' & E2').
      assert (A1 : l k * (1 - d) - d * l j = (1 - d) * (c2 * w)) by (unfold fan3 in *; rots HR; mats; rewrite E1, E2; ring).
      assert (B1 : l k * (1 - d) - d * l j = - (v' * (d - c))) by (unfold fan2 in *; rots HR; mats; rewrite E1', E2'; ring).
      assert (0 < (1 - d) * (c2 * w)) by (apply Rmult_lt_0_compat; [lra|apply Rmult_lt_0_compat; lra]). assert (0 <= v' * (d - c)) by (apply Rmult_le_pos; lra). lra. }
    assert (D13 : forall l, ~ (strictly_covers 3 (fan1 i j k c1 c) (fun _ => 0) l /\ strictly_covers 3 (fan3 i j k c2 d) (fun _ => 0) l)).
    { intros l [A C]. apply (rot_strict i j k _ _ _ HR) in C. apply (rot_strict i j k _ _ _ HR) in A.
      destruct C as (u & v & w & Hu & Hv & Hw & Hs & E0 & E1 & E2). destruct A as (u' & v' & w' & Hu' & Hv' & Hw' & Hs' & E0' & E1' & E2').
      assert (A1 : l k * (1 - d) - d * l j = (1 - d) * (c2 * w)) by (unfold fan3 in *; rots HR; mats; rewrite E1, E2; ring).
      assert (B1 : l k * (1 - c) - c * l j = - (c * (c1 * v'))) by (unfold fan1 in *; rots HR; mats; rewrite E1', E2'; ring).
      assert (B2 : l k = c * w') by (unfold fan1 in *; rots HR; mats; rewrite E2'; ring).
      assert (B3 : l j = c1 * v' + (1 - c) * w') by (unfold fan1 in *; rots HR; mats; rewrite E1'; ring).
      assert (0 < (1 - d) * (c2 * w)) by (apply Rmult_lt_0_compat; [lra|apply Rmult_lt_0_compat; lra]). assert (0 < c * (c1 * v')) by (apply Rmult_lt_0_compat; [lra|apply Rmult_lt_0_compat; lra]).
      assert (0 <= c * w') by (apply Rmult_le_pos; lra). assert (0 <= c1 * v') by (apply Rmult_le_pos; lra). assert (0 <= (1 - c) * w') by (apply Rmult_le_pos; lra).
      assert (0 <= l k * (d - c)) by (apply Rmult_le_pos; lra). assert (0 <= l j * (d - c)) by (apply Rmult_le_pos; lra). lra. }
    intros p q s s' Hpq E E' l.
    destruct p as [|[|p]]; destruct q as [|[|[|q]]]; try lia; cbn in E, E'; try discriminate E'; try (destruct q; discriminate E'); injection E as <-; injection E' as <-; cbn [fst snd]; auto.
Qed.

(** Two corners j, k inside: P1 = i + c1 (j - i), P2 = i + c2 (k - i). *)
Definition quadA1 (i j k : nat) (c1 c2 : R) : mat := mset i j (1 - c1) (mset j j c1 (mset k i c2 (mset i i (1 - c2) (mset k k 1 mzero)))).
Definition quadA2 (i j k : nat) (c1 : R) : mat := mset j i c1 (mset i i (1 - c1) (mset k k 1 (mset j j 1 mzero))).
Definition quadB1 (i j k : nat) (c1 c2 : R) : mat := mset j i c1 (mset i i (1 - c1) (mset i k (1 - c2) (mset k k c2 (mset j j 1 mzero)))).
Definition quadB2 (i j k : nat) (c2 : R) : mat := mset k i c2 (mset i i (1 - c2) (mset k k 1 (mset j j 1 mzero))).

Section Quadrangle.
  Variables (i j k : nat) (c1 c2 : R) (K : (nat -> R) -> Prop).
  Hypotheses (HR : rot i j k) (H1 : 0 < c1 < 1) (H2 : 0 < c2 < 1)
    (HK : forall p, K p <-> bary 3 p /\ (p j = 1 \/ p k = 1 \/ (p k = 0 /\ p j = c1) \/ (p j = 0 /\ p k = c2))).
  Lemma quad_ineq l : hull 3 K l -> c1 * c2 <= c2 * l j + c1 * l k.
  Proof using HR H1 H2 HK.
    intros HH. assert (G : c1 * c2 <= 0 * l i + c2 * l j + c1 * l k); [|lra].
    apply (rot_hull i j k K 0 c2 c1 _ l HR HH). intros p Hp. apply HK in Hp. destruct Hp as [Hb Hp].
    apply (rot_bary i j k p HR) in Hb. assert (0 < c1 * (1 - c2)) by (apply Rmult_lt_0_compat; lra). assert (0 < c2 * (1 - c1)) by (apply Rmult_lt_0_compat; lra).
    destruct Hp as [E|[E|[[E1 E2]|[E1 E2]]]].
    - assert (EP : p k = 0) by lra. rewrite E, EP. lra.
    - assert (EP : p j = 0) by lra. rewrite E, EP. lra.
    - rewrite E1, E2. lra.
    - rewrite E1, E2. lra.
  Qed.
  Lemma quadA_cut : subdivision 3 (linear_subs [(quadA1 i j k c1 c2, c1 * (1 - c2)); (quadA2 i j k c1, 1 - c1)]) (hull 3 K).
  Proof using HR H1 H2 HK.
    assert (0 <= c1 * (1 - c2)) by (apply Rmult_le_pos; lra). assert (0 <= 1 - c1) by lra. split; [|split].
    - intros A b vol [E|[E|[]]]; injection E as <- <- <-; clear HK; unfold quadA1, quadA2; sub_by HR 0.
    - intros l Hl. split.
      + intros (A & b & vol & [E|[E|[]]] & HC); injection E as <- <- <-;
        (apply (rot_cols i j k K _ _ _ HR HC); apply HK; clear HK HC; rewrite (rot_bary i j k _ HR); unfold quadA1, quadA2; rots HR; mats; lra).
      + intros HH. pose proof (quad_ineq l HH) as G. clear HH HK. apply (rot_bary i j k l HR) in Hl. destruct Hl as (L0 & L1 & L2 & L3).
        destruct (Rle_dec (c1 * l i) (l j * (1 - c1))) as [HA|HA].
        * exists (quadA2 i j k c1), (fun _ => 0), (1 - c1). split; [right; left; reflexivity|]. apply (rot_covers i j k _ _ _ HR).
          set (u := l i / (1 - c1)). assert (Eu : (1 - c1) * u = l i) by (unfold u; field; lra). assert (Hu : 0 <= u) by (apply quo_pos; lra).
          exists u, (l j - c1 * u), (l k). split; [auto|]. split; [|split; [auto|split; [lra|]]].
          -- apply pos_by with (1 - c1) (l j * (1 - c1) - c1 * l i); [lra|lra|]. rewrite <- Eu. ring.
          -- unfold quadA2. rots HR; mats; repeat split; lra.
        * exists (quadA1 i j k c1 c2), (fun _ => 0), (c1 * (1 - c2)). split; [left; reflexivity|]. apply (rot_covers i j k _ _ _ HR).
          set (v := l j / c1). assert (Ev : c1 * v = l j) by (unfold v; field; lra). assert (Hv : 0 <= v) by (apply quo_pos; lra).
          set (u := (l i - (1 - c1) * v) / (1 - c2)). assert (Eu : (1 - c2) * u = l i - (1 - c1) * v) by (unfold u; field; lra).
          assert (Hu : 0 <= u). { apply quo_pos; [|lra]. apply pos_by with c1 (c1 * l i - l j * (1 - c1)); [lra|lra|]. rewrite <- Ev. ring. }
          exists u, v, (1 - u - v). split; [auto|]. split; [auto|]. split; [|split; [lra|]].
          -- apply pos_by with (c1 * (1 - c2)) (c2 * l j + c1 * l k - c1 * c2); [apply Rmult_lt_0_compat; lra|lra|].
             replace (c1 * (1 - c2) * (1 - u - v)) with (c1 * (1 - c2) - c1 * ((1 - c2) * u) - (1 - c2) * (c1 * v)) by ring. rewrite Eu.
             replace (c1 * (l i - (1 - c1) * v)) with (c1 * l i - (1 - c1) * (c1 * v)) by ring. rewrite Ev. replace (l i) with (1 - l j - l k) by lra. ring.
          -- unfold quadA1. rots HR; mats; repeat split; lra.
    - clear HK. assert (D : forall l, ~ (strictly_covers 3 (quadA1 i j k c1 c2) (fun _ => 0) l /\ strictly_covers 3 (quadA2 i j k c1) (fun _ => 0) l)).
      { intros l [A B]. apply (rot_strict i j k _ _ _ HR) in A. apply (rot_strict i j k _ _ _ HR) in B.
        destruct A as (u & v & w & Hu & Hv & Hw & Hs & E0 & E1 & E2). destruct B as (u' & v' & w' & Hu' & Hv' & Hw' & Hs' & E0' & E1' & E2').
        assert (A1 : l j * (1 - c1) - c1 * l i = - (c1 * ((1 - c2) * u))) by (unfold quadA1 in *; rots HR; mats; rewrite E0, E1; ring).
        assert (B1 : l j * (1 - c1) - c1 * l i = v' * (1 - c1)) by (unfold quadA2 in *; rots HR; mats; rewrite E0', E1'; ring).
        assert (0 < c1 * ((1 - c2) * u)) by (apply Rmult_lt_0_compat; [lra|apply Rmult_lt_0_compat; lra]). assert (0 <= v' * (1 - c1)) by (apply Rmult_le_pos; lra). lra. }
      intros p q s s' Hpq E E' l.
      destruct p as [|p]; destruct q as [|[|q]]; try lia; cbn in E, E'; try (destruct q; discriminate E'); injection E as <-; injection E' as <-; cbn [fst snd]; auto.
  Qed.
  Lemma quadB_cut : subdivision 3 (linear_subs [(quadB1 i j k c1 c2, c2 * (1 - c1)); (quadB2 i j k c2, 1 - c2)]) (hull 3 K).
  Proof using HR H1 H2 HK.
    assert (0 <= c2 * (1 - c1)) by (apply Rmult_le_pos; lra). assert (0 <= 1 - c2) by lra. split; [|split].
    - intros A b vol [E|[E|[]]]; injection E as <- <- <-; clear HK; unfold quadB1, quadB2; sub_by HR 0.
    - intros l Hl. split.
      + intros (A & b & vol & [E|[E|[]]] & HC); injection E as <- <- <-;
        (apply (rot_cols i j k K _ _ _ HR HC); apply HK; clear HK HC; rewrite (rot_bary i j k _ HR); unfold quadB1, quadB2; rots HR; mats; lra).
      + intros HH. pose proof (quad_ineq l HH) as G. clear HH HK. apply (rot_bary i j k l HR) in Hl. destruct Hl as (L0 & L1 & L2 & L3).
        destruct (Rle_dec (c2 * l i) (l k * (1 - c2))) as [HA|HA].
        * exists (quadB2 i j k c2), (fun _ => 0), (1 - c2). split; [right; left; reflexivity|]. apply (rot_covers i j k _ _ _ HR).
          set (u := l i / (1 - c2)). assert (Eu : (1 - c2) * u = l i) by (unfold u; field; lra). assert (Hu : 0 <= u) by (apply quo_pos; lra).
          exists u, (l j), (l k - c2 * u). split; [auto|]. split; [auto|]. split; [|split; [lra|]].
          -- apply pos_by with (1 - c2) (l k * (1 - c2) - c2 * l i); [lra|lra|]. rewrite <- Eu. ring.
          -- unfold quadB2. rots HR; mats; repeat split; lra.
        * exists (quadB1 i j k c1 c2), (fun _ => 0), (c2 * (1 - c1)). split; [left; reflexivity|]. apply (rot_covers i j k _ _ _ HR).
          set (v := l k / c2). assert (Ev : c2 * v = l k) by (unfold v; field; lra). assert (Hv : 0 <= v) by (apply quo_pos; lra).
          set (u := (l i - (1 - c2) * v) / (1 - c1)). assert (Eu : (1 - c1) * u = l i - (1 - c2) * v) by (unfold u; field; lra).
          assert (Hu : 0 <= u). { apply quo_pos; [|lra]. apply pos_by with c2 (c2 * l i - l k * (1 - c2)); [lra|lra|]. rewrite <- Ev. ring. }
          exists u, (1 - u - v), v. split; [auto|]. split; [|split; [auto|split; [lra|]]].
          -- apply pos_by with (c2 * (1 - c1)) (c2 * l j + c1 * l k - c1 * c2); [apply Rmult_lt_0_compat; lra|lra|].
             replace (c2 * (1 - c1) * (1 - u - v)) with (c2 * (1 - c1) - c2 * ((1 - c1) * u) - (1 - c1) * (c2 * v)) by ring. rewrite Eu.
             replace (c2 * (l i - (1 - c2) * v)) with (c2 * l i - (1 - c2) * (c2 * v)) by ring. rewrite Ev. replace (l i) with (1 - l j - l k) by lra. ring.
          -- unfold quadB1. rots HR; mats; repeat split; lra.
    - clear HK. assert (D : forall l, ~ (strictly_covers 3 (quadB1 i j k c1 c2) (fun _ => 0) l /\ strictly_covers 3 (quadB2 i j k c2) (fun _ => 0) l)).
      { intros l [A B]. apply (rot_strict i j k _ _ _ HR) in A. apply (rot_strict i j k _ _ _ HR) in B.
        destruct A as (u & v & w & Hu & Hv & Hw & Hs & E0 & E1 & E2). destruct B as (u' & v' & w' & Hu' & Hv' & Hw' & Hs' & E0' & E1' & E2').
        assert (A1 : l k * (1 - c2) - c2 * l i = - (c2 * ((1 - c1) * u))) by (unfold quadB1 in *; rots HR; mats; rewrite E0, E2; ring).
        assert (B1 : l k * (1 - c2) - c2 * l i = w' * (1 - c2)) by (unfold quadB2 in *; rots HR; mats; rewrite E0', E2'; ring).
        assert (0 < c2 * ((1 - c1) * u)) by (apply Rmult_lt_0_compat; [lra|apply Rmult_lt_0_compat; lra]). assert (0 <= w' * (1 - c2)) by (apply Rmult_le_pos; lra). lra. }
      intros p q s s' Hpq E E' l.
      destruct p as [|p]; destruct q as [|[|q]]; try lia; cbn in E, E'; try (destruct q; discriminate E'); injection E as <-; injection E' as <-; cbn [fst snd]; auto.
  Qed.
End Quadrangle.

(** All corners inside. *)
Lemma cut_whole K : (forall p, K p <-> bary 3 p /\ (p 0%nat = 1 \/ p 1%nat = 1 \/ p 2%nat = 1)) ->
  subdivision 3 (linear_subs [(identity, 1)]) (hull 3 K).
Proof.
  intros HK. assert (HR : rot 0 1 2) by (left; auto). split; [|split].
  - intros A b vol [E|[]]. injection E as <- <- <-. apply (rot_sub _ _ _ _ _ _ HR).
    + intros q [->|[->| ->]]; unfold identity; mats; lra.
    + unfold identity, det. mats. rewrite <- (Rabs_pos_eq 1) at 1 by lra. f_equal. ring.
  - intros l Hl. split.
    + intros (A & b & vol & [E|[]] & HC). injection E as <- <- <-.
      apply (rot_cols _ _ _ K _ _ _ HR HC); apply HK; rewrite (rot_bary _ _ _ _ HR); unfold identity; mats; lra.
    + intros _. exists identity, (fun _ => 0), 1. split; [left; reflexivity|]. apply (rot_covers _ _ _ _ _ _ HR).
      apply (rot_bary _ _ _ l HR) in Hl. destruct Hl as (L0 & L1 & L2 & L3). exists (l 0%nat), (l 1%nat), (l 2%nat). unfold identity. mats. repeat split; lra.
  - intros [|p] [|[|q]] s s' Hpq E E'; try lia; discriminate.
Qed.
