(** Forward and backward substitution with blocks. *)
From Verif Require Import Util Lin CSRModel DenseModel SmootherModel CompModel CompSpec CompProofs CompProofs2 CompProofs3 CompProofs4 CompProofs5 CompProofs6 CompProofs7 BlockInvModel BlockInvSpec BlockInvProofs.
Local Open Scope nat_scope.
Set Default Proof Using "Type".

Lemma window_sum n o w (f z : nat -> Qc) : o + w <= n ->
  sumf n (fun c => (if (o <=? c)%nat && (c <? o + w)%nat then f (c - o)%nat else 0) * z c)%Qc = sumf w (fun c => f c * z (o + c)%nat)%Qc.
Proof.
  intros H. replace n with (o + (w + (n - o - w))) by lia. rewrite sumf_app, sumf_app.
  rewrite (sumf_zero o), (sumf_zero (n - o - w)).
  - rewrite Qcplus_0_l, Qcplus_0_r. apply sumf_ext. intros c Hc. rewrite (proj2 (Nat.leb_le o (o + c))), (proj2 (Nat.ltb_lt (o + c) (o + w))) by lia. cbn [andb].
    replace (o + c - o) with c by lia. reflexivity.
  - intros c Hc. rewrite (proj2 (Nat.ltb_ge (o + (w + c)) (o + w))) by lia. rewrite andb_false_r. ring.
  - intros c Hc. rewrite (proj2 (Nat.leb_gt o c)) by lia. cbn [andb]. ring.
Qed.
(** The product with a block operator, block by block *)
Lemma block_mv rows t ws i z r : (forall row, In row rows -> map (fun e => snd (dims e)) row = ws) -> i < length rows -> r < nth i (sizes rows) 0 ->
  mv (sum_nat ws) (meaning (EBlock rows t)) z (sum_nat (firstn i (sizes rows)) + r) =
  sumf (length ws) (fun j => mv (nth j ws 0) (meaning (entry rows i j)) (fun c => z (sum_nat (firstn j ws) + c)) r).
Proof.
  intros Hw Hi Hr. unfold mv at 1. cbn [meaning].
  set (l := map (fun row => (hd 0 (map (fun e => fst (dims e)) row), beside (map (fun e => (snd (dims e), meaning e)) row))) rows).
  assert (El : map fst l = sizes rows) by (unfold l, sizes; rewrite map_map; reflexivity).
  set (row := nth i rows []). assert (Er : nth_error rows i = Some row) by (apply nth_error_nth'; auto).
  assert (E : nth_error l i = Some (nth i (sizes rows) 0, beside (map (fun e => (snd (dims e), meaning e)) row))).
  { unfold l. rewrite nth_error_map, Er. cbn [option_map]. f_equal. f_equal. unfold sizes. symmetry. apply nth_error_nth. rewrite nth_error_map, Er. reflexivity. }
  pose proof (Hw row ltac:(eapply nth_error_In; eauto)) as Ew.
  assert (Lw : length row = length ws) by (rewrite <- Ew, map_length; reflexivity).
  rewrite (sumf_ext _ _ (fun c => sumf (length ws) (fun k => (if (sum_nat (firstn k ws) <=? c)%nat && (c <? sum_nat (firstn k ws) + nth k ws 0)%nat then meaning (entry rows i k) r (c - sum_nat (firstn k ws))%nat else 0) * z c))%Qc).
  - rewrite sumf_swap. apply sumf_ext. intros k Hk. rewrite (window_sum (sum_nat ws) _ _ (fun c => meaning (entry rows i k) r c)); [reflexivity|].
    apply sum_firstn_bound, nth_error_nth'. auto.
  - intros c Hc. rewrite (above_at l i _ _ _ c E) by (rewrite El; lia). rewrite El. replace (sum_nat (firstn i (sizes rows)) + r - sum_nat (firstn i (sizes rows))) with r by lia.
    rewrite beside_sum. rewrite map_length, Lw. rewrite <- sumf_scal_r. apply sumf_ext. intros k Hk. cbv zeta. rewrite !map_map. cbn [fst snd].
    change (map (fun e => snd (dims e)) row) with (map (fun x => snd (dims x)) row) in Ew. rewrite Ew. f_equal.
    destruct ((sum_nat (firstn k ws) <=? c) && (c <? sum_nat (firstn k ws) + nth k ws 0)); [|reflexivity].
    unfold entry. fold row. rewrite (nth_indep (map (fun x => meaning x) row) (fun _ _ => 0%Qc) (meaning (ENull 0 0))) by (rewrite map_length; lia).
    rewrite (map_nth meaning). reflexivity.
Qed.

Section Solve.
  Context (lens : nat -> nat) (T : list nat) (t : nat) (ws : list nat) (x y : view) (xs : nat -> Qc).
  Let n := sum_nat ws.
  Let N := length ws.
  Let off i := sum_nat (firstn i ws).
  Let w i := nth i ws 0.
  Hypothesis Ht : In t T.
  Hypothesis Lt : n <= lens t.
  Hypothesis Nx : ~ In (v_buf x) T.
  Hypothesis Ny : ~ In (v_buf y) T.
  Hypothesis Nxy : v_buf x <> v_buf y.
  Hypothesis Lx : v_len x = n.
  Hypothesis Ly : v_len y = n.
  Context (A : nat -> nat -> mat) (D : nat -> mat) (blk : nat -> nat -> view -> view -> heap -> res heap) (inv : nat -> view -> view -> heap -> res heap)
    (TB : nat -> nat -> list nat) (TD : nat -> list nat) (lo hi : nat -> nat).
  Hypothesis HR : forall i, i < N -> lo i <= hi i /\ hi i <= N /\ ~ (lo i <= i < hi i).
  Hypothesis PB : forall i j, i < N -> lo i <= j < hi i -> performs lens (TB i j) (w i) (w j) (A i j) false (blk i j) /\ incl (TB i j) T /\ ~ In t (TB i j).
  Hypothesis PD : forall i, i < N -> performs lens (TD i) (w i) (w i) (D i) false (inv i) /\ incl (TD i) T /\ ~ In t (TD i).
  Hypothesis RD : forall i, i < N -> right_inverse (w i) (A i i) (D i).
  Definition solved (z : nat -> Qc) (i : nat) : Prop := forall r, r < w i ->
    (mv (w i) (A i i) (fun c => z (off i + c)%nat) r + gathered ws (lo i) (A i) z (hi i) r)%Qc = xs (off i + r).
  Let inb i r := (off i <=? r) && (r <? off i + w i).
  Lemma not_inb i j c : i < N -> j < N -> i <> j -> c < w j -> inb i (off j + c) = false.
  Proof using.
    clear Ht Lt Nx Ny Nxy Lx Ly HR PB PD RD. intros Hi Hj Hij Hc. unfold inb. destruct (Nat.leb_spec (off i) (off j + c)); [|reflexivity]. destruct (Nat.ltb_spec (off j + c) (off i + w i)); [|reflexivity]. exfalso.
    destruct (Nat.lt_ge_cases j i) as [L|L].
    - assert (P : off j + w j <= off i) by (apply (off_sep ws j i); assumption). lia.
    - assert (P : off i + w i <= off j) by (apply (off_sep ws i j); [lia|assumption]). lia.
  Qed.
  Lemma gathered_same z z' i k : k < N -> i < N -> ~ (lo i <= k < hi i) -> hi i <= N -> (forall r, inb k r = false -> z' r = z r) -> forall r, gathered ws (lo i) (A i) z' (hi i) r = gathered ws (lo i) (A i) z (hi i) r.
  Proof using.
    clear Ht Lt Nx Ny Nxy Lx Ly HR PB PD RD. intros Hk Hi Ho Hh E r. unfold gathered. apply sumf_ext. intros q Hq. unfold mv. apply sumf_ext. intros c Hc. f_equal. apply E. apply not_inb; auto; lia.
  Qed.
  Lemma solved_same z z' i k : k < N -> i < N -> i <> k -> ~ (lo i <= k < hi i) -> (forall r, inb k r = false -> z' r = z r) -> solved z i -> solved z' i.
  Proof using HR.
    intros Hk Hi Hik Ho E S r Hr. rewrite <- S by auto. f_equal; [|apply (gathered_same z z' i k); auto; apply HR; auto].
    unfold mv. apply sumf_ext. intros c Hc. f_equal. apply E. apply not_inb; auto.
  Qed.
  Lemma solve_step i h z : i < N -> state lens T ws x y xs h z -> (forall r, r < w i -> z (off i + r) = 0%Qc) ->
    exists h' z', step_body t ws x y i (lo i) (hi i) (blk i) (inv i) h = Ok h' /\ state lens T ws x y xs h' z' /\ only h h' (mutable T y) /\
      (forall r, inb i r = false -> z' r = z r) /\ solved z' i.
  Proof using All.
    intros Hi S Z0. destruct (HR i Hi) as (H1 & H2 & H3). destruct (PD i Hi) as (P1 & P2 & P3).
    destruct (step_ok lens T t ws x y xs Ht Lt Nx Ny Nxy Lx Ly i (lo i) (hi i) (blk i) (inv i) (A i) (D i) (TB i) (TD i) Hi H1 H2 H3 (fun j Hj => PB i j Hi Hj) P1 P2 P3 h z S Z0)
      as (h' & z' & E & S' & O & K & V).
    exists h', z'. split; [exact E|]. split; [exact S'|]. split; [exact O|]. split; [exact K|].
    intros r Hr. rewrite (gathered_same z z' i i Hi Hi H3 H2 K).
    assert (Q : mv (w i) (A i i) (fun c => z' (off i + c)) r = (xs (off i + r)%nat - gathered ws (lo i) (A i) z (hi i) r)%Qc); [|rewrite Q; ring].
    transitivity (mv (w i) (A i i) (mv (w i) (D i) (fun c => xs (off i + c)%nat - gathered ws (lo i) (A i) z (hi i) c)%Qc) r).
    { unfold mv at 1 2. apply sumf_ext. intros c Hc. f_equal. apply V. exact Hc. }
    rewrite <- mv_mm. unfold mv. rewrite (sumf_ext _ _ (fun j => if (j =? r)%nat then xs (off i + j)%nat - gathered ws (lo i) (A i) z (hi i) j else 0)%Qc).
    - rewrite sumf_delta by auto. reflexivity.
    - intros j Hj. rewrite (RD i Hi r j Hr Hj), (Nat.eqb_sym r j). destruct (j =? r); ring.
  Qed.
  Lemma block_start h : (forall id, In id T -> lens id <= length (nth id h [])) -> inside h x -> inside h y -> contents h x = map Some (tab n xs) ->
    exists h', v_zero y h = Ok h' /\ state lens T ws x y xs h' (fun _ => 0%Qc) /\ only h h' (mutable T y).
  Proof using Nxy Ly.
    intros S1 S2 S3 S4. destruct (v_zero_ok y h S3) as (h' & E & C & O). exists h'. split; [exact E|].
    split; [|eapply only_weaken; [exact O|]; intros; right; auto]. split; [intros id Hid; rewrite (proj1 O); auto|]. split; [eapply only_inside; eauto|]. split; [eapply only_inside; eauto|].
    split; [transitivity (contents h x); [eapply only_contents; [exact O|]; intros k _ (X & _); auto|exact S4]|]. rewrite C, Ly. unfold tab. rewrite map_map. change (sum_nat ws) with n. generalize n. clear. intros n.
    generalize 0. induction n as [|m IH]; intros s; [reflexivity|]. cbn [repeat seq map]. rewrite (IH (S s)). reflexivity.
  Qed.
  Definition result (h : heap) (h' : heap) (z : nat -> Qc) : Prop := state lens T ws x y xs h' z /\ only h h' (mutable T y).
  Lemma solve_lower h : (forall i, lo i = 0 /\ hi i = i) -> state lens T ws x y xs h (fun _ => 0%Qc) -> exists h' z,
    for_range 0 N (fun i h => step_body t ws x y i 0 i (blk i) (inv i) h) h = Ok h' /\ result h h' z /\ forall i, i < N -> solved z i.
  Proof using All.
    intros HL S0.
    destruct (for_range_inv (fun k h1 => exists z, result h h1 z /\ (forall r, off k <= r -> z r = 0%Qc) /\ forall i, i < k -> solved z i)
      (fun i h => step_body t ws x y i 0 i (blk i) (inv i) h) 0 N h) as (h' & E & z & R & _ & S).
    - lia.
    - exists (fun _ => 0%Qc). split; [split; [exact S0|apply only_refl]|]. split; [auto|]. intros; lia.
    - intros k h1 Hk (z & (S1 & O1) & Z & S). destruct (HL k) as (L1 & L2).
      destruct (solve_step k h1 z ltac:(lia) S1) as (h2 & z2 & E2 & S2 & O2 & K2 & V2); [intros r Hr; apply Z; lia|].
      rewrite L1, L2 in E2. exists h2. split; [exact E2|]. exists z2. split; [split; [exact S2|eapply only_trans; eauto]|]. split.
      + intros r Hr. assert (OS : off (Datatypes.S k) = off k + w k) by (apply (off_S ws k); unfold N in *; lia).
        rewrite K2; [apply Z; lia|]. unfold inb. rewrite (proj2 (Nat.ltb_ge r (off k + w k))) by lia. apply andb_false_r.
      + intros i Hi. destruct (Nat.eq_dec i k) as [->|]; [exact V2|]. apply (solved_same z z2 i k); auto; try lia; [destruct (HL i) as (-> & ->); lia|apply S; lia].
    - exists h', z. split; [exact E|]. split; [exact R|exact S].
  Qed.
  Lemma solve_upper h : (forall i, lo i = S i /\ hi i = N) -> state lens T ws x y xs h (fun _ => 0%Qc) -> exists h' z,
    for_range_down N 0 (fun k h => step_body t ws x y (k - 1) k N (blk (k - 1)) (inv (k - 1)) h) h = Ok h' /\ result h h' z /\ forall i, i < N -> solved z i.
  Proof using All.
    intros HL S0.
    destruct (for_range_down_inv (fun k h1 => exists z, result h h1 z /\ (forall r, r < off k -> z r = 0%Qc) /\ forall i, k <= i < N -> solved z i)
      (fun k h => step_body t ws x y (k - 1) k N (blk (k - 1)) (inv (k - 1)) h) N 0 h) as (h' & E & z & R & _ & S).
    - lia.
    - exists (fun _ => 0%Qc). split; [split; [exact S0|apply only_refl]|]. split; [auto|]. intros; lia.
    - intros k' h1 Hk (z & (S1 & O1) & Z & S). destruct k' as [|k]; [lia|]. cbn [Nat.sub] in *. rewrite Nat.sub_0_r in *. destruct (HL k) as (L1 & L2).
      assert (OS : off (Datatypes.S k) = off k + w k) by (apply (off_S ws k); unfold N in *; lia).
      destruct (solve_step k h1 z ltac:(lia) S1) as (h2 & z2 & E2 & S2 & O2 & K2 & V2); [intros r Hr; apply Z; lia|].
      rewrite L1, L2 in E2. exists h2. split; [exact E2|]. exists z2. split; [split; [exact S2|eapply only_trans; eauto]|]. split.
      + intros r Hr. rewrite K2; [apply Z; lia|]. unfold inb. rewrite (proj2 (Nat.leb_gt (off k) r)) by lia. reflexivity.
      + intros i Hi. destruct (Nat.eq_dec i k) as [->|]; [exact V2|]. apply (solved_same z z2 i k); auto; try lia; [destruct (HL i) as (-> & ->); lia|apply S; lia].
    - exists h', z. split; [exact E|]. split; [exact R|]. intros i Hi. apply S. lia.
  Qed.
End Solve.
