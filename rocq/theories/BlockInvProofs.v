(** One block row of a block triangular solve. *)
From Verif Require Import Util Lin CSRModel DenseModel SmootherModel CompModel CompSpec CompProofs CompProofs2 CompProofs4 CompProofs5 BlockInvModel.
Local Open Scope nat_scope.
Set Default Proof Using "Type".

Lemma contents_part h b o n k w (z : nat -> Qc) : k + w <= n -> contents h (View b o n) = map Some (tab n z) ->
  contents h (View b (o + k) w) = map Some (tab w (fun r => z (k + r))).
Proof.
  intros H C. apply list_ext. intros r. rewrite nth_error_contents. cbn [v_len v_off v_buf].
  pose proof (nth_error_contents h (View b o n) (k + r)) as N. rewrite C in N. cbn [v_len v_off v_buf] in N.
  rewrite nth_error_map in N. rewrite nth_error_map. unfold tab in *. rewrite nth_error_map in *.
  destruct (Nat.ltb_spec r w) as [G|G].
  - rewrite (proj2 (Nat.ltb_lt (k + r) n)) in N by lia. rewrite Nat.add_assoc in N. rewrite <- N.
    rewrite !(nth_error_nth' _ 0) by (rewrite seq_length; lia). rewrite !seq_nth by lia. reflexivity.
  - rewrite (proj2 (nth_error_None (seq 0 w) r)) by (rewrite seq_length; lia). reflexivity.
Qed.
Lemma inside_part h b o n k w : k + w <= n -> inside h (View b o n) -> inside h (View b (o + k) w).
Proof. unfold inside. cbn. lia. Qed.
Lemma nth_tab {A} n (f : nat -> A) r : nth_error (tab n f) r = if r <? n then Some (f r) else None.
Proof.
  unfold tab. rewrite nth_error_map. destruct (Nat.ltb_spec r n).
  - rewrite (nth_error_nth' _ 0) by (rewrite seq_length; lia). rewrite seq_nth by lia. reflexivity.
  - rewrite (proj2 (nth_error_None (seq 0 n) r)) by (rewrite seq_length; lia). reflexivity.
Qed.
Lemma contents_join h h' T b o n k w (z f : nat -> Qc) : k + w <= n -> ~ In b T -> only h h' (mutable T (View b (o + k) w)) ->
  contents h (View b o n) = map Some (tab n z) -> contents h' (View b (o + k) w) = map Some (tab w f) ->
  contents h' (View b o n) = map Some (tab n (fun r => if (k <=? r) && (r <? k + w) then f (r - k) else z r)).
Proof.
  intros H NT (_ & O) C C'. apply list_ext. intros r.
  pose proof (nth_error_contents h (View b o n) r) as N. rewrite C in N. cbn [v_len v_off v_buf] in N.
  rewrite nth_error_contents. cbn [v_len v_off v_buf]. rewrite nth_error_map, nth_tab in N. rewrite nth_error_map, nth_tab.
  destruct (Nat.ltb_spec r n) as [G|G]; [|reflexivity]. cbn [option_map] in *.
  destruct (Nat.leb_spec k r) as [G1|G1]; destruct (Nat.ltb_spec r (k + w)) as [G2|G2]; cbn [andb].
  - pose proof (nth_error_contents h' (View b (o + k) w) (r - k)) as N'. rewrite C', nth_error_map, nth_tab in N'. cbn [v_len v_off v_buf] in N'.
    rewrite (proj2 (Nat.ltb_lt (r - k) w)) in N' by lia. cbn [option_map] in N'. rewrite N'. f_equal. lia.
  - rewrite O, <- N; [reflexivity|]. intros [X|(_ & X)]; [auto|cbn in X; lia].
  - rewrite O, <- N; [reflexivity|]. intros [X|(_ & X)]; [auto|cbn in X; lia].
  - lia.
Qed.
Lemma v_diff_ok t x y xs ys h : inside h t -> inside h x -> inside h y -> contents h x = map Some xs -> contents h y = map Some ys ->
  v_len x = v_len t -> v_len y = v_len t ->
  exists h', v_diff t x y h = Ok h' /\ contents h' t = map Some (tab (v_len t) (fun i => vat xs i - vat ys i)%Qc) /\ only h h' (touches t).
Proof.
  intros It Ix Iy Cx Cy Lx Ly. unfold v_diff. rewrite (vread_ok h x Ix), bind_Ok, (vread_ok h y Iy), bind_Ok, (vread_ok h t It), bind_Ok, Cx, Cy.
  assert (L1 : length xs = v_len t) by (rewrite <- Lx, <- (contents_length h x Ix), Cx, map_length; reflexivity).
  assert (L2 : length ys = v_len t) by (rewrite <- Ly, <- (contents_length h y Iy), Cy, map_length; reflexivity).
  assert (E : for_range 0 (v_len t) (fun k ts => a <- rd (map Some xs) k ;; b <- rd (map Some ys) k ;; wr ts k (a - b)%Qc) (contents h t) =
    Ok (map Some (tab (v_len t) (fun i => vat xs i - vat ys i)%Qc))).
  { apply fill_loop.
    - apply contents_length, It.
    - intros i b Hi _ _. rewrite (rd_some xs i 0%Qc) by lia. cbn [bind]. rewrite (rd_some ys i 0%Qc) by lia. cbn [bind]. reflexivity. }
  rewrite E, bind_Ok. apply vwrite_ok; [exact It|]. rewrite map_length, tab_length. reflexivity.
Qed.

Section Step.
  Context (lens : nat -> nat) (T : list nat) (t : nat) (ws : list nat) (x y : view) (xs : nat -> Qc).
  Let n := sum_nat ws.
  Let off i := sum_nat (firstn i ws).
  Let w i := nth i ws 0.
  Hypothesis Ht : In t T.
  Hypothesis Lt : n <= lens t.
  Hypothesis Nx : ~ In (v_buf x) T.
  Hypothesis Ny : ~ In (v_buf y) T.
  Hypothesis Nxy : v_buf x <> v_buf y.
  Hypothesis Lx : v_len x = n.
  Hypothesis Ly : v_len y = n.
  Definition state (h : heap) (z : nat -> Qc) : Prop :=
    (forall id, In id T -> lens id <= length (nth id h [])) /\ inside h x /\ inside h y /\ contents h x = map Some (tab n xs) /\ contents h y = map Some (tab n z).
  Definition part_of (v : view) (i : nat) : view := View (v_buf v) (v_off v + off i) (w i).
  Let tv i := View t (off i) (w i).
  Let inb i r := (off i <=? r) && (r <? off i + w i).
  Lemma off_S i : i < length ws -> off (S i) = off i + w i.
  Proof using. intros H. apply sum_firstn_S. apply nth_error_nth'. auto. Qed.
  Lemma off_bound i : i < length ws -> off i + w i <= n.
  Proof using. intros H. apply sum_firstn_bound. apply nth_error_nth'. auto. Qed.
  Lemma off_sep i j : i < j -> i < length ws -> off i + w i <= off j.
  Proof using. intros H L. rewrite <- off_S by auto. apply sum_firstn_le. clear - H. lia. Qed.
  Lemma state_part h v i (f : nat -> Qc) : v_len v = n -> i < length ws -> contents h v = map Some (tab n f) -> contents h (part_of v i) = map Some (tab (w i) (fun r => f (off i + r))).
  Proof using. intros Lv Hi C. apply (contents_part h (v_buf v) (v_off v) n (off i) (w i)); [apply off_bound; auto|]. rewrite <- Lv at 1. destruct v; exact C. Qed.
  Lemma tv_inside h z i : state h z -> i < length ws -> inside h (tv i).
  Proof using Ht Lt. intros (S1 & _) Hi. pose proof (S1 t Ht) as H. pose proof (off_bound i Hi) as B. clear - B H Lt. unfold inside. cbn. lia. Qed.
  Lemma view_inside h v i : v_len v = n -> inside h v -> i < length ws -> inside h (part_of v i).
  Proof using. intros Lv Iv Hi. apply (inside_part h (v_buf v) (v_off v) n); [apply off_bound; auto|]. rewrite <- Lv. destruct v; exact Iv. Qed.
  (** Nothing but scratch is changed. *)
  Lemma state_scratch h h' z : state h z -> only h h' (fun id _ => In id T) -> state h' z.
  Proof using Nx Ny.
    intros (S1 & S2 & S3 & S4 & S5) O. split; [intros id Hid; rewrite (proj1 O); auto|]. split; [eapply only_inside; eauto|]. split; [eapply only_inside; eauto|].
    split; [rewrite <- S4|rewrite <- S5]; eapply only_contents; eauto.
  Qed.
  (** One block of the output is changed. *)
  Lemma state_block h h' z i f : state h z -> i < length ws -> only h h' (mutable T (part_of y i)) -> contents h' (part_of y i) = map Some (tab (w i) f) ->
    state h' (fun r => if inb i r then f (r - off i) else z r).
  Proof using Nx Ny Nxy Ly.
    intros (S1 & S2 & S3 & S4 & S5) Hi O C. split; [intros id Hid; rewrite (proj1 O); auto|]. split; [eapply only_inside; eauto|]. split; [eapply only_inside; eauto|].
    split.
    - rewrite <- S4. eapply only_contents; [exact O|]. intros k _ [X|(X & _)]; [auto|]. cbn in X. auto.
    - assert (Ey : y = View (v_buf y) (v_off y) n) by (rewrite <- Ly; destruct y; reflexivity).
      rewrite Ey. apply (contents_join h h' T (v_buf y) (v_off y) n (off i) (w i)); auto; [apply off_bound; auto|]. rewrite <- Ey. exact S5.
  Qed.

  (** The operators of one block row *)
  Context (i a b : nat) (blk : nat -> view -> view -> heap -> res heap) (inv : view -> view -> heap -> res heap) (M : nat -> mat) (D : mat) (TB : nat -> list nat) (TD : list nat).
  Hypothesis Hi : i < length ws.
  Hypothesis Hab : a <= b.
  Hypothesis Hb : b <= length ws.
  Hypothesis Ho : ~ (a <= i < b).
  Hypothesis PB : forall j, a <= j < b -> performs lens (TB j) (w i) (w j) (M j) false (blk j) /\ incl (TB j) T /\ ~ In t (TB j).
  Hypothesis PD : performs lens TD (w i) (w i) D false inv.
  Hypothesis ID : incl TD T.
  Hypothesis ND : ~ In t TD.

  Definition step_body (h : heap) : res heap :=
    h <- for_range a b (fun j h => h <- blk j (part_of y j) (tv i) h ;; v_add (part_of y i) (tv i) h) h ;;
    h <- v_diff (tv i) (part_of x i) (part_of y i) h ;;
    inv (tv i) (part_of y i) h.
  Definition gathered (z : nat -> Qc) (k r : nat) : Qc := sumf (k - a) (fun q => mv (w (a + q)) (M (a + q)) (fun c => z (off (a + q) + c)) r).

  Lemma step_ok h z : state h z -> (forall r, r < w i -> z (off i + r) = 0%Qc) ->
    exists h' z', step_body h = Ok h' /\ state h' z' /\ only h h' (mutable T y) /\ (forall r, inb i r = false -> z' r = z r) /\
      forall r, r < w i -> z' (off i + r) = mv (w i) D (fun c => xs (off i + c) - gathered z b c)%Qc r.
  Proof using All.
    intros S0 Z0. unfold step_body.
    assert (Sub : forall h1 h2, only h1 h2 (mutable T (part_of y i)) -> only h1 h2 (mutable T y)).
    { intros h1 h2 O. eapply only_weaken; [exact O|]. intros id k [X|(X & Y)]; [left; auto|right]. split; [exact X|]. cbn in Y. pose proof (off_bound i Hi). lia. }
    destruct (for_range_inv (fun k h1 => only h h1 (mutable T y) /\ exists z1, state h1 z1 /\ (forall r, inb i r = false -> z1 r = z r) /\ forall r, r < w i -> z1 (off i + r) = gathered z k r)
      (fun j h => h <- blk j (part_of y j) (tv i) h ;; v_add (part_of y i) (tv i) h) a b h) as (h1 & E1 & O1 & z1 & S1 & K1 & G1).
    - exact Hab.
    - split; [apply only_refl|]. exists z. split; [exact S0|]. split; [auto|]. intros r Hr. unfold gathered. rewrite Nat.sub_diag. cbn. apply Z0; auto.
    - intros j h1 Hj (O1 & z1 & S1 & K1 & G1). destruct (PB j Hj) as (P & IT & Nt).
      assert (Hj' : j < length ws) by lia. assert (ij : j <> i) by lia.
      pose proof S1 as (Q1 & Q2 & Q3 & Q4 & Q5).
      pose proof (state_part h1 y j z1 Ly Hj' Q5) as Cj.
      destruct (P (part_of y j) (tv i) (tab (w j) (fun r => z1 (off j + r))) [] h1) as (h2 & E2 & C2 & O2).
      { split; [intros id Hid; apply Q1; auto|]. split; [reflexivity|]. split; [reflexivity|]. split; [apply view_inside; auto|]. split; [eapply tv_inside; eauto|].
        split; [exact Cj|]. split; [discriminate|]. split; [intros X; apply Ny; auto|]. split; [exact Nt|]. cbn. intros X. apply Ny. rewrite X. exact Ht. }
      rewrite E2. cbn [bind].
      assert (O2' : only h1 h2 (fun id _ => In id T)) by (eapply only_weaken; [exact O2|]; intros id k [X|(-> & _)]; auto).
      pose proof (state_scratch _ _ _ S1 O2') as S2. pose proof S2 as (_ & _ & R3 & _ & R5).
      pose proof (state_part h2 y i z1 Ly Hi R5) as Ci.
      destruct (v_add_ok (part_of y i) (tv i) _ _ h2 (view_inside h2 y i Ly R3 Hi) (tv_inside h2 z1 i S2 Hi) Ci C2 eq_refl) as (h3 & E3 & C3 & O3).
      rewrite E3. exists h3. split; [reflexivity|]. cbn [v_len part_of] in C3.
      assert (O3' : only h2 h3 (mutable T (part_of y i))) by (eapply only_weaken; [exact O3|]; intros; right; auto).
      split.
      { eapply only_trans; [exact O1|]. eapply only_trans; [|apply Sub; exact O3']. eapply only_weaken; [exact O2'|]. intros; left; auto. }
      eexists. split; [apply (state_block h2 h3 z1 i _ S2 Hi O3' C3)|]. split.
      { intros r Hr. rewrite Hr. auto. }
      intros r Hr. unfold inb. rewrite (proj2 (Nat.leb_le (off i) (off i + r))), (proj2 (Nat.ltb_lt (off i + r) (off i + w i))) by lia. cbn [andb].
      replace (off i + r - off i) with r by lia. rewrite !vat_tab by auto. rewrite G1 by auto. rewrite Qcplus_0_l.
      unfold gathered. replace (S j - a) with (S (j - a)) by lia. cbn [sumf]. replace (a + (j - a)) with j by lia. f_equal.
      unfold mv. apply sumf_ext. intros c Hc. rewrite vat_tab by auto. f_equal. apply K1. unfold inb.
      destruct (Nat.leb_spec (off i) (off j + c)); [|reflexivity]. destruct (Nat.ltb_spec (off j + c) (off i + w i)); [|reflexivity]. exfalso.
      destruct (Nat.lt_ge_cases j i) as [L|L]; [pose proof (off_sep j i L Hj')|pose proof (off_sep i j ltac:(lia) Hi)]; lia.
    - rewrite E1. cbn [bind]. pose proof S1 as (Q1 & Q2 & Q3 & Q4 & Q5).
      pose proof (state_part h1 y i z1 Ly Hi Q5) as Cy. pose proof (state_part h1 x i xs Lx Hi Q4) as Cx.
      destruct (v_diff_ok (tv i) (part_of x i) (part_of y i) _ _ h1 (tv_inside h1 z1 i S1 Hi) (view_inside h1 x i Lx Q2 Hi) (view_inside h1 y i Ly Q3 Hi) Cx Cy eq_refl eq_refl) as (h2 & E2 & C2 & O2).
      rewrite E2. cbn [bind]. assert (O2' : only h1 h2 (fun id _ => In id T)) by (eapply only_weaken; [exact O2|]; intros id k (-> & _); auto).
      pose proof (state_scratch _ _ _ S1 O2') as S2. pose proof S2 as (R1 & R2 & R3 & R4 & R5).
      assert (AR : arguments lens TD (w i) (w i) false (tv i) (part_of y i) (tab (w i) (fun c => vat (tab (w i) (fun r => xs (off i + r))) c - vat (tab (w i) (fun r => z1 (off i + r)%nat)) c)%Qc) [] h2).
      { split; [intros id Hid; apply R1; auto|]. split; [reflexivity|]. split; [reflexivity|]. split; [eapply tv_inside; eauto|]. split; [apply view_inside; auto|].
        split; [exact C2|]. split; [discriminate|]. split; [exact ND|]. split; [intros X; apply Ny; auto|]. cbn. intros X. apply Ny. rewrite <- X. exact Ht. }
      destruct (PD _ _ _ _ _ AR) as (h3 & E3 & C3 & O3).
      assert (O3' : only h2 h3 (mutable T (part_of y i))) by (eapply only_weaken; [exact O3|]; intros id k [X|X]; [left|right]; auto).
      exists h3. eexists. split; [exact E3|]. split; [apply (state_block h2 h3 z1 i _ S2 Hi O3' C3)|]. split.
      { eapply only_trans; [exact O1|]. eapply only_trans; [|apply Sub; exact O3']. eapply only_weaken; [exact O2'|]. intros; left; auto. }
      split; [intros r Hr; rewrite Hr; auto|].
      intros r Hr. unfold inb. rewrite (proj2 (Nat.leb_le (off i) (off i + r))), (proj2 (Nat.ltb_lt (off i + r) (off i + w i))) by lia. cbn [andb].
      replace (off i + r - off i) with r by lia. rewrite Qcplus_0_l. unfold mv. apply sumf_ext. intros c Hc. rewrite vat_tab by exact Hc. cbn [v_len tv] in *. rewrite !vat_tab by exact Hc. rewrite G1 by auto. reflexivity.
  Qed.
End Step.
