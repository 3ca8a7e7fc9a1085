(** Operators with one entry in each row. *)
From Verif Require Import Util Lin CSRModel SparsitySpec CSRSpec OpsProofs3 AssemblyProofs TransferProofs2 SubMapModel SubMapSpec SubMapProofs SubMapProofs2 SubMapProofs3.
Local Open Scope Z_scope.
Set Default Proof Using "Type".

Lemma scatter {X V} (act : X -> bool) (f : X -> nat) (g : X -> V) l : forall done b,
  (forall x, In x (done ++ l) -> act x = true -> (f x < length b)%nat) ->
  (forall x y, In x (done ++ l) -> In y (done ++ l) -> act x = true -> act y = true -> f x = f y -> g x = g y) ->
  (forall x, In x done -> act x = true -> nth_error b (f x) = Some (Some (g x))) ->
  exists b', for_list l (fun x b => if act x then wr b (f x) (g x) else Ok b) b = Ok b' /\ length b' = length b /\
    (forall x, In x (done ++ l) -> act x = true -> nth_error b' (f x) = Some (Some (g x))).
Proof.
  induction l as [|x l IH]; intros done b Hlt Hfun Hd; cbn [for_list].
  - exists b. rewrite app_nil_r. auto.
  - assert (EA : done ++ x :: l = (done ++ [x]) ++ l) by (rewrite <- app_assoc; reflexivity).
    assert (IX : In x (done ++ x :: l)) by (apply in_or_app; right; left; reflexivity).
    destruct (act x) eqn:Ex.
    + pose proof (Hlt x IX Ex) as Lx. rewrite wr_ok by exact Lx. cbn [bind].
      destruct (IH (done ++ [x]) (upd b (f x) (Some (g x)))) as (b' & E & L & H).
      * rewrite <- EA. rewrite upd_length. exact Hlt.
      * rewrite <- EA. exact Hfun.
      * intros y Hy Ey. rewrite nth_error_upd. destruct (Nat.eqb_spec (f x) (f y)) as [Ef|Nf]; cbn [andb].
        -- rewrite (proj2 (Nat.ltb_lt _ _) Lx). f_equal. f_equal. apply Hfun; try assumption. apply in_or_app. apply in_app_or in Hy. destruct Hy as [Hy|[<-|[]]]; [left; exact Hy|right; left; reflexivity].
        -- apply in_app_or in Hy. destruct Hy as [Hy|[<-|[]]]; [apply Hd; assumption|congruence].
      * exists b'. split; [exact E|]. rewrite upd_length in L. split; [exact L|]. rewrite EA. exact H.
    + cbn [bind]. destruct (IH (done ++ [x]) b) as (b' & E & L & H).
      * rewrite <- EA. exact Hlt.
      * rewrite <- EA. exact Hfun.
      * intros y Hy Ey. apply in_app_or in Hy. destruct Hy as [Hy|[<-|[]]]; [apply Hd; assumption|congruence].
      * exists b'. split; [exact E|]. split; [exact L|]. rewrite EA. exact H.
Qed.

Lemma to_cols l : forall acc, (forall z, In z l -> 0 <= z) -> for_list l (fun z c => j <- zidx z ;; Ok (c ++ [j])) acc = Ok (acc ++ map Z.to_nat l).
Proof.
  induction l as [|z l IH]; intros acc H; cbn [for_list map]; [rewrite app_nil_r; reflexivity|].
  unfold zidx at 1. rewrite (proj2 (Z.ltb_ge _ _)) by (apply H; left; reflexivity). cbn [bind]. rewrite IH by (intros y Hy; apply H; right; exact Hy). rewrite <- app_assoc. reflexivity.
Qed.
Lemma slice_one {A} (l : list A) i x : nth_error l i = Some x -> slice l i (S i) = [x].
Proof.
  intros E. unfold slice. replace (S i - i)%nat with 1%nat by lia. destruct (cut_at l i x E) as (_ & E2 & _). rewrite E2. reflexivity.
Qed.
Lemma combine_nth_error {A B} (l : list A) (l' : list B) i x y : nth_error l i = Some x -> nth_error l' i = Some y -> nth_error (List.combine l l') i = Some (x, y).
Proof.
  revert l' i; induction l as [|a l IH]; intros [|b l'] [|i]; cbn [nth_error List.combine]; try discriminate; [intros E1 E2; injection E1 as ->; injection E2 as ->; reflexivity|]. apply IH.
Qed.
(** [col r] is the column of the entry of row [r]. *)
Lemma selection_ok (n m : nat) (ind : list (option Z)) (col : nat -> nat) : length ind = n ->
  (forall r, (r < n)%nat -> nth_error ind r = Some (Some (Z.of_nat (col r))) /\ (col r < m)%nat) ->
  exists R, selection (Z.of_nat n) (Z.of_nat m) ind = Ok R /\ wf_csr n m R /\ nth 0 (c_indptr R) O = O /\
    (forall r c, (r < n)%nat -> matrix R r c = if (col r =? c)%nat then 1%Qc else 0%Qc).
Proof.
  intros L H. unfold selection. destruct (all_init_ok 0 ind) as (l & E & El).
  { intros i Hi. rewrite L in Hi. exists (Z.of_nat (col i)). apply H. exact Hi. }
  rewrite E. cbn [bind]. assert (Ll : length l = n) by (rewrite <- L, El, map_length; reflexivity).
  assert (AT : forall r, (r < n)%nat -> nth_error l r = Some (Z.of_nat (col r))).
  { intros r Hr. pose proof (proj1 (H r Hr)) as Q. rewrite El, nth_error_map in Q. destruct (nth_error l r); cbn [option_map] in Q; congruence. }
  assert (IN : forall z, In z l -> exists r, (r < n)%nat /\ z = Z.of_nat (col r)).
  { intros z Hz. destruct (In_nth_error l z Hz) as (r & Er). assert (Hr : (r < n)%nat) by (rewrite <- Ll; apply nth_error_Some; congruence).
    exists r. split; [exact Hr|]. rewrite (AT r Hr) in Er. congruence. }
  rewrite to_cols by (intros z Hz; destruct (IN z Hz) as (r & _ & ->); lia). cbn [bind app]. rewrite !Nat2Z.id. eexists; split; [reflexivity|].
  split; [|split].
  - split; [reflexivity|]. unfold wf_rows. cbn [c_indptr c_indices c_data]. rewrite seq_length, map_length, repeat_length, Ll. split; [lia|]. split.
    + intros i Hi. rewrite !seq_nth by lia. lia.
    + split; [rewrite seq_nth by lia; lia|]. split; [reflexivity|]. intros j Hj. apply in_map_iff in Hj. destruct Hj as (z & <- & Hz).
      destruct (IN z Hz) as (r & Hr & ->). rewrite Nat2Z.id. apply H. exact Hr.
  - cbn [c_indptr]. rewrite seq_nth by lia. reflexivity.
  - intros r c Hr. unfold matrix, rowlist. cbn [c_indptr c_indices c_data]. rewrite !seq_nth by lia. cbn [Nat.add].
    rewrite (slice_one _ r (col r, 1%Qc)).
    + unfold ent. cbn [filter fst]. destruct (col r =? c)%nat; cbn [map snd suml]; [|reflexivity]. ring.
    + apply combine_nth_error.
      * rewrite nth_error_map, (AT r Hr). cbn [option_map]. rewrite Nat2Z.id. reflexivity.
      * rewrite nth_error_nth' with (d := 1%Qc) by (rewrite repeat_length; exact Hr). rewrite nth_repeat. reflexivity.
Qed.

(** The entries written by a loop over positions. *)
Section Restrict.
  Variables (D D' : grid) (nc dpe : nat) (n n' : nat).
  Hypothesis Hsur : forall r, (r < n')%nat -> exists i k, (i < nc)%nat /\ (k < dpe)%nat /\ D' i k = Z.of_nat r.
  Hypothesis Hfun : forall i k i' k', (i < nc)%nat -> (k < dpe)%nat -> (i' < nc)%nat -> (k' < dpe)%nat -> 0 <= D' i k -> D' i k = D' i' k' -> D i k = D i' k'.
  Hypothesis Hrng : forall i k, (i < nc)%nat -> (k < dpe)%nat -> 0 <= D' i k -> D' i k < Z.of_nat n' /\ 0 <= D i k < Z.of_nat n.
  Lemma restrict_ok ind0 : length ind0 = n' ->
    exists ind R, for_list (positions (seq 0 nc) (seq 0 dpe)) (fun x b => if 0 <=? gat D' x then wr b (Z.to_nat (gat D' x)) (gat D x) else Ok b) ind0 = Ok ind /\
      selection (Z.of_nat n') (Z.of_nat n) ind = Ok R /\ wf_csr n' n R /\ nth 0 (c_indptr R) O = O /\ takes nc dpe D D' n n' (matrix R) /\
      (forall i k c, (i < nc)%nat -> (k < dpe)%nat -> 0 <= D' i k -> matrix R (Z.to_nat (D' i k)) c = if (Z.to_nat (D i k) =? c)%nat then 1%Qc else 0%Qc).
  Proof using Hsur Hfun Hrng.
    intros L0. destruct (scatter (fun x => 0 <=? gat D' x) (fun x => Z.to_nat (gat D' x)) (gat D) (positions (seq 0 nc) (seq 0 dpe)) [] ind0) as (ind & E & Li & Hi).
    { intros [i k] Hx Ha. apply in_grid in Hx. destruct Hx as (H1 & H2). apply Z.leb_le in Ha. cbn [gat] in *. pose proof (Hrng i k H1 H2 Ha). lia. }
    { intros [i k] [i' k'] Hx Hy Ha Hb Ef. apply in_grid in Hx, Hy. apply Z.leb_le in Ha, Hb. cbn [gat] in *. apply Hfun; try tauto. lia. }
    { intros x []. }
    cbn [app] in Hi. exists ind.
    assert (AT : forall i k, (i < nc)%nat -> (k < dpe)%nat -> 0 <= D' i k -> nth_error ind (Z.to_nat (D' i k)) = Some (Some (D i k))).
    { intros i k H1 H2 H3. apply (Hi (i, k)); [apply in_grid; auto|]. apply Z.leb_le. exact H3. }
    set (col := fun r => match nth_error ind r with Some (Some z) => Z.to_nat z | _ => O end).
    assert (COL : forall i k, (i < nc)%nat -> (k < dpe)%nat -> 0 <= D' i k -> col (Z.to_nat (D' i k)) = Z.to_nat (D i k)).
    { intros i k H1 H2 H3. unfold col. rewrite (AT i k H1 H2 H3). reflexivity. }
    destruct (selection_ok n' n ind col) as (R & ES & WF & H0 & HM).
    { rewrite Li. exact L0. }
    { intros r Hr. destruct (Hsur r Hr) as (i & k & H1 & H2 & H3). pose proof (Hrng i k H1 H2 ltac:(lia)) as HR.
      pose proof (AT i k H1 H2 ltac:(lia)) as A. pose proof (COL i k H1 H2 ltac:(lia)) as C. rewrite H3, Nat2Z.id in A, C. rewrite C, A. split; [f_equal; f_equal; lia|lia]. }
    exists R. split; [exact E|]. split; [exact ES|]. split; [exact WF|]. split; [exact H0|]. split.
    - intros r c Hr Hc. rewrite (HM r c Hr). split.
      + intros (i & k & H1 & H2 & H3 & H4). pose proof (COL i k H1 H2 ltac:(lia)) as C. rewrite H3, Nat2Z.id, H4, Nat2Z.id in C. rewrite C, Nat.eqb_refl. reflexivity.
      + intros NO. destruct (Hsur r Hr) as (i & k & H1 & H2 & H3). pose proof (COL i k H1 H2 ltac:(lia)) as C. rewrite H3, Nat2Z.id in C.
        destruct (Nat.eqb_spec (col r) c) as [Ec|Nc]; [|reflexivity]. exfalso. apply NO. exists i, k. split; [exact H1|]. split; [exact H2|]. split; [exact H3|].
        pose proof (Hrng i k H1 H2 ltac:(lia)). lia.
    - intros i k c H1 H2 H3. pose proof (Hrng i k H1 H2 H3). rewrite HM by lia. rewrite (COL i k H1 H2 H3). reflexivity.
  Qed.
End Restrict.
