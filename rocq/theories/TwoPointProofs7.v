(** When a matrix counts as symmetric; functions with one fixed point. *)
From Verif Require Import LinR InteractionModel TwoPointModel TwoPointSpec TwoPointProofs.
Open Scope R_scope.
Set Default Proof Using "Type".

Definition tol12 : R := 1 / 10 ^ 12.
Lemma sym_row m i : square m -> (i < length m)%nat -> forall s, exists s',
  for_range i (length m) (fun j s => a <- rentry m i j ;; b <- rentry m j i ;; Ok (if rlt tol12 (Rabs (a - b)) then false else s)) s = Ok s' /\
  (s' = true <-> s = true /\ forall j, (i <= j < length m)%nat -> Rabs (table m i j - table m j i) <= tol12).
Proof.
  intros HS Hi s.
  destruct (for_range_inv (fun j s' => s' = true <-> s = true /\ forall k, (i <= k < j)%nat -> Rabs (table m i k - table m k i) <= tol12)
    (fun j s => a <- rentry m i j ;; b <- rentry m j i ;; Ok (if rlt tol12 (Rabs (a - b)) then false else s)) i (length m) s) as (s' & E & H).
  - lia.
  - split; [intros H; split; [exact H|intros; lia]|tauto].
  - intros j b Hj IH. rewrite !rentry_table by (auto; lia). cbn [bind]. eexists. split; [reflexivity|].
    destruct (rlt_spec tol12 (Rabs (table m i j - table m j i))) as [G|G].
    + split; [discriminate|]. intros (_ & K). specialize (K j ltac:(lia)). lra.
    + rewrite IH. split; intros (H1 & H2); (split; [exact H1|]); intros k Hk; [|apply H2; lia].
      destruct (Nat.eq_dec k j) as [->|]; [lra|apply H2; lia].
  - exists s'. split; [exact E|exact H].
Qed.
Lemma matrix_symmetric_ok m : square m -> exists s, matrix_symmetric m = Ok s /\
  (s = true <-> forall i j, (i < length m)%nat -> (j < length m)%nat -> Rabs (table m i j - table m j i) <= tol12).
Proof.
  intros HS. unfold matrix_symmetric. fold tol12.
  destruct (for_range_inv (fun i (s : bool) => s = true <-> forall k, (k < i)%nat -> forall j, (k <= j < length m)%nat -> Rabs (table m k j - table m j k) <= tol12)
    (fun i s => for_range i (length m) (fun j s => a <- rentry m i j ;; b <- rentry m j i ;; Ok (if rlt tol12 (Rabs (a - b)) then false else s)) s) 0%nat (length m) true) as (s & E & H).
  - lia.
  - split; [intros; lia|auto].
  - intros i b Hi IH. destruct (sym_row m i HS ltac:(lia) b) as (s' & -> & H). exists s'. split; [reflexivity|]. rewrite H, IH. split.
    + intros (H1 & H2) k Hk j Hj. destruct (Nat.eq_dec k i) as [->|]; [auto|apply H1; lia].
    + intros H1. split; [intros k Hk; apply H1; lia|apply H1; lia].
  - exists s. split; [exact E|]. rewrite H. split; intros K i.
    + intros j Hi Hj. destruct (Nat.le_gt_cases i j); [apply K; lia|]. rewrite Rabs_minus_sym. apply K; lia.
    + intros Hi j Hj. apply K; lia.
Qed.
Lemma tp_matrix_flag m : square m -> exists f, build (XMatrix m) = Ok f /\
  (tp_sym f = true <-> forall i j, (i < length m)%nat -> (j < length m)%nat -> Rabs (table m i j - table m j i) <= 1 / 10 ^ 12).
Proof.
  intros HS. cbn [build]. unfold matrixTwoPoint.
  assert (EF : forallb (fun row => (length row =? length m)%nat) m = true) by (apply forallb_forall; intros r Hr; apply Nat.eqb_eq; auto).
  rewrite EF. cbn [guard bind]. destruct (matrix_symmetric_ok m HS) as (s & -> & H). cbn [bind]. eexists. split; [reflexivity|]. exact H.
Qed.
Lemma fixed_values f p : tp_size f = 1%nat -> forall x, length x = length p -> methods_agree (length p) f ->
  fixedTwoPoint f p FIXED_X x = tp_call f p x /\ fixedTwoPoint f p FIXED_Y x = tp_call f x p /\ fixedTwoPoint f p DIAGONAL x = tp_call f x x.
Proof. intros E x L M. unfold fixedTwoPoint. rewrite E. cbn [Nat.eqb guard bind]. rewrite L, !M by auto. auto. Qed.
