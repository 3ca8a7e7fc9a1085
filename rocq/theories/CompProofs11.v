(** Counterexamples. *)
From Verif Require Import Util Lin CSRModel CSRSpec DenseModel DenseSpec SmootherModel CompModel CompSpec.
Local Open Scope Qc_scope.
Set Default Proof Using "Type".

Definition one_by_one (c : Z) : expr := EDense (Dense 1 1 [qz c]).
Definition cells (l : list Z) : buf Qc := map (fun z => Some (qz z)) l.
(** run e on x (buffer 0) and y (buffer 1) *)
Definition apply_to (e : expr) (no_overwrite trans : bool) (m n : nat) (h : heap) : res heap := o <- build e ;; call o no_overwrite trans (View 0 0 m) (View 1 0 n) h.
Definition show_heap (r : res heap) : res (list (list (option Q))) := h <- r ;; Ok (map (map (option_map this)) h).
Lemma show_heap_eq r l : show_heap r = Ok (map (map (option_map this)) l) -> r = Ok l.
Proof.
  destruct r as [h|]; [|discriminate]. cbn. intros E. injection E as E. f_equal. revert l E. induction h as [|b h IH]; intros [|b' l] E; try discriminate; [reflexivity|]. cbn in E. injection E as E1 E2. f_equal; [|apply IH, E2].
  clear - E1. revert b' E1. induction b as [|c b IH]; intros [|c' b'] E; try discriminate; [reflexivity|]. cbn in E. injection E as E1 E2. f_equal; [|apply IH, E2].
  destruct c as [c|], c' as [c'|]; try discriminate; [|reflexivity]. cbn in E1. injection E1 as E1. f_equal. apply Qc_is_canon. rewrite E1. reflexivity.
Qed.

(** (2 M + 0 K)^T x is added to the old y *)
Definition step_ : expr := EStep (one_by_one 1) (one_by_one 1) (qz 0) (qz 2) 2.
Lemma step_ok : ok (fun _ => 1%nat) step_.
Proof. repeat split; cbn; auto. Qed.
Lemma step_run : apply_to step_ false true 1 1 [cells [1]; cells [5]; [None]]%Z = Ok [cells [1]; cells [7]; cells [1]]%Z.
Proof. apply show_heap_eq. vm_compute. reflexivity. Qed.
Lemma step_refuted : exists lens e o, ok lens e /\ build e = Ok o /\ (forall tr a, offers (one_by_one 1) tr a = true) /\ e = EStep (one_by_one 1) (one_by_one 1) (qz 0) (qz 2) 2 /\
  ~ performs lens (scratch e) (snd (dims e)) (fst (dims e)) (mt (meaning e)) false (call o false true).
Proof.
  destruct (build step_) as [o|] eqn:E; [|vm_compute in E; discriminate]. exists (fun _ => 1%nat), step_, o. split; [apply step_ok|]. split; [exact E|]. split; [intros [] []; reflexivity|]. split; [reflexivity|].
  intros P. destruct (P (View 0 0 1) (View 1 0 1) [qz 1] [] [cells [1]; cells [5]; [None]]%Z) as (h & Eh & C & _).
  - unfold arguments, inside. cbn. repeat split; try lia; try discriminate; try (intros [H|[]]; discriminate). intros id [<- |[]]. cbn. lia.
  - pose proof step_run as R. unfold apply_to in R. rewrite E in R. cbn [bind] in R. rewrite R in Eh. injection Eh as <-. apply (f_equal (map (option_map this))) in C. vm_compute in C. discriminate.
Qed.

(** the transposed product of a sum of 1 x 2 matrices leaves its scratch vector *)
Definition wide (a b : Z) : expr := EDense (Dense 1 2 [qz a; qz b]).
Definition wide_sum : expr := ESum [wide 1 2; wide 3 4] [qz 1; qz 1] 2.
Lemma wide_ok : ok (fun _ => 1%nat) wide_sum.
Proof. repeat split; cbn; auto; try discriminate. intros e [<- |[<- |[]]]; reflexivity. Qed.
Lemma wide_run : apply_to wide_sum false true 1 2 [cells [1]; cells [0; 0]; [None]]%Z = Err EOob.
Proof. vm_compute. reflexivity. Qed.
Lemma wide_refuted : exists lens e o, ok lens e /\ build e = Ok o /\ e = ESum [wide 1 2; wide 3 4] [qz 1; qz 1] 2 /\ (forall e', In e' [wide 1 2; wide 3 4] -> offers e' true false = true) /\
  exists x y h xs, arguments lens (scratch e) (snd (dims e)) (fst (dims e)) false x y xs [] h /\ call o false true x y h = Err EOob.
Proof.
  destruct (build wide_sum) as [o|] eqn:E; [|vm_compute in E; discriminate]. exists (fun _ => 1%nat), wide_sum, o. split; [apply wide_ok|]. split; [exact E|]. split; [reflexivity|]. split; [intros e [<- |[<- |[]]]; reflexivity|].
  exists (View 0 0 1), (View 1 0 2), [cells [1]; cells [0; 0]; [None]]%Z, [qz 1]. split.
  - unfold arguments, inside. cbn. repeat split; try lia; try discriminate; try (intros [H|[]]; discriminate). intros id [<- |[]]. cbn. lia.
  - pose proof wide_run as R. unfold apply_to in R. rewrite E in R. exact R.
Qed.

(** A.T.T, A + block operator, adding a sum to a vector *)
Lemma transposed_twice e o : build (T (T e)) = Ok o -> forall a x y h, l_mv o false a x y h = Err ENotImpl.
Proof. unfold T. cbn [build]. destruct (build e) as [q|]; [|discriminate]. intros E. injection E as <-. reflexivity. Qed.
Lemma block_add rows t o : build (EBlock rows t) = Ok o -> forall tr x y h, call o true tr x y h = Err ENotImpl \/ call o true tr x y h = Err EAssert.
Proof.
  cbn [build]. destruct (sequence _) as [rs|]; [|discriminate]. cbn [bind]. unfold new_block. destruct rs as [|r0 rs]; [discriminate|]. destruct (for_list _ _ _) as [?|]; [|discriminate]. cbn [bind].
  match goal with |- bind ?b _ = _ -> _ => destruct b as [hs|]; [|discriminate] end. cbn [bind]. intros E. injection E as <-. intros tr x y h. unfold call, plain. cbn [l_rows l_cols l_mv].
  destruct tr; repeat (match goal with |- context [guard ?b _] => destruct b end; cbn [guard bind]; auto).
Qed.
Lemma sum_add ops cs z o : build (ESum ops cs z) = Ok o -> forall x y h, call o true false x y h = Err EType \/ call o true false x y h = Err EAssert.
Proof.
  cbn [build]. destruct (sequence _) as [rs|]; [|discriminate]. cbn [bind]. unfold new_sum. destruct rs as [|r0 rs]; [discriminate|]. destruct (_ =? _)%nat; [|discriminate]. cbn [guard bind]. destruct (for_list _ _ _) as [?|]; [|discriminate]. cbn [bind].
  intros E. injection E as <-. intros x y h. unfold call, plain. cbn [l_rows l_cols l_mv].
  repeat (match goal with |- context [guard ?b _] => destruct b end; cbn [guard bind]; auto).
Qed.
Lemma identity_diagonal : exists o, build (EIdentity 1 (qz 2)) = Ok o /\ l_diag o = Ok [qz 1] /\ meaning (EIdentity 1 (qz 2)) 0%nat 0%nat = qz 2.
Proof. eexists. split; [reflexivity|]. split; reflexivity. Qed.
(** adding a null operator of another shape *)
Lemma null_shape e n m z : add e (ENull n m) z = e. Proof. reflexivity. Qed.
