(** Proofs about the products R*A*R.T: restrictMatrix, and what goes wrong. *)
From Coq Require Import Sorted.
From Verif Require Import Util Lin SparsitySpec CSRModel CSRSpec CSRProofs SSSProofs OpsProofs OpsProofs4 AssemblyProofs2
  GalerkinModel GalerkinSpec GalerkinProofs GalerkinProofs2 GalerkinProofs3 GalerkinProofs4.
Set Default Proof Using "Type".
Local Open Scope nat_scope.

Lemma op_nrows n A : op_ok n A -> o_nrows A = n.
Proof. unfold o_nrows. destruct A as [A|A]; intros [H _]; cbn [o_indptr]; [destruct H as (_ & H & _)|destruct H as ((H & _) & _)]; lia. Qed.
Lemma csr_rows n m A : wf_csr n m A -> c_nrows A = n /\ c_ncols A = m.
Proof. intros (H1 & H2 & _). unfold c_nrows. split; [lia|exact H1]. Qed.
Lemma same_holds n A B i j : op_ok n A -> same_places A B -> i < n -> j < n -> (holds B i j <-> holds A i j).
Proof.
  intros O (P1 & P2 & P3 & P4) Hi Hj. destruct A as [A|A], B as [B|B]; try contradiction; cbn [holds o_indptr o_indices o_data] in *.
  - apply (same_pattern_stored n n A B); [apply O|repeat split; assumption|exact Hi].
  - assert (S : same_sss A B) by (repeat split; assumption). rewrite (same_sss_stored n A B i j (proj1 O) S Hi), (same_sss_stored n A B j i (proj1 O) S Hj). reflexivity.
Qed.
Lemma same_places_trans A B C : same_places A B -> same_places B C -> same_places A C.
Proof.
  intros (P1 & P2 & P3 & P4) (Q1 & Q2 & Q3 & Q4). split; [congruence|]. split; [congruence|]. split; [congruence|].
  destruct A, B, C; try contradiction; try congruence; auto.
Qed.
Lemma added_trans n M1 M2 A B C : op_ok n A -> added n M1 A B -> added n M2 B C -> added n (fun i j => M1 i j + M2 i j)%Qc A C.
Proof.
  intros O (B1 & B2 & B3) (C1 & C2 & C3). split; [exact C1|]. split; [apply (same_places_trans A B C); assumption|].
  intros i j Hi Hj. pose proof (same_holds n A B i j O B2 Hi Hj) as HH. destruct (B3 i j Hi Hj) as [K1 K2]. destruct (C3 i j Hi Hj) as [L1 L2]. split; intros H.
  - rewrite (L1 (proj2 HH H)), (K1 H). ring.
  - rewrite L2 by (intros K; apply H, HH, K). apply K2, H.
Qed.

Lemma op_ok_wf n A : op_ok n A -> op_wf n A.
Proof. destruct A; intros [H _]; exact H. Qed.

Lemma restrictMatrix_restriction nc nf R A Ac : nc <> nf -> wf_csr nc nf R -> sorted_csr nc R -> op_ok nf A -> op_ok nc Ac ->
  (forall A' Ac', A = SCsr A' -> Ac = SSym Ac' -> False) ->
  exists B, restrictMatrix R A Ac = Ok B /\ added nc (galerkin nf (matrix R) (op_matrix A)) Ac B.
Proof.
  intros Hne WR SR OA OC Hm. destruct (multiply_thm nc nf R A Ac WR SR OA OC Hm) as (B & E & H). exists B. split; [|exact H].
  unfold restrictMatrix. destruct (csr_rows nc nf R WR) as [-> ->]. rewrite (op_nrows nc Ac OC), Nat.eqb_refl, E. cbn [bind].
  rewrite (op_nrows nc B (proj1 H)). destruct (Nat.eqb_spec nf nc); [congruence|]. reflexivity.
Qed.
Lemma restrictMatrix_prolongation nc nf P A Ac : nc <> nf -> wf_csr nf nc P -> op_wf nf A -> op_ok nc Ac ->
  (forall A' Ac', A = SCsr A' -> Ac = SSym Ac' -> symmetric nf (matrix A')) ->
  exists B, restrictMatrix P A Ac = Ok B /\ added nc (galerkin nf (fun i k => matrix P k i) (op_matrix A)) Ac B.
Proof.
  intros Hne WP OA OC Hm. destruct (multiply2_thm nc nf P WP A Ac OA OC Hm) as (B & E & H). exists B. split; [|exact H].
  unfold restrictMatrix. destruct (csr_rows nf nc P WP) as [-> ->]. rewrite (op_nrows nc Ac OC). destruct (Nat.eqb_spec nf nc); [congruence|]. cbn [bind].
  rewrite (op_nrows nc Ac OC), Nat.eqb_refl. exact E.
Qed.
Lemma restrictMatrix_square n R A Ac : wf_csr n n R -> sorted_csr n R -> op_ok n A -> op_ok n Ac ->
  (forall A' Ac', A = SCsr A' -> Ac = SSym Ac' -> False) ->
  exists B, restrictMatrix R A Ac = Ok B /\
    added n (fun i j => galerkin n (matrix R) (op_matrix A) i j + galerkin n (fun i k => matrix R k i) (op_matrix A) i j)%Qc Ac B.
Proof.
  intros WR SR OA OC Hm. destruct (multiply_thm n n R A Ac WR SR OA OC Hm) as (B & E & H).
  assert (Hm2 : forall A' Ac', A = SCsr A' -> B = SSym Ac' -> symmetric n (matrix A')).
  { intros A' Ac' -> ->. destruct H as (_ & (_ & _ & _ & K) & _). destruct Ac as [Ac|Ac]; [contradiction|]. destruct (Hm A' Ac); reflexivity. }
  destruct (multiply2_thm n n R WR A B (op_ok_wf n A OA) (proj1 H) Hm2) as (C & E2 & H2). exists C. split.
  - unfold restrictMatrix. destruct (csr_rows n n R WR) as [-> ->]. rewrite (op_nrows n Ac OC), Nat.eqb_refl, E. cbn [bind].
    rewrite (op_nrows n B (proj1 H)), Nat.eqb_refl. exact E2.
  - apply (added_trans n _ _ Ac B C OC H H2).
Qed.

(** * 1 x 1 matrices *)
Definition one_csr (v : Z) : csr := CSR 1 [0; 1] [0] [qz v].
Definition one_sss (v : Z) : sss := SSS [0; 0] [] [] [qz v].
Lemma one_csr_wf v : wf_csr 1 1 (one_csr v) /\ sorted_csr 1 (one_csr v).
Proof.
  split.
  - split; [reflexivity|]. split; [reflexivity|]. split; [intros [|i] H; cbn; lia|]. split; [cbn; lia|]. split; [reflexivity|]. intros j [<-|[]]. lia.
  - intros [|i] H; [|lia]. cbn. repeat constructor.
Qed.
Lemma one_csr_ok v : op_ok 1 (SCsr (one_csr v)).
Proof. apply one_csr_wf. Qed.
Lemma one_sss_ok v : op_ok 1 (SSym (one_sss v)).
Proof.
  split.
  - split; [|split; [reflexivity|]].
    + split; [reflexivity|]. split; [intros [|i] H; cbn; lia|]. split; [cbn; lia|]. split; [reflexivity|]. intros j [].
    + intros [|i] p H; [intros []|lia].
  - intros [|i] H; [|lia]. cbn. constructor.
Qed.
Lemma square_refuted : ~ forall n R A Ac, wf_csr n n R -> sorted_csr n R -> op_ok n A -> op_ok n Ac ->
  (forall A' Ac', A = SCsr A' -> Ac = SSym Ac' -> False) ->
  exists B, restrictMatrix R A Ac = Ok B /\ added n (galerkin n (matrix R) (op_matrix A)) Ac B.
Proof.
  intros H. destruct (H 1 (one_csr 1) (SCsr (one_csr 1)) (SCsr (one_csr 0)) (proj1 (one_csr_wf 1)) (proj2 (one_csr_wf 1)) (one_csr_ok 1) (one_csr_ok 0)) as (B & E & HB);
    [intros A' Ac' _; discriminate|].
  destruct HB as (_ & _ & HB). destruct (HB 0 0 ltac:(lia) ltac:(lia)) as [K _].
  assert (S : holds (SCsr (one_csr 0)) 0 0) by (cbn; auto). specialize (K S). apply (f_equal this) in K.
  assert (EB : match restrictMatrix (one_csr 1) (SCsr (one_csr 1)) (SCsr (one_csr 0)) with Ok B => this (op_matrix B 0 0) = 2%Q | Err _ => True end) by (vm_compute; reflexivity).
  rewrite E in EB. rewrite EB in K. vm_compute in K. discriminate.
Qed.
Lemma mixed_refuted : ~ forall nc nf R A Ac, nc < nf -> wf_csr nc nf R -> sorted_csr nc R -> op_ok nf (SCsr A) -> symmetric nf (matrix A) -> op_ok nc (SSym Ac) ->
  exists B, multiply R (SCsr A) (SSym Ac) = Ok B /\ added nc (galerkin nf (matrix R) (matrix A)) (SSym Ac) B.
Proof.
  intros H. set (R := CSR 2 [0; 1] [0] [qz 1]). set (A := CSR 2 [0; 1; 2] [0; 1] [qz 1; qz 1]).
  assert (WR : wf_csr 1 2 R /\ sorted_csr 1 R).
  { split.
    - split; [reflexivity|]. split; [reflexivity|]. split; [intros [|i] Hi; cbn; lia|]. split; [cbn; lia|]. split; [reflexivity|]. intros j [<-|[]]. lia.
    - intros [|i] Hi; [|lia]. cbn. repeat constructor. }
  assert (WA : op_ok 2 (SCsr A)).
  { split.
    - split; [reflexivity|]. split; [reflexivity|]. split; [intros [|[|i]] Hi; cbn; lia|]. split; [cbn; lia|]. split; [reflexivity|]. intros j [<-|[<-|[]]]; lia.
    - intros [|[|i]] Hi; [| |lia]; cbn; repeat constructor. }
  assert (SA : symmetric 2 (matrix A)) by (intros [|[|i]] [|[|j]] Hi Hj; try lia; reflexivity).
  destruct (H 1 2 R A (one_sss 0) ltac:(lia) (proj1 WR) (proj2 WR) WA SA (one_sss_ok 0)) as (B & E & HB).
  destruct HB as (_ & _ & HB). destruct (HB 0 0 ltac:(lia) ltac:(lia)) as [K _].
  assert (S : holds (SSym (one_sss 0)) 0 0) by (left; reflexivity). specialize (K S). apply (f_equal this) in K.
  assert (EB : match multiply R (SCsr A) (SSym (one_sss 0)) with Ok B => this (op_matrix B 0 0) = 0%Q | Err _ => True end) by (vm_compute; reflexivity).
  rewrite E in EB. rewrite EB in K. vm_compute in K. discriminate.
Qed.
Lemma restr_mixed_refuted : ~ forall nc nf R A Ac, restr_ok nc nf R -> op_ok nf (SSym A) -> op_ok nc (SCsr Ac) ->
  exists B, multiply_restr R (SSym A) (SCsr Ac) = Ok B /\ added nc (galerkin nf (restr_matrix R) (sym_matrix A)) (SCsr Ac) B.
Proof.
  intros H. set (R := Restr 1 [0; 0] []).
  assert (RO : restr_ok 1 1 R).
  { split; [lia|]. split.
    - split; [reflexivity|]. split; [reflexivity|]. split; [intros [|i] Hi; cbn; lia|]. split; [cbn; lia|]. split; [reflexivity|]. intros j [].
    - intros [|i] Hi; [|lia]. cbn. constructor. }
  destruct (H 1 1 R (one_sss 1) (one_csr 0) RO (one_sss_ok 1) (one_csr_ok 0)) as (B & E & HB).
  destruct HB as (_ & _ & HB). destruct (HB 0 0 ltac:(lia) ltac:(lia)) as [K _].
  assert (S : holds (SCsr (one_csr 0)) 0 0) by (cbn; auto). specialize (K S). apply (f_equal this) in K.
  assert (EB : match multiply_restr R (SSym (one_sss 1)) (SCsr (one_csr 0)) with Ok B => this (op_matrix B 0 0) = 0%Q | Err _ => True end) by (vm_compute; reflexivity).
  rewrite E in EB. rewrite EB in K. vm_compute in K. discriminate.
Qed.

(** * Tactics for concrete matrices *)
Ltac small_lt := repeat match goal with
  | H : ?i < 0 |- _ => lia
  | H : S ?i < S ?n |- _ => apply (proj2 (Nat.succ_lt_mono _ _)) in H
  | H : ?i < _ |- _ => is_var i; destruct i
  end.
Ltac rows_ok := split; [reflexivity|split; [intros i Hi; small_lt; cbn -[half qz]; lia|split; [cbn -[half qz]; lia|split; [reflexivity|
  intros j Hj; cbn -[half qz] in Hj; repeat (destruct Hj as [Hj|Hj]; [lia|]); destruct Hj]]]].
Ltac sorted_ok := intros i Hi; small_lt; cbn -[half qz lt]; repeat constructor.

Ltac lower_ok := intros i p Hi Hp; small_lt; cbn -[half qz] in Hp; repeat (destruct Hp as [Hp|Hp]; [subst p; cbn; lia|]); destruct Hp.
