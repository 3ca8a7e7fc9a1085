(** Property theorems C07 (sparsity pattern builder). Proofs are in SparsityProofs*.v. *)
From Coq Require Import Sorted.
From Verif Require Import Util SparsityModel SparsitySpec SparsityProofs2.

(** C07. For any number of rows, any initial row length that fits the 16-bit
    field and is not zero, and any sequence of add calls on existing rows that
    puts at most 65535 different columns in a row, the calls complete and
    freeze returns the compressed row form of exactly the pairs added. *)
Theorem C07_sparsity_pattern :
  forall (nd initial_length : nat) (adds : list (nat * Z)),
    0 < initial_length < 2 ^ 16 ->
    (forall p, In p adds -> fst p < nd) ->
    (forall I, row_size I adds < 2 ^ 16) ->
    exists indptr indices,
      sp_build (2 ^ 16) nd initial_length adds = Ok (map Some indptr, map Some indices) /\
      is_csr_of nd adds indptr indices.
Proof. exact (fun nd inc => sp_build_ok (2 ^ 16) inc nd). Qed.
Print Assumptions C07_sparsity_pattern.

(** C07, without the limit on the row size: false. A row with 65536 columns
    (default initial length) no longer finds its entries, and adding one of them
    again corrupts the result. *)
Theorem C07_beyond_16_bits_refuted :
  exists adds : list (nat * Z), (forall p, In p adds -> fst p < 1 /\ (0 <= snd p < 65536)%Z) /\
  ~ exists indptr indices, sp_build (2 ^ 16) 1 9 adds = Ok (map Some indptr, map Some indices) /\
      is_csr_of 1 adds indptr indices.
Proof. exact beyond_16_bits. Qed.
Print Assumptions C07_beyond_16_bits_refuted.

(** C07, with initial length 0: false. Rows never grow, and the first add on any
    row writes outside the (empty) buffer. *)
Theorem C07_zero_initial_length_refuted :
  forall (I nd : nat) (J : Z), sp_build (2 ^ 16) nd 0 [(I, J)] = Err EOob.
Proof. exact (fun I nd J => zero_initial_length (2 ^ 16) I J nd). Qed.
Print Assumptions C07_zero_initial_length_refuted.

(** A pattern with duplicates, unsorted insertion and an empty row, with initial
    length 2 so that a row is reallocated (the 16-bit bound is replaced by 64 so
    that the example can be evaluated). *)
Definition ex_adds : list (nat * Z) := [(0, 5%Z); (2, 1%Z); (0, 3%Z); (0, 5%Z); (2, 0%Z); (0, 4%Z)].
Example ex_build : sp_build 64 3 2 ex_adds
  = Ok (map Some [0; 3; 3; 5], map Some [3; 4; 5; 0; 1]%Z).
Proof. reflexivity. Qed.
Example ex_hyps : (forall p, In p ex_adds -> fst p < 3) /\ forall I, row_size I ex_adds < 2 ^ 16.
Proof.
  split.
  - intros p Hp. repeat (destruct Hp as [<-|Hp]; [cbn; lia|]). destruct Hp.
  - intros I. apply Nat.le_lt_trans with 3.
    + destruct I as [|[|[|I]]]; vm_compute; repeat constructor.
    + apply Nat.lt_le_trans with (2 ^ 2); [cbn; lia|]. apply Nat.pow_le_mono_r; lia.
Qed.
(** The bisection is used for rows with 20 entries or more. *)
Example ex_bisect : sp_build 64 1 9 (map (fun k => (0, ((Z.of_nat k * 7) mod 31)%Z)) (seq 0 40))
  = Ok (map Some [0; 31], map Some (map Z.of_nat (seq 0 31))).
Proof. vm_compute. reflexivity. Qed.
