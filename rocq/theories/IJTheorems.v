(** Theorems about the operator that collects single entries, with examples. *)
From Verif Require Import Util Lin CSRModel CSRSpec IJModel IJSpec IJProofs.
Local Open Scope nat_scope.

(** C48. After any sequence of calls of setEntry and addToEntry for places of an
    n x m matrix, getEntry returns what the calls amount to. *)
Theorem C48_getEntry : forall n m, int32 n -> int32 m -> forall cs i j, within n m cs -> i < n -> j < m ->
  ij_getEntry (run (ij_new n m) cs) i j = collected cs i j.
Proof. exact getEntry_thm. Qed.
Print Assumptions C48_getEntry.

(** C48, getData. Each place that was touched is listed once, with its entry. *)
Theorem C48_getData : forall n m, int32 n -> int32 m -> forall cs, within n m cs ->
  exists Is Js data, ij_getData (run (ij_new n m) cs) = Ok (Is, Js, data) /\
    length Js = length Is /\ length data = length Is /\
    NoDup (combine Is Js) /\ (forall p, In p (combine Is Js) <-> exists c, In c cs /\ place c = p) /\
    forall k, k < length Is -> nth k data 0%Qc = collected cs (nth k Is 0) (nth k Js 0).
Proof. exact getData_thm. Qed.
Print Assumptions C48_getData.

(** C48, conversion. to_csr_linear_operator writes all of its arrays and nothing
    else, and returns a well formed CSR matrix with the entries collected, which
    stores the places that were touched and each of them once. *)
Theorem C48_to_csr : forall n m, int32 n -> int32 m -> forall cs, within n m cs ->
  exists A, ij_to_csr (run (ij_new n m) cs) = Ok A /\
    wf_csr n m A /\ nodup_csr n A /\ (forall i j, i < n -> j < m -> matrix A i j = collected cs i j) /\
    (forall i j, i < n -> In j (map fst (rowlist (c_indptr A) (c_indices A) (c_data A) i)) <-> exists c, In c cs /\ place c = (i, j)).
Proof. exact to_csr_thm. Qed.
Print Assumptions C48_to_csr.

(** Seven calls for a 3 x 4 matrix whose middle row stays empty. *)
Definition calls_ex : list call :=
  [AddToEntry 2 1 (qz 5); SetEntry 0 3 (qz 7); AddToEntry 0 0 (qz 2); AddToEntry 2 1 (qz (-1)); SetEntry 0 3 (qz 1);
   AddToEntry 0 3 (qz 4); SetEntry 2 0 (qz 9)].
Example calls_ex_ok : within 3 4 calls_ex /\ int32 3 /\ int32 4.
Proof.
  split; [|unfold int32; split; lia]. intros c Hc. cbn in Hc.
  repeat (destruct Hc as [<-|Hc]; [cbn; lia|]). destruct Hc.
Qed.
Example calls_ex_csr :
  (match ij_to_csr (run (ij_new 3 4) calls_ex) with
   | Ok A => Some (c_ncols A, c_indptr A, c_indices A, map this (c_data A)) | Err _ => None end)
  = Some (4, [0; 2; 2; 4], [0; 3; 1; 0], [2#1; 5#1; 4#1; 9#1]%Q).
Proof. vm_compute. reflexivity. Qed.
Example calls_ex_data :
  (match ij_getData (run (ij_new 3 4) calls_ex) with
   | Ok (Is, Js, v) => Some (Is, Js, map this v) | Err _ => None end)
  = Some ([0; 2; 0; 2], [0; 1; 3; 0], [2#1; 4#1; 5#1; 9#1]%Q).
Proof. vm_compute. reflexivity. Qed.
Example calls_ex_entry : this (ij_getEntry (run (ij_new 3 4) calls_ex) 0 3) = (5#1)%Q.
Proof. vm_compute. reflexivity. Qed.
