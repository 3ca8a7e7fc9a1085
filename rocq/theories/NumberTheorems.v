(** Property theorems C44 (numbers of the degrees of freedom of the whole).  Proofs are in NumberProofs*.v. *)
From Coq Require Import Sorting.Permutation.
From Verif Require Import Util Lin OverlapModel OverlapSpec OverlapProofs5 DistModel DistSpec DistProofs3 NumberSpec NumberProofs NumberProofs2 NumberProofs3 DistTheorems.
Local Open Scope nat_scope.

(** C44, [unique]: if the overlaps of each rank are in ascending order, every rank ends with the
    values of the highest rank that has a degree of freedom; [always] says that nothing fails or
    waits for ever, in whatever order ranks and messages proceed. *)
Theorem C44_unique :
  forall P N size mgr glob K m k, consistent P N size mgr glob -> ascending P mgr -> (forall p, p < P -> shaped K (size p) (m p)) -> k < K ->
  always P mgr [Round nothing (Uni k)] m
    (fun p r => reg r k = map (fun I => vat (reg (m (owner P glob I)) k) (index_of I (glob (owner P glob I)))) (glob p)).
Proof. intros P N size mgr glob K m k Hc Ha. exact (unique_ok Hc Ha K m k). Qed.
Print Assumptions C44_unique.

(** C44, [countDoFs] is the number of degrees of freedom of the whole, for overlaps in any order. *)
Theorem C44_count :
  forall P N size mgr glob m, consistent P N size mgr glob -> (forall p, p < P -> 1 <= length (m p)) ->
  always P mgr (countDoFs size mgr) m (fun p r => reg r 0 = [qn N]).
Proof. intros P N size mgr glob m Hc. exact (count_dofs_ok Hc m). Qed.
Print Assumptions C44_count.

(** C44, [getGlobalIndices] is a numbering: [global_order] contains each degree of freedom of the
    whole once, and every rank ends with the positions of its own in that order.  So two ranks
    have the same number for a degree of freedom that they share, no number is used twice, and
    all of 0, ..., N - 1 are used. *)
Theorem C44_global_indices :
  forall P N size mgr glob m, consistent P N size mgr glob -> ascending P mgr -> (forall p, p < P -> shaped 1 (size p) (m p) /\ 2 <= length (m p)) ->
  Permutation (global_order P glob) (seq 0 N) /\
  always P mgr (getGlobalIndices size) m (fun p r => reg r 0 = map (fun I => qn (index_of I (global_order P glob))) (glob p)).
Proof.
  intros P N size mgr glob m Hc Ha Hm. split.
  - exact (global_order_ok Hc).
  - exact (global_indices_ok Hc Ha m Hm).
Qed.
Print Assumptions C44_global_indices.

(** C44 is false for overlaps in other orders.  The order is ascending when sharedMeshManager.getDoFs
    has one manager (meshOverlaps.pyx:855-914, [sorted]); with a splitSharedMeshManager
    it is that of several managers one after the other, and after HDF5read (algebraicOverlaps.pyx:1345-1362)
    it is that of the names of groups.  Rank 0 of three shares a degree of freedom with ranks 2 and 1,
    in this order, and keeps the number that comes last, which is that of rank 1. *)
Theorem C44_global_indices_refuted :
  exists P N size mgr glob m n w, consistent P N size mgr glob /\ (forall p, p < P -> shaped 1 (size p) (m p) /\ 2 <= length (m p)) /\
  runs P mgr true n (start mgr (getGlobalIndices size) m) w /\ finished P w /\
  exists p q i j, p < P /\ q < P /\ i < size p /\ j < size q /\ at_ glob p i = at_ glob q j /\
    vat (reg (r_mem (w_rank w p)) 0) i <> vat (reg (r_mem (w_rank w q)) 0) j.
Proof. exact numbers_differ. Qed.
Print Assumptions C44_global_indices_refuted.

(** Three ranks of which each has two of three degrees of freedom: rank 0 owns the first, rank 1 none *)
Example C44_example_hyps :
  consistent 3 3 (fun _ => 2) exMgr exGlob /\ ascending 3 exMgr /\ (forall p, p < 3 -> shaped 1 2 (exStart p) /\ 2 <= length (exStart p)).
Proof.
  split; [apply C43_example_hyps|]. split.
  - intros p Hp. destruct p as [|[|p]]; repeat constructor.
  - intros p Hp. split; [split|]; [cbn; lia| |cbn; lia]. intros k Hk. assert (k = 0) by lia. subst k. destruct p as [|[|p]]; reflexivity.
Qed.
Example C44_example_numbers :
  global_order 3 exGlob = [0; 2; 1] /\
  vectors 0 (run (getGlobalIndices (fun _ => 2)) exOrder) = Some [[0; 2]; [2; 1]; [1; 2]]%Q /\
  vectors 0 (run (getGlobalIndices (fun _ => 2)) (rev exOrder)) = Some [[0; 2]; [2; 1]; [1; 2]]%Q /\
  vectors 0 (run (countDoFs (fun _ => 2) exMgr) exOrder) = Some [[3]; [3]; [3]]%Q /\
  vectors 4 (run [Round nothing (Uni 4)] exOrder) = Some [[6; 4]; [4; 5]; [5; 4]]%Q.
Proof. repeat split; vm_compute; reflexivity. Qed.
