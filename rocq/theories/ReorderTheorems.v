(** Reordering: C32. *)
From Verif Require Import Util ReorderModel ReorderSpec ReorderProofs ReorderProofs2.
From Coq Require Import Permutation.

(** C32. For every graph with at least one node and every buffer with room for the result
    the ordering terminates without leaving its buffers or reading uninitialised memory, and writes
    a Cuthill-McKee ordering: a permutation of all nodes, breadth first from nodes of
    lowest valence, nodes with the same parent by increasing valence; or its reverse. *)
Theorem C32_cuthill_mckee : forall argsort n ind ptr order reverse,
  is_argsort argsort -> graph_ok n ind ptr -> 0 < n -> n <= length order ->
  exists l r, cuthill_mckee argsort ind ptr n order reverse = Ok (map Some (if (reverse : bool) then rev l else l) ++ r) /\
    n + length r = length order /\ cuthill_mckee_order n (adjacent ind ptr) (valence ind ptr) l.
Proof. exact cuthill_mckee_ok. Qed.
Print Assumptions C32_cuthill_mckee.

(** C32 fails without nodes: the maximum of no degrees is asked for. *)
Theorem C32_no_nodes_refuted : forall argsort ptr order reverse, cuthill_mckee argsort [] ptr 0 order reverse = Err EValue.
Proof. reflexivity. Qed.
Print Assumptions C32_no_nodes_refuted.

(** The star with centre 2 and the nodes 0, 1, 5, of which 1 has a self loop, and the edge 3-4. *)
Definition ex_ptr := [0; 1; 3; 6; 7; 8; 9].
Definition ex_ind := [2;  1; 2;  5; 1; 0;  4;  3;  2].
Example C32_example : is_argsort ins_argsort /\ graph_ok 6 ex_ind ex_ptr /\
  cuthill_mckee ins_argsort ex_ind ex_ptr 6 (alloc 6) false = Ok (map Some [0; 2; 5; 1; 3; 4]) /\
  cuthill_mckee ins_argsort ex_ind ex_ptr 6 (alloc 7) true = Ok (map Some [4; 3; 1; 5; 2; 0] ++ [None]).
Proof.
  split; [exact ins_argsort_ok|]. split; [|split; vm_compute; reflexivity].
  split; [reflexivity|]. split; [cbn; lia|]. split.
  - intros i Hi. do 6 (destruct i as [|i]; [cbn; lia|]). lia.
  - intros k Hk. do 9 (destruct k as [|k]; [cbn; lia|]). cbn in Hk. lia.
Qed.
