(** Theorems about hierarchical matrices, with examples. *)
From Verif Require Import Util Lin CSRModel CSRSpec DenseModel DenseSpec IJModel IJSpec H2Model H2Spec H2Proofs4 H2Proofs5 H2Proofs8 H2Proofs9.
Local Open Scope nat_scope.

(** C47. matvec gives the product with the near field plus all far field blocks,
    matvec_no_overwrite adds it, whatever the coefficient arrays of the nodes
    hold before; afterwards they may be used again. *)
Theorem C47_matvec : forall N M x w, wf_h2 N M -> basis M = None -> no_taller (tree M) -> length x = N -> ready M w ->
  (forall y, length y = N -> exists w', h2_matvec M x y w = Ok (map Some (tab N (mv N (h2mat M) (vat x))), w') /\ ready M w') /\
  (forall y, length y = N -> exists w', h2_matvec_no_overwrite M x (map Some y) w
      = Ok (map Some (tab N (fun i => vat y i + mv N (h2mat M) (vat x) i)%Qc), w') /\ ready M w').
Proof. exact matvec_thm. Qed.
Print Assumptions C47_matvec.

(** C47, transposed products. *)
Theorem C47_matvecTrans : forall N M x w, wf_h2 N M -> basis M = None -> no_taller (tree M) ->
  (forall p, In p (far M) -> ksize (inf (p1 p)) <= ksize (inf (p2 p))) -> length x = N -> ready M w ->
  (forall y, length y = N -> exists w', h2_matvecTrans M x y w = Ok (map Some (tab N (mv N (mt (h2mat M)) (vat x))), w') /\ ready M w') /\
  (forall y, length y = N -> exists w', h2_matvecTrans_no_overwrite M x (map Some y) w
      = Ok (map Some (tab N (fun i => vat y i + mv N (mt (h2mat M)) (vat x) i)%Qc), w') /\ ready M w').
Proof. exact matvecTrans_thm. Qed.
Print Assumptions C47_matvecTrans.

(** C47, constructBasis. It succeeds when all nodes have the same order and the
    values have one component, and does not change the products. *)
Theorem C47_constructBasis : forall N K M w, wf_h2 N M -> components M = 1 -> (forall s, In s (nodes (tree M)) -> ksize (inf s) = K) ->
  (forall s, In s (nodes (tree M)) -> kids s = [] -> NoDup (ldofs (inf s))) -> kids (tree M) <> [] ->
  int32 (length (leaves (tree M)) * K) -> int32 N -> ready M w ->
  exists M' w', constructBasis M w = Ok (M', w') /\ ready M' w' /\ forall x w, length x = N -> ready M' w ->
    (forall y, length y = N -> exists w', h2_matvec M' x y w = Ok (map Some (tab N (mv N (h2mat M) (vat x))), w') /\ ready M' w') /\
    (forall y, length y = N -> exists w', h2_matvec_no_overwrite M' x (map Some y) w
      = Ok (map Some (tab N (fun i => vat y i + mv N (h2mat M) (vat x) i)%Qc), w') /\ ready M' w').
Proof. exact constructBasis_thm. Qed.
Print Assumptions C47_constructBasis.

(** C47, toarray. Whatever blocks are dropped from and recomputed for the dict of
    blocks, the array returned holds the same matrix that matvec multiplies with. *)
Theorem C47_toarray : forall N M near, wf_h2 N M -> components M = 1 -> NoDup (tdofs (tree M)) -> NoDup (map fst (Pfar M)) -> apart N M ->
  array_of N N near (matrix (Anear M)) -> exists arr, h2_toarray M near = Ok arr /\ array_of N N arr (h2mat M).
Proof. exact toarray_thm. Qed.
Print Assumptions C47_toarray.

(** C47, refuted for values with two components: constructBasis uses the first one
    for both, and toarray leaves out the second one. *)
Theorem C47_components_refuted : exists N K M w near, wf_h2 N M /\ components M = 2 /\ (forall s, In s (nodes (tree M)) -> ksize (inf s) = K) /\
  NoDup (tdofs (tree M)) /\ NoDup (map fst (Pfar M)) /\ apart N M /\ array_of N N near (matrix (Anear M)) /\ ready M w /\
  (exists M' w' x y, constructBasis M w = Ok (M', w') /\ length x = N /\ length y = N /\
     outcome (h2_matvec M' x y w') <> Ok (map Some (tab N (mv N (h2mat M) (vat x))))) /\
  (exists arr, h2_toarray M near = Ok arr /\ ~ array_of N N arr (h2mat M)).
Proof. exact components_refuted. Qed.
Print Assumptions C47_components_refuted.

(** C47, refuted for transposed products after constructBasis: the matrix of
    values is multiplied from the wrong side. *)
Theorem C47_basis_trans_refuted : exists N K M w M' w', wf_h2 N M /\ components M = 1 /\ (forall s, In s (nodes (tree M)) -> ksize (inf s) = K) /\
  NoDup (tdofs (tree M)) /\ ready M w /\ constructBasis M w = Ok (M', w') /\
  exists x y, length x = N /\ length y = N /\ outcome (h2_matvecTrans M' x y w') = Err EOob.
Proof. exact basis_trans_refuted. Qed.
Print Assumptions C47_basis_trans_refuted.

(** C47, refuted for a node of higher order than its child: the kernel gemvT, built
    without BLAS, runs past the end of the coefficients of the child. *)
Theorem C47_taller_refuted : exists N M w x y, wf_h2 N M /\ components M = 1 /\ NoDup (tdofs (tree M)) /\ ready M w /\ length x = N /\ length y = N /\
  outcome (h2_matvec M x y w) = Err EOob.
Proof. exact taller_refuted. Qed.
Print Assumptions C47_taller_refuted.

(** Four degrees of freedom; the cluster of 1, 2, 3 is split further, and pairs are
    on two levels. *)
Example h2_ex_ok : wf_h2 4 h2_ex /\ basis h2_ex = None /\ no_taller (tree h2_ex) /\ (forall p, In p (far h2_ex) -> ksize (inf (p1 p)) <= ksize (inf (p2 p))) /\
  components h2_ex = 1 /\ (forall s, In s (nodes (tree h2_ex)) -> ksize (inf s) = 2) /\
  NoDup (tdofs (tree h2_ex)) /\ NoDup (map fst (Pfar h2_ex)) /\ apart 4 h2_ex /\ array_of 4 4 near_ex (matrix (Anear h2_ex)) /\
  kids (tree h2_ex) <> [] /\ ready h2_ex (work_ex h2_ex).
Proof. exact h2_ex_fits. Qed.
Example h2_ex_array :
  show_list (h2_toarray h2_ex near_ex)
  = Ok (map this (tab 16 (fun q => h2mat h2_ex (Nat.div q 4) (Nat.modulo q 4))))
  /\ map this (tab 16 (fun q => h2mat h2_ex (Nat.div q 4) (Nat.modulo q 4)))
   = [4#1; 14#1; 15#1; 6#1;  8#1; 5#1; -1#1; 2#1;  9#1; -1#1; 5#1; 3#1;  4#1; 1#1; 6#1; 6#1]%Q.
Proof. vm_compute. split; reflexivity. Qed.
Example h2_ex_products :
  show_buf (outcome (h2_matvec h2_ex (map qz [1; 2; 3; 4]%Z) (alloc 4) (work_ex h2_ex))) = show_buf (Ok (map Some (tab 4 (mv 4 (h2mat h2_ex) (vat (map qz [1; 2; 3; 4]%Z)))))) /\
  show_buf (outcome (h2_matvecTrans h2_ex (map qz [1; 2; 3; 4]%Z) (alloc 4) (work_ex h2_ex))) = show_buf (Ok (map Some (tab 4 (mv 4 (mt (h2mat h2_ex)) (vat (map qz [1; 2; 3; 4]%Z)))))).
Proof. vm_compute. split; reflexivity. Qed.
Example h2_ex_basis : int32 (length (leaves (tree h2_ex)) * 2) /\ int32 4 /\
  (match constructBasis h2_ex (work_ex h2_ex) with
   | Ok (M', w') => show_buf (outcome (h2_matvec M' (map qz [1; 2; 3; 4]%Z) (alloc 4) w'))
   | Err e => Err e end) = Ok [Some (101#1)%Q; Some (23#1)%Q; Some (34#1)%Q; Some (48#1)%Q].
Proof. split; [unfold int32; cbn; lia|]. split; [unfold int32; cbn; lia|]. vm_compute. reflexivity. Qed.
