(** C60: Schur complements. *)
From Verif Require Import Util Lin CSRModel DenseModel DenseSpec SmootherModel CompModel CompSpec SchurModel SchurSpec SchurProofs SchurProofs2.
Local Open Scope nat_scope.
Set Default Proof Using "Type".

Definition q (a : Z) (b : positive) : Qc := Q2Qc (a # b).
(** [[4, 1, 0], [1, 3, 1], [0, 1, 2]]; the unknowns 2 and 0 are kept, in this order *)
Definition exA : expr := EDense (Dense 3 3 (map (fun z => q z 1) [4; 1; 0; 1; 3; 1; 0; 1; 2]%Z)).
Definition exD : expr := EDiag [q 1 3].
Definition ex_lens (id : nat) : nat := nth id [0; 0; 3; 3; 3; 3; 3; 3; 3; 3; 1; 1; 2] 0.
Definition ex_heap (y : buf Qc) : heap := [[Some (q 3 1); Some (q 3 1)]; y] ++ repeat (alloc 3) 8 ++ [alloc 1; alloc 1; alloc 2].
Definition ex_run (add : bool) (y : buf Qc) : option (list (option Q)) :=
  match (f <- schur exA exD [2; 0] 2 ;; f add (View 0 0 2) (View 1 0 2) (ex_heap y)) with Ok h => Some (map (option_map this) (nth 1 h [])) | Err _ => None end.
Lemma ex_ready : schur_ready ex_lens exA exD [2; 0] 2 3.
Proof.
  split; [repeat split; reflexivity|]. split; [reflexivity|]. split; [reflexivity|]. split; [repeat constructor; cbn; intuition lia|]. split; [cbn; intros i H; intuition lia|].
  split; [exact Logic.I|]. split; [reflexivity|]. split; [reflexivity|]. split; [intros id []|]. split; [|cbn; auto].
  intros k Hk. do 8 (destruct k as [|k]; [cbn; auto|]). lia.
Qed.

(** matvec writes, and matvec_no_overwrite adds, the product with A_II - A_IJ D A_JI, where I are the
    given indices, in any order, and J all others; whatever y and the scratch vectors held. *)
Theorem C60_products : forall lens A D I b n, schur_ready lens A D I b n ->
  exists f, schur A D I b = Ok f /\ forall add, performs lens (seq b 11 ++ scratch A ++ scratch D) (length I) (length I) (schur_matrix (meaning A) (meaning D) I (rest n I)) add (f add).
Proof. exact schur_ok. Qed.
Example C60_products_ex : schur_ready ex_lens exA exD [2; 0] 2 3 /\ rest 3 [2; 0] = [1] /\
  ex_run false (alloc 2) = Some [Some 4%Q; Some 10%Q] /\ ex_run true [Some (q 1 1); Some (q 2 1)] = Some [Some 5%Q; Some 12%Q].
Proof. split; [exact ex_ready|]. split; [reflexivity|]. split; vm_compute; reflexivity. Qed.
Print Assumptions C60_products.

(** If D inverts A_JJ, and the values of u at J are -D A_JI u_I, then A u vanishes at J and is S u_I at I:
    who solves S u_I = f solves A u = (f, 0). *)
Theorem C60_extend : forall n M D I u, NoDup I -> (forall i, In i I -> i < n) -> let J := rest n I in
  inverts (length J) (sub_matrix M J J) D ->
  (forall k, k < length J -> u (nth k J 0) = (- mv (length J) D (mv (length I) (sub_matrix M J I) (at_ u I)) k)%Qc) ->
  (forall k, k < length J -> mv n M u (nth k J 0) = 0%Qc) /\ forall i, i < length I -> mv n M u (nth i I 0) = mv (length I) (schur_matrix M D I J) (at_ u I) i.
Proof. exact schur_extends. Qed.
Print Assumptions C60_extend.
(** Conversely S u_I is A u at I for every u for which A u vanishes at J. *)
Theorem C60_eliminate : forall n M D I u, NoDup I -> (forall i, In i I -> i < n) -> let J := rest n I in
  inverts (length J) D (sub_matrix M J J) -> (forall k, k < length J -> mv n M u (nth k J 0) = 0%Qc) ->
  forall i, i < length I -> mv (length I) (schur_matrix M D I J) (at_ u I) i = mv n M u (nth i I 0).
Proof. exact schur_agrees. Qed.
(** u = (3, -2, 3): A u = (10, 0, 4) *)
Example C60_eliminate_ex : let u := vat [q 3 1; q (-2) 1; q 3 1] in
  inverts 1 (sub_matrix (meaning exA) [1] [1]) (meaning exD) /\ inverts 1 (meaning exD) (sub_matrix (meaning exA) [1] [1]) /\
  u 1 = Qcopp (mv 1 (meaning exD) (mv 2 (sub_matrix (meaning exA) [1] [2; 0]) (at_ u [2; 0])) 0) /\
  map (fun i => this (mv 3 (meaning exA) u i)) [0; 1; 2] = [10; 0; 4]%Q.
Proof.
  split; [intros i j Hi Hj; destruct i, j; try lia; apply Qc_is_canon; vm_compute; reflexivity|].
  split; [intros i j Hi Hj; destruct i, j; try lia; apply Qc_is_canon; vm_compute; reflexivity|].
  split; [apply Qc_is_canon; vm_compute; reflexivity|vm_compute; reflexivity].
Qed.
Print Assumptions C60_eliminate.
