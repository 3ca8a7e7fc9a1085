(** C57: sparse graphs and transfer operators stored as graphs. *)
From Coq Require Import Sorted.
From Verif Require Import Util Lin SparsitySpec CSRModel GraphModel GraphSpec GraphProofs GraphProofs2 GraphProofs3 GraphProofs4.
Local Open Scope nat_scope.
Set Default Proof Using "Type".

(** Two coarse rows, five fine columns. *)
Definition g25 : graph := Graph [2; 3; 3; 4] [0; 2; 4] 2 5.
Lemma g25_wf : wf_graph 2 5 g25.
Proof.
  repeat split.
  - intros i Hi. destruct i as [|[|i]]; cbn; lia.
  - cbn. lia.
  - cbn. intros c H. repeat (destruct H as [<-|H]; [lia|]). destruct H.
Qed.
Definition v5 : list Qc := map qz [1; 2; 3; 4; 5]%Z.
Definition v2 : list Qc := map qz [7; 9]%Z.
Definition shown (r : res (buf Qc)) : option (list (option Q)) := match r with Ok b => Some (map (option_map this) b) | Err _ => None end.
(** Four rows with different lengths. *)
Definition g43 : graph := Graph [0; 1; 2; 0; 1; 1; 2] [0; 2; 3; 5; 7] 4 3.
Lemma g43_wf : wf_graph 4 3 g43.
Proof.
  repeat split.
  - intros i Hi. destruct i as [|[|[|[|i]]]]; cbn; lia.
  - cbn. lia.
  - cbn. intros c H. repeat (destruct H as [<-|H]; [lia|]). destruct H.
Qed.

(** The product with a graph sums over its edges, and overwrites y. *)
Theorem C57_matvec : forall n m g x y, wf_graph n m g -> length x = m -> length y = n ->
  graph_matvec g x y = Ok (map Some (tab n (mv m (gmat g) (vat x)))).
Proof. intros n m g x y W. exact (graph_matvec_ok n m g W x y). Qed.
Example C57_matvec_ex : wf_graph 2 5 g25 /\ graph_matvec g25 v5 (alloc 2) = Ok (map Some (map qz [7; 9]%Z)).
Proof. split; [exact g25_wf|vm_compute; reflexivity]. Qed.
Print Assumptions C57_matvec.
Theorem C57_matvec_add : forall n m g x y, wf_graph n m g -> length x = m -> length y = n ->
  graph_matvec_add g x (map Some y) = Ok (map Some (tab n (fun i => vat y i + mv m (gmat g) (vat x) i)%Qc)).
Proof. intros n m g x y W. exact (graph_add_ok n m g W x y). Qed.
Example C57_matvec_add_ex : wf_graph 2 5 g25 /\ graph_matvec_add g25 v5 (map Some v2) = Ok (map Some (map qz [14; 18]%Z)).
Proof. split; [exact g25_wf|vm_compute; reflexivity]. Qed.
Print Assumptions C57_matvec_add.

(** Restriction and prolongation are the identity plus half of the graph. *)
Theorem C57_restriction : forall n m g x y, wf_graph n m g -> n <= m -> length x = m -> length y = n ->
  restriction_matvec g x y = Ok (map Some (tab n (mv m (tmat g) (vat x)))).
Proof. intros n m g x y W. exact (restriction_ok n m g W x y). Qed.
Example C57_restriction_ex : wf_graph 2 5 g25 /\ restriction_matvec g25 v5 (alloc 2) = Ok (map Some [Q2Qc (9 # 2); Q2Qc (13 # 2)]).
Proof. split; [exact g25_wf|vm_compute; reflexivity]. Qed.
Print Assumptions C57_restriction.
Theorem C57_prolongation : forall n m g x y, wf_graph n m g -> m <= n -> length x = m -> length y = n ->
  prolongation_matvec g x y = Ok (map Some (tab n (mv m (tmat g) (vat x)))).
Proof. intros n m g x y W. exact (prolongation_ok n m g W x y). Qed.
Example C57_prolongation_ex : wf_graph 4 3 g43 /\ shown (prolongation_matvec g43 (map qz [2; 4; 6]%Z) (alloc 4)) = Some (map Some [5; 7; 9; 5]%Q).
Proof. split; [exact g43_wf|vm_compute; reflexivity]. Qed.
Print Assumptions C57_prolongation.
(** The inherited matvec_no_overwrite of a restriction does not add its product:
    for this operator and vector R x is (9/2, 13/2), but (7, 9) is added. *)
Theorem C57_restriction_add_refuted : exists n m g x, wf_graph n m g /\ n <= m /\ length x = m /\
  graph_matvec_add g x (map Some (repeat 0%Qc n)) <> restriction_matvec g x (alloc n).
Proof. exists 2, 5, g25, v5. split; [exact g25_wf|]. split; [lia|]. split; [reflexivity|]. vm_compute. discriminate. Qed.
Print Assumptions C57_restriction_add_refuted.

(** Transposing exchanges the ends of all edges, and sorts the rows. *)
Theorem C57_transpose : forall n m g, wf_graph n m g ->
  exists g', graph_transpose g = Ok g' /\ wf_graph m n g' /\ (forall i c, i < n -> c < m -> edges g' c i = edges g i c) /\
  ((forall i, i < n -> NoDup (grow g i)) -> forall c, c < m -> increasing_list (grow g' c)).
Proof. exact graph_transpose_ok. Qed.
Example C57_transpose_ex : wf_graph 2 5 g25 /\ graph_transpose g25 = Ok (Graph [0; 0; 1; 1] [0; 0; 0; 1; 3; 4] 5 2).
Proof. split; [exact g25_wf|vm_compute; reflexivity]. Qed.
Print Assumptions C57_transpose.
Theorem C57_transpose_twice : forall n m g, wf_graph n m g -> exists g' g'', graph_transpose g = Ok g' /\ graph_transpose g' = Ok g'' /\
  wf_graph n m g'' /\ forall i c, i < n -> c < m -> edges g'' i c = edges g i c.
Proof. exact transpose_twice. Qed.
Example C57_transpose_twice_ex : wf_graph 4 3 g43 /\ (g <- graph_transpose g43 ;; graph_transpose g) = Ok g43.
Proof. split; [exact g43_wf|vm_compute; reflexivity]. Qed.
Print Assumptions C57_transpose_twice.
(** The prolongation along the transposed graph is the transpose of the restriction. *)
Theorem C57_adjoint : forall n m g, wf_graph n m g -> n <= m -> exists g', graph_transpose g = Ok g' /\
  forall x y bx by_, length x = m -> length y = n -> length bx = n -> length by_ = m -> exists rx py,
  restriction_matvec g x bx = Ok (map Some rx) /\ prolongation_matvec g' y by_ = Ok (map Some py) /\
  sumf n (fun i => vat y i * vat rx i)%Qc = sumf m (fun c => vat x c * vat py c)%Qc.
Proof. exact transfer_adjoint. Qed.
Example C57_adjoint_ex : wf_graph 2 5 g25 /\ 2 <= 5 /\
  shown (g <- graph_transpose g25 ;; prolongation_matvec g v2 (alloc 5)) = Some (map Some [7; 9; 7 # 2; 8; 9 # 2]%Q).
Proof. split; [exact g25_wf|]. split; [lia|vm_compute; reflexivity]. Qed.
Print Assumptions C57_adjoint.

(** Keeping some rows (in their order) gives exactly those rows, although the
    arrays are overwritten while they are read. *)
Theorem C57_sliceRow : forall n m g idx, wf_graph n m g -> increasing_list idx -> (forall i, In i idx -> i < n) ->
  exists g', sliceRow g idx = Ok g' /\ wf_graph (length idx) m g' /\ forall k, k < length idx -> grow g' k = grow g (nth k idx 0).
Proof. exact sliceRow_ok. Qed.
Example C57_sliceRow_ex : wf_graph 4 3 g43 /\ increasing_list [0; 2; 3] /\ sliceRow g43 [0; 2; 3] = Ok (Graph [0; 1; 0; 1; 1; 2] [0; 2; 4; 6] 3 3).
Proof. split; [exact g43_wf|]. split; [repeat constructor|vm_compute; reflexivity]. Qed.
Print Assumptions C57_sliceRow.
(** Rows in another order are lost: for [3; 0] row 3 is written over row 0 before
    row 0 is copied. *)
Theorem C57_sliceRow_order_refuted : exists n m g idx g', wf_graph n m g /\ NoDup idx /\ (forall i, In i idx -> i < n) /\
  sliceRow g idx = Ok g' /\ exists k, k < length idx /\ grow g' k <> grow g (nth k idx 0).
Proof.
  exists 4, 3, g43, [3; 0]. eexists. split; [exact g43_wf|]. split; [|split; [|split; [vm_compute; reflexivity|]]].
  - repeat constructor; cbn; intuition lia.
  - cbn. intuition lia.
  - exists 1. split; [cbn; lia|]. vm_compute. discriminate.
Qed.
Print Assumptions C57_sliceRow_order_refuted.
Theorem C57_sliceColumn : forall n m g idx, wf_graph n m g -> increasing_list idx -> (forall c, In c idx -> c < m) ->
  exists g', sliceColumn g idx = Ok g' /\ wf_graph n (length idx) g' /\
  forall i k, i < n -> k < length idx -> edges g' i k = edges g i (nth k idx 0).
Proof. exact sliceColumn_ok. Qed.
Example C57_sliceColumn_ex : wf_graph 2 5 g25 /\ increasing_list [2; 3] /\ sliceColumn g25 [2; 3] = Ok (Graph [0; 1; 1] [0; 2; 3] 2 2).
Proof. split; [exact g25_wf|]. split; [repeat constructor|vm_compute; reflexivity]. Qed.
Print Assumptions C57_sliceColumn.
