(** C58: inverses of block triangular operators, and block diagonal operators. *)
From Verif Require Import Util Lin CSRModel DenseModel DenseSpec SmootherModel CompModel CompSpec BlockInvModel BlockInvSpec BlockInvProofs3 BlockInvProofs4 BlockInvProofs5.
Local Open Scope nat_scope.
Set Default Proof Using "Type".

(** Blocks of sizes 2 and 1. *)
Definition q (a : Z) (b : positive) : Qc := Q2Qc (a # b).
Definition row_block : expr := EDense (Dense 1 2 [q 1 1; q 3 1]).
Definition column_block : expr := EDense (Dense 2 1 [q 1 1; q 3 1]).
Definition lower_rows : list (list expr) := [[EDiag [q 2 1; q 4 1]; ENull 2 1]; [row_block; EDiag [q 5 1]]].
Definition upper_rows : list (list expr) := [[EDiag [q 2 1; q 4 1]; column_block]; [ENull 1 2; EDiag [q 5 1]]].
Definition two_inverses : list expr := [EDiag [q 1 2; q 1 4]; EDiag [q 1 5]].
Definition cells (l : list Z) : buf Qc := map (fun z => Some (q z 1)) l.
Definition seen (h : res heap) : option (list (list (option Q))) := match h with Ok h => Some (map (map (option_map this)) h) | Err _ => None end.
Definition solve (lower : bool) (rows : list (list expr)) (x y : nat) (h : heap) : res heap :=
  f <- blockInverse lower rows two_inverses 2 ;; f (View x 0 3) (View y 0 3) h.
Lemma two_right i : i < 2 -> right_inverse (nth i [2; 1] 0) (meaning (nth i [EDiag [q 2 1; q 4 1]; EDiag [q 5 1]] (ENull 0 0))) (meaning (inverse_of two_inverses i)).
Proof.
  intros Hi r c Hr Hc. destruct i as [|[|i]]; [| |lia]; cbn in Hr, Hc; destruct r as [|[|r]]; try lia; destruct c as [|[|c]]; try lia; apply Qc_is_canon; vm_compute; reflexivity.
Qed.
Lemma two_left i : i < 2 -> right_inverse (nth i [2; 1] 0) (meaning (inverse_of two_inverses i)) (meaning (nth i [EDiag [q 2 1; q 4 1]; EDiag [q 5 1]] (ENull 0 0))).
Proof.
  intros Hi r c Hr Hc. destruct i as [|[|i]]; [| |lia]; cbn in Hr, Hc; destruct r as [|[|r]]; try lia; destruct c as [|[|c]]; try lia; apply Qc_is_canon; vm_compute; reflexivity.
Qed.
Lemma two_triangular (lower : bool) : triangular (fun _ => 3) lower (if lower then lower_rows else upper_rows) two_inverses 2.
Proof.
  assert (G : forall i, i < 2 -> nth i [2; 1] 0 = nth i [2; 1] 0) by auto.
  split; [|split; [|split; [|split; [|split]]]].
  - destruct lower; cbn; repeat split; auto; try discriminate; try (intuition discriminate); try lia; intros; intuition (subst; cbn in *; intuition (subst; auto)).
  - destruct lower; cbn; intros row H; intuition (subst; reflexivity).
  - destruct lower; cbn; intros i j Hi Hj; destruct i as [|[|i]]; try lia; destruct j as [|[|j]]; try lia; intros H; try lia; reflexivity.
  - destruct lower; cbn; intros i j Hi Hj; destruct i as [|[|i]]; try lia; destruct j as [|[|j]]; try lia; intros H; try lia; reflexivity.
  - destruct lower; reflexivity.
  - intros i Hi. assert (Hi' : i < 2) by (destruct lower; exact Hi). cbv zeta. pose proof (two_right i Hi') as R.
    destruct i as [|[|i]]; [| |lia]; (split; [exact Logic.I|]; split; [destruct lower; reflexivity|]; split; [reflexivity|]; split; [cbn; auto|]; destruct lower; exact R).
Qed.

(** What matvec leaves in y solves the block triangular system, whatever y and the scratch
    vectors held; nothing else is changed. *)
Theorem C58_solve : forall lens (lower : bool) rows inverses t, triangular lens lower rows inverses t ->
  let n := sum_nat (sizes rows) in let T := scratch_all rows inverses t in
  exists f, blockInverse lower rows inverses t = Ok f /\ forall x y xs h, arguments lens T n n false x y xs [] h ->
  exists h' zs, f x y h = Ok h' /\ length zs = n /\ contents h' y = map Some zs /\
    (forall r, r < n -> mv n (meaning (EBlock rows t)) (vat zs) r = vat xs r) /\ only h h' (fun id k => In id T \/ touches y id k).
Proof. exact blockInverse_ok. Qed.
Example C58_solve_ex : (forall lower : bool, triangular (fun _ => 3) lower (if lower then lower_rows else upper_rows) two_inverses 2) /\
  seen (solve true lower_rows 0 1 [cells [2; 4; 14]%Z; alloc 3; alloc 3]) = Some [map Some [2; 4; 14]%Q; map Some [1; 1; 2]%Q; map Some [2; 4; 10]%Q] /\
  seen (solve false upper_rows 0 1 [cells [4; 10; 10]%Z; alloc 3; alloc 3]) = Some [map Some [4; 10; 10]%Q; map Some [1; 1; 2]%Q; map Some [2; 4; 10]%Q].
Proof. split; [exact two_triangular|]. split; vm_compute; reflexivity. Qed.
Print Assumptions C58_solve.

(** It is the inverse of the operator: from L z it gives z. *)
Theorem C58_inverse : forall lens (lower : bool) rows inverses t, triangular lens lower rows inverses t ->
  (forall i, i < length rows -> right_inverse (nth i (sizes rows) 0) (meaning (inverse_of inverses i)) (meaning (entry rows i i))) ->
  let n := sum_nat (sizes rows) in let T := scratch_all rows inverses t in
  exists f, blockInverse lower rows inverses t = Ok f /\ forall x y zs h,
  arguments lens T n n false x y (tab n (mv n (meaning (EBlock rows t)) (vat zs))) [] h -> length zs = n ->
  exists h', f x y h = Ok h' /\ contents h' y = map Some zs.
Proof. exact blockInverse_inverse. Qed.
Example C58_inverse_ex : triangular (fun _ => 3) true lower_rows two_inverses 2 /\
  forall i, i < 2 -> right_inverse (nth i (sizes lower_rows) 0) (meaning (inverse_of two_inverses i)) (meaning (entry lower_rows i i)).
Proof. split; [exact (two_triangular true)|]. intros i Hi. pose proof (two_left i Hi) as R. destruct i as [|[|i]]; [exact R|exact R|lia]. Qed.
Print Assumptions C58_inverse.

(** The constructors reject every block on the other side of the diagonal that is no null operator. *)
Theorem C58_checked : forall (lower : bool) rows inverses t f, blockInverse lower rows inverses t = Ok f ->
  forall i j, i < length rows -> j < length (hd [] rows) -> (if lower then i < j else j < i) ->
  exists row e, nth_error rows i = Some row /\ nth_error row j = Some e /\ is_null e = true.
Proof. exact blockInverse_checked. Qed.
Example C58_checked_ex : (exists f, blockInverse true lower_rows two_inverses 2 = Ok f) /\
  blockInverse true upper_rows two_inverses 2 = Err EAssert /\ blockInverse false lower_rows two_inverses 2 = Err EAssert.
Proof. split; [eexists; reflexivity|]. split; reflexivity. Qed.
Print Assumptions C58_checked.

(** In place it does not solve: y is set to zero before x is read. *)
Theorem C58_in_place_refuted : exists lens rows inverses t f h h', triangular lens true rows inverses t /\ blockInverse true rows inverses t = Ok f /\
  contents h (View 0 0 3) = cells [2; 4; 14]%Z /\ f (View 0 0 3) (View 0 0 3) h = Ok h' /\ map (option_map this) (contents h' (View 0 0 3)) = map Some [0; 0; 0]%Q.
Proof.
  exists (fun _ => 3), lower_rows, two_inverses, 2. destruct (C58_solve _ _ _ _ _ (two_triangular true)) as (f & E & _). exists f, [cells [2; 4; 14]%Z; alloc 3; alloc 3].
  pose proof (f_equal (fun r => match r with Ok f => f (View 0 0 3) (View 0 0 3) [cells [2; 4; 14]%Z; alloc 3; alloc 3] | Err e => Err e end) E) as X. cbv beta iota in X.
  eexists. split; [exact (two_triangular true)|]. split; [exact E|]. split; [reflexivity|]. split; [rewrite <- X; vm_compute; reflexivity|]. vm_compute. reflexivity.
Qed.
Print Assumptions C58_in_place_refuted.

(** A block diagonal operator applies each block to its part of the vector. *)
Theorem C58_diagonal : forall lens blocks t, blocks <> [] -> (forall e, In e blocks -> ok lens e /\ ~ In t (scratch e)) ->
  let hs := map (fun e => fst (dims e)) blocks in let ws := map (fun e => snd (dims e)) blocks in sum_nat hs <= lens t ->
  (forall e, In e blocks -> offers e false false = true) -> exists o, build (blockDiagonal blocks t) = Ok o /\ l_rows o = sum_nat hs /\ l_cols o = sum_nat ws /\
  performs lens (scratch (blockDiagonal blocks t)) (sum_nat hs) (sum_nat ws) (meaning (blockDiagonal blocks t)) false (call o false false).
Proof. exact diagonal_product. Qed.
Theorem C58_diagonal_blocks : forall lens blocks t, blocks <> [] -> (forall e, In e blocks -> ok lens e /\ ~ In t (scratch e)) ->
  let hs := map (fun e => fst (dims e)) blocks in let ws := map (fun e => snd (dims e)) blocks in
  forall z i r, i < length blocks -> r < nth i hs 0 -> mv (sum_nat ws) (meaning (blockDiagonal blocks t)) z (sum_nat (firstn i hs) + r) =
  mv (nth i ws 0) (meaning (nth i blocks (ENull 0 0))) (fun c => z (sum_nat (firstn i ws) + c)) r.
Proof. exact diag_mv. Qed.
Example C58_diagonal_ex : (forall e, In e [row_block; EDiag [q 5 1]] -> ok (fun _ => 2) e /\ ~ In 2 (scratch e)) /\
  seen (o <- build (blockDiagonal [row_block; EDiag [q 5 1]] 2) ;; call o false false (View 0 0 3) (View 1 0 2) [cells [1; 2; 3]%Z; alloc 2; alloc 2]) =
    Some [map Some [1; 2; 3]%Q; map Some [7; 15]%Q; map Some [0; 15]%Q].
Proof. split; [cbn; intros e [<-|[<-|[]]]; cbn; repeat split; auto|vm_compute; reflexivity]. Qed.
Print Assumptions C58_diagonal.
Print Assumptions C58_diagonal_blocks.
