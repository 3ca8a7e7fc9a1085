(** Property theorems C34 (operators built from operators).  Proofs are in CompProofs*.v and InterpProofs*.v. *)
From Verif Require Import Util Lin CSRModel CSRSpec DenseModel DenseSpec CompModel CompSpec CompProofs7 CompProofs8 CompProofs9 CompProofs10 CompProofs11 InterpModel InterpSpec InterpProofs3.
Local Open Scope Qc_scope.

(** C34, products. Every expression of consistently stored matrices with fitting shapes builds
    an operator of the right shape, and each product it offers (plain or transposed, written or
    added) is the product with the matrix the expression means. Only the output and the scratch
    vectors change. *)
Theorem C34_products :
  forall lens e, ok lens e -> exists o, build e = Ok o /\ l_rows o = fst (dims e) /\ l_cols o = snd (dims e) /\
  forall tr a : bool, offers e tr a = true ->
  performs lens (scratch e) (if tr then snd (dims e) else fst (dims e)) (if tr then fst (dims e) else snd (dims e)) (if tr then mt (meaning e) else meaning e) a (call o a tr).
Proof. exact products_ok. Qed.
Print Assumptions C34_products.

(** C34, residuals b - A x. *)
Theorem C34_residual :
  forall lens e, ok lens e -> offers e false false = true -> exists o, build e = Ok o /\
  computes_residual lens (scratch e) (fst (dims e)) (snd (dims e)) (meaning e) (l_res o).
Proof. exact residual_ok. Qed.
Print Assumptions C34_residual.

(** C34, a product A B used as a preconditioned operator gives A (b - B x). *)
Theorem C34_preconditioned_residual :
  forall lens A B t, ok lens (EProduct A B t) -> offers A false false = true -> offers B false false = true ->
  exists oA oB, build A = Ok oA /\ build B = Ok oB /\
  forall x rhs r xs bs h simple, arguments lens (scratch (EProduct A B t)) (fst (dims A)) (snd (dims B)) false x r xs [] h ->
  v_len rhs = fst (dims B) -> inside h rhs -> contents h rhs = map Some bs -> ~ In (v_buf rhs) (scratch (EProduct A B t)) ->
  exists h', product_preconditionedResidual oA oB t x rhs r simple h = Ok h' /\
    contents h' r = map Some (tab (fst (dims A)) (mv (snd (dims A)) (meaning A) (fun i => if simple then vat bs i else vat bs i - mv (snd (dims B)) (meaning B) (vat xs) i))) /\
    only h h' (fun id k => In id (scratch (EProduct A B t)) \/ touches r id k).
Proof. exact preconditioned_ok. Qed.
Print Assumptions C34_preconditioned_residual.

(** C34, diagonals of square operators. *)
Theorem C34_diagonal :
  forall lens e, ok lens e -> fst (dims e) = snd (dims e) -> offers_diagonal e ->
  exists o, build e = Ok o /\ l_diag o = Ok (tab (fst (dims e)) (fun i => meaning e i i)).
Proof. exact diag_sound. Qed.
Print Assumptions C34_diagonal.

(** C34, the operators +, -, * of Python build expressions that mean the sum, the difference and
    the multiple. *)
Theorem C34_add :
  forall lens a b z, ok lens a -> ok lens b -> dims b = dims a -> (fst (dims a) <= lens z)%nat -> ~ In z (scratch a ++ scratch b) ->
  ok lens (add a b z) /\ dims (add a b z) = dims a /\ incl (scratch (add a b z)) (z :: scratch a ++ scratch b) /\
  (forall i j, meaning (add a b z) i j = meaning a i j + meaning b i j) /\ (algebraic a = true -> algebraic b = true -> algebraic (add a b z) = true).
Proof. exact add_ok. Qed.
Print Assumptions C34_add.
Theorem C34_sub :
  forall lens a b z z', ok lens a -> ok lens b -> dims b = dims a -> (fst (dims a) <= lens z)%nat -> (fst (dims a) <= lens z')%nat ->
  ~ In z (scratch a ++ scratch b) -> ~ In z' (z :: scratch a ++ scratch b) ->
  ok lens (sub a b z z') /\ dims (sub a b z z') = dims a /\
  (forall i j, meaning (sub a b z z') i j = meaning a i j - meaning b i j) /\ (algebraic a = true -> algebraic b = true -> algebraic (sub a b z z') = true).
Proof. exact sub_ok. Qed.
Print Assumptions C34_sub.
Theorem C34_multiple_left :
  forall lens x a z, ok lens a -> (fst (dims a) <= lens z)%nat -> ~ In z (scratch a) ->
  ok lens (rmul x a z) /\ dims (rmul x a z) = dims a /\ incl (scratch (rmul x a z)) (z :: scratch a) /\
  (forall i j, meaning (rmul x a z) i j = x * meaning a i j) /\ (algebraic a = true -> algebraic (rmul x a z) = true).
Proof. exact rmul_ok. Qed.
Print Assumptions C34_multiple_left.
Theorem C34_multiple_right :
  forall lens x a z, ok lens a -> (fst (dims a) <= lens z)%nat -> ~ In z (scratch a) ->
  ok lens (mul a x z) /\ dims (mul a x z) = dims a /\ incl (scratch (mul a x z)) (z :: scratch a) /\
  (forall i j, meaning (mul a x z) i j = x * meaning a i j) /\ (algebraic a = true -> algebraic (mul a x z) = true).
Proof. exact mul_ok. Qed.
Print Assumptions C34_multiple_right.

(** C34, expressions of matrices, sums, differences, multiples and products offer both products
    that are not transposed. *)
Theorem C34_available : forall e, algebraic e = true -> forall a, offers e false a = true.
Proof. exact algebraic_offers. Qed.
Print Assumptions C34_available.

(** C34, the dense copy of an operator (toarray of operators without a method of their own). *)
Theorem C34_dense_copy :
  forall lens e, ok lens e -> offers e false false = true -> exists o, build e = Ok o /\
  forall x B h, ~ In x (scratch e) -> ~ In B (scratch e) -> x <> B ->
  (forall id, In id (scratch e) -> (lens id <= length (nth id h []))%nat) -> (snd (dims e) <= length (nth x h []))%nat -> (fst (dims e) * snd (dims e) <= length (nth B h []))%nat ->
  exists h', getDenseOpFromApply o x B h = Ok h' /\
    forall i j, (i < fst (dims e))%nat -> (j < snd (dims e))%nat -> nth_error (nth B h' []) (j * fst (dims e) + i) = Some (Some (meaning e i j)).
Proof. exact dense_ok. Qed.
Print Assumptions C34_dense_copy.

(** C34, interpolation. Whatever was set before, set(val, d) with d <= 2 stores weights that turn
    the values at the nodes of a polynomial of degree less than the number of nodes into its
    d-th derivative at val. *)
Theorem C34_interpolation_weights :
  forall nodes l r o0 calls o val d, new_interp nodes l r = Ok o0 -> sets o0 calls = Ok o ->
  (l <= val -> val <= r -> (d <= 2)%nat -> exists o' c, set o val d = Ok o' /\ i_val o' = Some val /\ i_coeffs o' = map Some c /\ exact_weights nodes val d c) /\
  (~ (l <= val /\ val <= r) -> set o val d = Err EAssert) /\ (l <= val -> val <= r -> (2 < d)%nat -> set o val d = Err ENotImpl).
Proof. exact interpolation_ok. Qed.
Print Assumptions C34_interpolation_weights.
Theorem C34_interpolation_nodes : forall nodes l r, (exists o, new_interp nodes l r = Ok o) <-> increasing nodes.
Proof. exact constructor_ok. Qed.
Print Assumptions C34_interpolation_nodes.

(** C34, so for operators whose matrices are samples of matrices of polynomials, the interpolation
    operator is the operator of the polynomials (or derivatives) at val, to which C34_products applies. *)
Theorem C34_interpolation_operator :
  forall lens nodes l r o0 calls o val d o' ops z P, new_interp nodes l r = Ok o0 -> sets o0 calls = Ok o -> set o val d = Ok o' ->
  samples nodes ops P -> (forall c, length c = length nodes -> ok lens (ESum ops c z)) ->
  exists e, interp_expr o' ops z = Ok e /\ ok lens e /\ dims e = hd (0, 0)%nat (map dims ops) /\ scratch e = z :: concat (map scratch ops) /\
    (forall i j, meaning e i j = evalp (Nat.iter d deriv (P i j)) val) /\ forall tr a, offers e tr a = forallb (fun b => b) (map (fun e => offers e tr false) ops) && (if tr then square e else negb a).
Proof. exact interpolated_products. Qed.
Print Assumptions C34_interpolation_operator.

(** C34, several intervals. The first interval that contains val is selected, with exact weights
    for its nodes; if no interval contains val, an assertion fails. *)
Theorem C34_intervals :
  forall intervals nodes m0 calls m val d, new_multi intervals nodes = Ok m0 -> sets_multi m0 calls = Ok m ->
  (forall k p, nth_error intervals k = Some p -> between val p -> (forall k' p', (k' < k)%nat -> nth_error intervals k' = Some p' -> ~ between val p') -> (d <= 2)%nat ->
     exists m' o c, set_multi m val d = Ok m' /\ m_selected m' = Some k /\ nth_error (m_ops m') k = Some o /\ i_coeffs o = map Some c /\ exact_weights (nth k nodes []) val d c) /\
  ((forall p, In p intervals -> ~ between val p) -> set_multi m val d = Err EAssert).
Proof. exact multi_thm. Qed.
Print Assumptions C34_intervals.

(** C34, delayed construction. In every sequence of setParams and uses, each use works with what
    construct gives for the values set last, of the declared shape. *)
Theorem C34_delayed :
  forall construct n m l out o, run construct (new_delayed n m) l = Ok (out, o) -> used construct n m l (fun _ => None) out.
Proof. exact delayed_thm. Qed.
Print Assumptions C34_delayed.

(** C34 fails for transposes: of M*facM + K*facS with facS = 0, which keeps old contents of y, ... *)
Theorem C34_transposed_step_refuted :
  exists lens e o, ok lens e /\ build e = Ok o /\ (forall tr a, offers (one_by_one 1) tr a = true) /\ e = EStep (one_by_one 1) (one_by_one 1) (qz 0) (qz 2) 2 /\
  ~ performs lens (scratch e) (snd (dims e)) (fst (dims e)) (mt (meaning e)) false (call o false true).
Proof. exact step_refuted. Qed.
Print Assumptions C34_transposed_step_refuted.
(** ... of sums of operators with more columns than rows, which write past the end of the scratch vector, ... *)
Theorem C34_transposed_sum_refuted :
  exists lens e o, ok lens e /\ build e = Ok o /\ e = ESum [wide 1 2; wide 3 4] [qz 1; qz 1] 2 /\ (forall e', In e' [wide 1 2; wide 3 4] -> offers e' true false = true) /\
  exists x y h xs, arguments lens (scratch e) (snd (dims e)) (fst (dims e)) false x y xs [] h /\ call o false true x y h = Err EOob.
Proof. exact wide_refuted. Qed.
Print Assumptions C34_transposed_sum_refuted.
(** ... and of transposes, which have no products. *)
Theorem C34_transposed_twice_refuted : forall e o, build (T (T e)) = Ok o -> forall a x y h, l_mv o false a x y h = Err ENotImpl.
Proof. exact transposed_twice. Qed.
Print Assumptions C34_transposed_twice_refuted.
(** Block operators and sums of many terms cannot be added to a vector; hence A + B with such a B
    of factor 1 raises. *)
Theorem C34_block_added_refuted :
  forall rows t o, build (EBlock rows t) = Ok o -> forall tr x y h, call o true tr x y h = Err ENotImpl \/ call o true tr x y h = Err EAssert.
Proof. exact block_add. Qed.
Print Assumptions C34_block_added_refuted.
Theorem C34_sum_added_refuted :
  forall ops cs z o, build (ESum ops cs z) = Ok o -> forall x y h, call o true false x y h = Err EType \/ call o true false x y h = Err EAssert.
Proof. exact sum_add. Qed.
Print Assumptions C34_sum_added_refuted.
(** The diagonal of a multiple of the identity is reported as 1. *)
Theorem C34_identity_diagonal_refuted :
  exists o, build (EIdentity 1 (qz 2)) = Ok o /\ l_diag o = Ok [qz 1] /\ meaning (EIdentity 1 (qz 2)) 0%nat 0%nat = qz 2.
Proof. exact identity_diagonal. Qed.
Print Assumptions C34_identity_diagonal_refuted.
(** Adding a null operator returns the other operand whatever the shapes. *)
Theorem C34_null_shape_refuted : forall e n m z, add e (ENull n m) z = e.
Proof. exact null_shape. Qed.
Print Assumptions C34_null_shape_refuted.

(** * Examples *)
(** A = [[1, 2], [0, 3]] sparse, S = [[2, 1], [1, 4]] symmetric, D = [[1, 2, 0], [0, 1, 5]] dense *)
Definition exA : expr := ECSR (CSR 2 [0; 2; 3]%nat [0; 1; 1]%nat (map qz [1; 2; 3]%Z)).
Definition exS : expr := ESSS (SSS [0; 0; 1]%nat [0]%nat (map qz [1]%Z) (map qz [2; 4]%Z)).
Definition exD : expr := EDense (Dense 2 3 (map qz [1; 2; 0; 0; 1; 5]%Z)).
(** 2 (A + 3 S) @ D - D *)
Definition ex : expr := sub (matmul (rmul (qz 2) (add exA (rmul (qz 3) exS 9) 2) 3) exD 4) exD 5 6.
Definition ex_lens : nat -> nat := fun _ => 3%nat.
Example exA_ok : ok ex_lens exA.
Proof.
  change (wf_csr 2 2 (CSR 2 [0; 2; 3]%nat [0; 1; 1]%nat (map qz [1; 2; 3]%Z))). split; [reflexivity|]. split; [reflexivity|]. split; [intros [|[|i]] H; cbn [c_indptr nth]; lia|]. split; [cbn; lia|]. split; [reflexivity|]. intros j [<- |[<- |[<- |[]]]]; lia.
Qed.
Example exS_ok : ok ex_lens exS.
Proof.
  change (wf_sss 2 (SSS [0; 0; 1]%nat [0]%nat (map qz [1]%Z) (map qz [2; 4]%Z))). split; [split; [reflexivity|]; split; [intros [|[|i]] H; cbn [s_indptr nth]; lia|]; split; [cbn; lia|]; split; [reflexivity|]; intros j [<- |[]]; lia|]. split; [reflexivity|].
  intros [|[|i]] p H Hp; [destruct Hp| |lia]. destruct Hp as [<- |[]]. cbn. lia.
Qed.
Example exD_ok : ok ex_lens exD.
Proof. cbn. repeat split. Qed.
Example ex_ok : ok ex_lens ex /\ dims ex = (2, 3)%nat /\ offers ex false false = true /\ offers ex true false = false.
Proof.
  split; [|repeat split].
  destruct (rmul_ok ex_lens (qz 3) exS 9 exS_ok) as (H1 & D1 & _); [apply Nat.leb_le; reflexivity|intros []|].
  destruct (add_ok ex_lens exA (rmul (qz 3) exS 9) 2 exA_ok H1) as (H2 & D2 & _); [reflexivity|apply Nat.leb_le; reflexivity|intros []|].
  destruct (rmul_ok ex_lens (qz 2) _ 3 H2) as (H3 & D3 & _); [apply Nat.leb_le; reflexivity|vm_compute; intuition discriminate|].
  assert (H4 : ok ex_lens (matmul (rmul (qz 2) (add exA (rmul (qz 3) exS 9) 2) 3) exD 4)).
  { cbn [matmul ok]. split; [exact H3|]. split; [exact exD_ok|]. split; [reflexivity|]. split; [apply Nat.leb_le; reflexivity|vm_compute; intuition discriminate]. }
  apply (sub_ok ex_lens _ exD 5 6 H4 exD_ok); try reflexivity; try (apply Nat.leb_le; reflexivity); vm_compute; intuition discriminate.
Qed.
(** x = (1, 1, 1) in buffer 0: 2 (A + 3 S) D x - D x = (99, 192), where A + 3 S = [[7, 5], [3, 15]] and D x = (3, 6) *)
Example ex_product :
  (o <- build ex ;; h <- call o false false (View 0 0 3) (View 1 1 2) [cells [1; 1; 1]; [None; None; None]; [None; None; None]; [None; None; None]; [None; None; None]; []; [None; None; None]]%Z ;; Ok (map (option_map this) (contents h (View 1 1 2)))) =
  Ok (map (option_map this) (cells [99; 192]%Z)).
Proof. vm_compute. reflexivity. Qed.
(** [[A, D], [0, 5 I]] with A 2x2, D 2x3, 0 3x2 *)
Definition ex_block : expr := EBlock [[exA; exD]; [ENull 3 2; EIdentity 3 (qz 5)]] 2.
Example ex_block_ok : ok (fun _ => 5%nat) ex_block /\ dims ex_block = (5, 5)%nat /\ offers ex_block false false = true.
Proof.
  split; [|split; reflexivity]. cbn [ok ex_block map all]. split.
  { split; [|repeat split]. split; [exact exA_ok|]. split; [exact exD_ok|exact Logic.I]. }
  split; [discriminate|]. split; [intros [H|[H|[]]]; discriminate|]. split.
  { intros r r' [<- |[<- |[]]] [<- |[<- |[]]]; reflexivity. }
  split. { intros r e e' [<- |[<- |[]]] [<- |[<- |[]]] [<- |[<- |[]]]; reflexivity. }
  split; [cbn; lia|]. cbn. auto.
Qed.
Example ex_block_product :
  (o <- build ex_block ;; h <- call o false false (View 0 0 5) (View 1 0 5) [cells [1; 1; 1; 2; 3]; [None; None; None; None; None]; [None; None; None; None; None]]%Z ;; Ok (map (option_map this) (contents h (View 1 0 5)))) =
  Ok (map (option_map this) (cells [8; 20; 5; 10; 15]%Z)).
Proof. vm_compute. reflexivity. Qed.
(** nodes 0, 1, 3: weights of the second derivative at 2 *)
Example ex_weights :
  show_buf (o <- new_interp (map qz [0; 1; 3]%Z) (qz 0) (qz 4) ;; o <- set o (qz 1) 0 ;; o <- set o (qz 2) 2 ;; Ok (i_coeffs o)) = Ok [Some (2 # 3); Some (-1 # 1); Some (1 # 3)]%Q.
Proof. vm_compute. reflexivity. Qed.
(** two constant matrices 1 and 4 at the nodes 0 and 1: the interpolant is 1 + 3 t *)
Example ex_samples : samples (map qz [0; 1]%Z) [one_by_one 1; one_by_one 4] (fun i j => if ((i =? 0) && (j =? 0))%nat then [qz 1; qz 3] else []).
Proof.
  split; [reflexivity|]. intros [|[|i]] e r c H; try (injection H as <-); try (destruct i; discriminate);
    (split; [destruct ((r =? 0)%nat && (c =? 0)%nat); cbn; lia|]); destruct r as [|r], c as [|c];
    solve [apply Qc_is_canon; vm_compute; reflexivity|unfold one_by_one, meaning, dmat, vat; rewrite nth_overflow by (cbn [d_m d_data length]; lia); reflexivity].
Qed.
Example ex_intervals :
  (m <- new_multi [(qz 0, qz 1); (qz 1, qz 3)] [map qz [0; 1]%Z; map qz [1; 3]%Z] ;; m <- set_multi m (qz 2) 0 ;; o <- aget (m_ops m) 1 ;;
   Ok (m_selected m, map (option_map this) (i_coeffs o))) = Ok (Some 1%nat, [Some (1 # 2); Some (1 # 2)]%Q).
Proof. vm_compute. reflexivity. Qed.
(** the value of parameter 7 is the entry; setting the same value does not rebuild *)
Definition ex_construct (params : list (nat * nat)) : res expr := match find_param 7 params with Some v => Ok (one_by_one (Z.of_nat v)) | None => Err EKey end.
Example ex_delayed : exists o, run ex_construct (new_delayed 1 1) [Params [(7, 2)]; Use; Params [(7, 2); (8, 1)]; Use; Params [(7, 3)]; Use]%nat = Ok ([one_by_one 2; one_by_one 2; one_by_one 3], o).
Proof. eexists. vm_compute. reflexivity. Qed.
