(** C59: complex operators made of real ones; products of three operators; sums of two CSR matrices. *)
From Coq Require Import Sorted.
From Verif Require Import Util Lin CSRModel CSRSpec DenseModel DenseSpec SmootherModel CompModel CompSpec CplxModel CplxSpec CplxProofs CplxProofs2.
Local Open Scope nat_scope.
Set Default Proof Using "Type".

Definition q (a : Z) (b : positive) : Qc := Q2Qc (a # b).
Definition z (a b : Z) : cplx := (q a 1, q b 1).
Definition seen (y : res (buf cplx)) : option (list (option (Q * Q))) :=
  match y with Ok y => Some (map (option_map (fun c => (this (fst c), this (snd c)))) y) | Err _ => None end.
(** [[2, 1], [0, 3]], with the columns of the first row in decreasing order, and [[1, 0], [4, 1]] *)
Definition exS : csr := CSR 2 [0; 2; 3] [1; 0; 1] [q 1 1; q 2 1; q 3 1].
Definition exM : csr := CSR 2 [0; 1; 3] [0; 0; 1] [q 1 1; q 4 1; q 1 1].
Lemma exS_wf : wf_csr 2 2 exS /\ nodup_csr 2 exS.
Proof.
  split; [split; [reflexivity|]; repeat split; cbn; try lia; try (intros j H; intuition lia); try (intros i Hi; destruct i as [|[|i]]; cbn; lia)|].
  intros i Hi. destruct i as [|[|i]]; [| |lia]; cbn; repeat constructor; cbn; intuition discriminate.
Qed.
Lemma exM_wf : wf_csr 2 2 exM /\ nodup_csr 2 exM.
Proof.
  split; [split; [reflexivity|]; repeat split; cbn; try lia; try (intros j H; intuition lia); try (intros i Hi; destruct i as [|[|i]]; cbn; lia)|].
  intros i Hi. destruct i as [|[|i]]; [| |lia]; cbn; repeat constructor; cbn; intuition discriminate.
Qed.

(** wrapRealToComplex: the product of the real matrix with a complex vector, for every operator,
    whatever y and the scratch vectors held. *)
Theorem C59_wrap : forall lens e t t2, ok lens e -> offers e false false = true -> ~ In t (scratch e) -> ~ In t2 (scratch e) -> t <> t2 ->
  let n := fst (dims e) in let m := snd (dims e) in
  exists o, build e = Ok o /\ l_rows o = n /\ l_cols o = m /\ forall x y h, length x = m -> length y = n ->
  m <= length (nth t h []) -> n <= length (nth t2 h []) -> (forall id, In id (scratch e) -> lens id <= length (nth id h [])) ->
  exists h', wrap_matvec o t t2 x y h = Ok (map Some (tab n (cmv m (real_mat (meaning e)) (cvat x))), h') /\
    only h h' (fun id k => In id (t :: t2 :: scratch e)).
Proof. exact wrap_ok. Qed.
Definition wrapped : expr := EProduct (EDense (Dense 1 2 [q 1 1; q 3 1])) (ECSR exS) 0.
Example C59_wrap_ex : ok (fun _ => 2) wrapped /\ offers wrapped false false = true /\
  seen (o <- build wrapped ;; r <- wrap_matvec o 1 2 [z 1 2; z 0 1] (alloc 1) [alloc 2; alloc 2; alloc 1] ;; Ok (fst r)) = Some [Some (2, 14)%Q].
Proof.
  split; [|split; [reflexivity|vm_compute; reflexivity]].
  cbn. split; [repeat split; reflexivity|]. split; [exact (proj1 exS_wf)|]. repeat split; auto.
Qed.
Print Assumptions C59_wrap.

(** wrapRealToComplexCSR: the same for a CSR matrix, without scratch vectors. *)
Theorem C59_wrapCSR : forall n m A x y, wf_csr n m A -> length x = m -> length y = n ->
  wrapCSR_matvec A x y = Ok (map Some (tab n (cmv m (real_mat (matrix A)) (cvat x)))).
Proof. exact wrapCSR_ok. Qed.
Example C59_wrapCSR_ex : wf_csr 2 2 exS /\ seen (wrapCSR_matvec exS [z 1 2; z 0 1] (alloc 2)) = Some [Some (2, 5)%Q; Some (0, 3)%Q].
Proof. split; [exact (proj1 exS_wf)|vm_compute; reflexivity]. Qed.
Print Assumptions C59_wrapCSR.

(** HelmholtzShiftOperator: product with S + s M and its diagonal, for the shift of the constructor and
    after every change of it. *)
Theorem C59_helmholtz : forall n S M s x y, wf_csr n n S -> wf_csr n n M -> nodup_csr n S -> nodup_csr n M -> length x = n -> length y = n ->
  exists H, new_helmholtz S M s = Ok H /\ h_diagonal H = map Some (tab n (fun i => shifted (matrix S) (matrix M) s i i)) /\
    helmholtz_matvec H x y = Ok (map Some (tab n (cmv n (shifted (matrix S) (matrix M) s) (cvat x)))) /\
    forall s', exists H', setShift H s' = Ok H' /\ h_diagonal H' = map Some (tab n (fun i => shifted (matrix S) (matrix M) s' i i)) /\
    helmholtz_matvec H' x y = Ok (map Some (tab n (cmv n (shifted (matrix S) (matrix M) s') (cvat x)))).
Proof. exact helmholtz_new. Qed.
Example C59_helmholtz_ex : wf_csr 2 2 exS /\ wf_csr 2 2 exM /\ nodup_csr 2 exS /\ nodup_csr 2 exM /\
  seen (H <- new_helmholtz exS exM (z 0 2) ;; helmholtz_matvec H [z 1 2; z 0 1] (alloc 2)) = Some [Some (-2, 7)%Q; Some (-18, 11)%Q] /\
  seen (H <- new_helmholtz exS exM (z 0 2) ;; H <- setShift H (z 1 1) ;; Ok (h_diagonal H)) = Some [Some (3, 1)%Q; Some (4, 1)%Q].
Proof. split; [apply exS_wf|]. split; [apply exM_wf|]. split; [apply exS_wf|]. split; [apply exM_wf|]. split; vm_compute; reflexivity. Qed.
Print Assumptions C59_helmholtz.

(** If a diagonal entry is stored in two parts, the products count both and the diagonal only one. *)
Theorem C59_helmholtz_diagonal_refuted : exists S M s H, wf_csr 1 1 S /\ wf_csr 1 1 M /\ new_helmholtz S M s = Ok H /\
  seen (Ok (h_diagonal H)) = Some [Some (1, 1)%Q] /\ seen (helmholtz_matvec H [z 1 0] (alloc 1)) = Some [Some (3, 1)%Q].
Proof.
  exists (CSR 1 [0; 2] [0; 0] [q 1 1; q 2 1]), (CSR 1 [0; 1] [0] [q 1 1]), (z 0 1). eexists.
  split; [split; [reflexivity|]; repeat split; cbn; try lia; try (intros j H; intuition lia); try (intros i Hi; destruct i; cbn; lia)|].
  split; [split; [reflexivity|]; repeat split; cbn; try lia; try (intros j H; intuition lia); try (intros i Hi; destruct i; cbn; lia)|].
  split; [vm_compute; reflexivity|]. split; vm_compute; reflexivity.
Qed.
Print Assumptions C59_helmholtz_diagonal_refuted.

(** Triple_Product_Linear_Operator: A B C x, whatever y and the two scratch vectors held. *)
Theorem C59_triple : forall lens A B C t t2, ok lens A -> ok lens B -> ok lens C -> snd (dims A) = fst (dims B) -> snd (dims B) = fst (dims C) ->
  offers A false false = true -> offers B false false = true -> offers C false false = true ->
  ~ In t (scratch B ++ scratch C) -> ~ In t2 (scratch A ++ scratch B) -> t <> t2 -> snd (dims B) <= lens t -> snd (dims A) <= lens t2 ->
  exists a b c f, build A = Ok a /\ build B = Ok b /\ build C = Ok c /\ triple_product a b c t t2 = Ok f /\
  performs lens (t :: t2 :: scratch A ++ scratch B ++ scratch C) (fst (dims A)) (snd (dims C))
    (mm (snd (dims A)) (meaning A) (mm (snd (dims B)) (meaning B) (meaning C))) false f.
Proof. exact triple_ok. Qed.
Definition exA : expr := EDense (Dense 1 2 [q 1 1; q 3 1]).
Example C59_triple_ex : ok (fun _ => 2) exA /\ ok (fun _ => 2) (ECSR exS) /\ ok (fun _ => 2) (EDiag [q 5 1; q 7 1]) /\
  match (a <- build exA ;; b <- build (ECSR exS) ;; c <- build (EDiag [q 5 1; q 7 1]) ;; f <- triple_product a b c 2 3 ;;
    f (View 0 0 2) (View 1 0 1) [[Some (q 1 1); Some (q 1 1)]; alloc 1; alloc 2; alloc 2]) with
  | Ok h => map (option_map this) (nth 1 h []) = [Some 80%Q] | Err _ => False end.
Proof. split; [repeat split; reflexivity|]. split; [exact (proj1 exS_wf)|]. split; [exact Logic.I|]. vm_compute. reflexivity. Qed.
Print Assumptions C59_triple.

(** split_CSR_LinearOperator: (A1 + A2) x. *)
Theorem C59_split : forall n A1 A2 x y, wf_csr n n A1 -> wf_csr n n A2 -> length x = n -> length y = n ->
  split_call A1 A2 x y = Ok (map Some (tab n (mv n (fun i j => matrix A1 i j + matrix A2 i j)%Qc (vat x)))).
Proof. exact split_call_ok. Qed.
Theorem C59_split_matvec : forall n m A1 A2 x y, wf_csr n m A1 -> wf_csr n m A2 -> length x = m -> length y = n ->
  split_matvec A1 A2 x y = Ok (map Some (tab n (mv m (fun i j => matrix A1 i j + matrix A2 i j)%Qc (vat x)))).
Proof. exact split_ok. Qed.
Example C59_split_ex : wf_csr 2 2 exS /\ wf_csr 2 2 exM /\
  match split_call exS exM [q 1 1; q 2 1] (alloc 2) with Ok y => map (option_map this) y = [Some 5%Q; Some 12%Q] | Err _ => False end.
Proof. split; [apply exS_wf|]. split; [apply exM_wf|]. vm_compute. reflexivity. Qed.
Print Assumptions C59_split.
Print Assumptions C59_split_matvec.
(** Rectangular matrices of equal shape are rejected by every call, since the number of columns is set
    to that of rows. *)
Theorem C59_split_rectangular_refuted : forall n m A1 A2 x y, wf_csr n m A1 -> length x = m -> n <> m -> split_call A1 A2 x y = Err EAssert.
Proof. exact split_rectangular. Qed.
Example C59_split_rectangular_ex : wf_csr 1 2 (CSR 2 [0; 1] [1] [q 1 1]) /\ split_call (CSR 2 [0; 1] [1] [q 1 1]) (CSR 2 [0; 1] [1] [q 1 1]) [q 1 1; q 1 1] (alloc 1) = Err EAssert.
Proof. split; [split; [reflexivity|]; repeat split; cbn; try lia; try (intros j H; intuition lia); try (intros i Hi; destruct i; cbn; lia)|reflexivity]. Qed.
Print Assumptions C59_split_rectangular_refuted.
