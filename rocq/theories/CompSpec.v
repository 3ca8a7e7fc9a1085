(** The matrices that expressions of operators stand for. *)
From Verif Require Import Util Lin CSRModel CSRSpec DenseModel DenseSpec CompModel.
Local Open Scope Qc_scope.

(** Blocks side by side and on top of each other. *)
Fixpoint beside (l : list (nat * mat)) : mat :=
  match l with
  | [] => fun _ _ => 0
  | (w, M) :: r => fun i j => if (j <? w)%nat then M i j else beside r i (j - w)%nat
  end.
Fixpoint above (l : list (nat * mat)) : mat :=
  match l with
  | [] => fun _ _ => 0
  | (n, M) :: r => fun i j => if (i <? n)%nat then M i j else above r (i - n)%nat j
  end.
Definition sum_nat (l : list nat) : nat := fold_right Nat.add O l.

(** Number of rows and columns. *)
Fixpoint dims (e : expr) : nat * nat :=
  match e with
  | ECSR A => (length (c_indptr A) - 1, c_ncols A)%nat
  | ESSS A => (length (s_diag A), length (s_diag A))
  | EDense A => (d_n A, d_m A)
  | EDiag d => (length d, length d)
  | ENull n m => (n, m)
  | EIdentity n _ => (n, n)
  | EStep M _ _ _ _ => dims M
  | EMultiply A _ => dims A
  | EProduct A B _ => (fst (dims A), snd (dims B))
  | ETranspose A => (snd (dims A), fst (dims A))
  | EBlock rows _ => (sum_nat (map (fun row => hd O (map (fun e => fst (dims e)) row)) rows), hd O (map (fun row => sum_nat (map (fun e => snd (dims e)) row)) rows))
  | ESum ops _ _ => hd (O, O) (map dims ops)
  end.
(** The matrix. *)
Fixpoint meaning (e : expr) : mat :=
  match e with
  | ECSR A => matrix A
  | ESSS A => sym_matrix A
  | EDense A => dmat A
  | EDiag d => fun i j => if (i =? j)%nat then vat d i else 0
  | ENull _ _ => fun _ _ => 0
  | EIdentity _ a => fun i j => if (i =? j)%nat then a else 0
  | EStep M K facS facM _ => fun i j => facM * meaning M i j + facS * meaning K i j
  | EMultiply A f => fun i j => f * meaning A i j
  | EProduct A B _ => mm (snd (dims A)) (meaning A) (meaning B)
  | ETranspose A => mt (meaning A)
  | EBlock rows _ => above (map (fun row => (hd O (map (fun e => fst (dims e)) row), beside (map (fun e => (snd (dims e), meaning e)) row))) rows)
  | ESum ops coeffs _ => fun i j => suml (map (fun p => fst p * snd p i j) (combine coeffs (map meaning ops)))
  end.

(** The scratch vectors of an operator and of its parts. *)
Fixpoint scratch (e : expr) : list nat :=
  match e with
  | EStep M K _ _ z => z :: scratch M ++ scratch K
  | EMultiply A _ => scratch A
  | EProduct A B t => t :: scratch A ++ scratch B
  | ETranspose A => scratch A
  | EBlock rows t => t :: concat (map (fun row => concat (map scratch row)) rows)
  | ESum ops _ z => z :: concat (map scratch ops)
  | _ => []
  end.
Fixpoint all (l : list Prop) : Prop := match l with [] => True | P :: r => P /\ all r end.
(** Matrices are stored consistently, shapes fit, and the scratch vector of an operator (of length [lens]) is long
    enough and not one of its parts'. *)
Fixpoint ok (lens : nat -> nat) (e : expr) : Prop :=
  match e with
  | ECSR A => wf_csr (fst (dims e)) (snd (dims e)) A
  | ESSS A => wf_sss (fst (dims e)) A
  | EDense A => wf_dense (d_n A) (d_m A) A
  | EDiag _ | ENull _ _ | EIdentity _ _ => True
  | EStep M K _ _ z => ok lens M /\ ok lens K /\ dims K = dims M /\ (fst (dims M) <= lens z)%nat /\ ~ In z (scratch M ++ scratch K)
  | EMultiply A _ | ETranspose A => ok lens A
  | EProduct A B t => ok lens A /\ ok lens B /\ snd (dims A) = fst (dims B) /\ (snd (dims A) <= lens t)%nat /\ ~ In t (scratch A ++ scratch B)
  | EBlock rows t =>
      all (map (fun row => all (map (ok lens) row)) rows) /\ rows <> [] /\ ~ In [] rows /\
      (forall row row', In row rows -> In row' rows -> map (fun e => snd (dims e)) row = map (fun e => snd (dims e)) row') /\
      (forall row e e', In row rows -> In e row -> In e' row -> fst (dims e) = fst (dims e')) /\
      (fst (dims e) <= lens t)%nat /\ ~ In t (concat (map (fun row => concat (map scratch row)) rows))
  | ESum ops coeffs z =>
      all (map (ok lens) ops) /\ ops <> [] /\ length coeffs = length ops /\ (forall e', In e' ops -> dims e' = dims e) /\
      (fst (dims e) <= lens z)%nat /\ ~ In z (concat (map scratch ops))
  end.

(** Which products an operator offers: transposed or not ([tr]), added to the output or not ([add]). *)
Definition square (e : expr) : bool := (fst (dims e) =? snd (dims e))%nat.
Definition is (a b : Qc) : bool := Qc_eq_bool a b.
Fixpoint offers (e : expr) (tr add : bool) : bool :=
  match e with
  | ECSR _ | ESSS _ => true
  | EDense _ => negb (tr && add) || square e
  | EDiag _ | ENull _ _ | EIdentity _ _ => negb tr
  | EStep M K facS facM _ =>
      let part O fac := if is fac 1 then offers O tr true else if is fac 0 then true else offers O tr false && (negb tr || square e) in
      if add then part K facS && part M facM
      else if is facS 0 then negb tr && offers M false false
      else offers K tr false && (if is facM 1 then offers M tr true else offers M tr false && (negb tr || square e))
  | EMultiply A f => if add && is f 0 then true else offers A tr add
  | EProduct A B _ => if tr then offers A true false && offers B true add else offers B false false && offers A false add
  | ETranspose A => negb tr && offers A true add
  | EBlock rows _ => negb tr && negb add && forallb (fun b => b) (map (fun row => forallb (fun b => b) (map (fun e => offers e false false) row)) rows)
  | ESum ops _ _ => forallb (fun b => b) (map (fun e => offers e tr false) ops) && (if tr then square e else negb add)
  end.
(** The diagonal is offered by all but products and block operators. *)
Fixpoint offers_diagonal (e : expr) : Prop :=
  match e with
  | ECSR A => nodup_csr (fst (dims e)) A
  | ESSS _ | EDense _ | EDiag _ | ENull _ _ => True
  | EIdentity _ a => a = 1
  | EStep M K _ _ _ => offers_diagonal M /\ offers_diagonal K
  | EMultiply A _ | ETranspose A => offers_diagonal A
  | EProduct _ _ _ | EBlock _ _ => False
  | ESum ops _ _ => all (map offers_diagonal ops)
  end.

(** A view lies inside of its buffer. *)
Definition inside (h : heap) (v : view) : Prop := (v_off v + v_len v <= length (nth (v_buf v) h []))%nat.
Definition touches (v : view) (id k : nat) : Prop := id = v_buf v /\ (v_off v <= k < v_off v + v_len v)%nat.
(** From h to h' only cells in W change. *)
Definition only (h h' : heap) (W : nat -> nat -> Prop) : Prop :=
  (forall id, length (nth id h' []) = length (nth id h [])) /\
  forall id k, ~ W id k -> nth_error (nth id h' []) k = nth_error (nth id h []) k.
(** The input vector xs, in a view of its own; the output vector, of which the contents ys matter
    if something is added to it. *)
Definition arguments (lens : nat -> nat) (T : list nat) (n m : nat) (add : bool) (x y : view) (xs ys : list Qc) (h : heap) : Prop :=
  (forall id, In id T -> (lens id <= length (nth id h []))%nat) /\ v_len x = m /\ v_len y = n /\ inside h x /\ inside h y /\
  contents h x = map Some xs /\ (add = true -> contents h y = map Some ys) /\ ~ In (v_buf x) T /\ ~ In (v_buf y) T /\ v_buf x <> v_buf y.
(** The n x m operator o writes (or adds) the product with A to the output, using scratch vectors T. *)
Definition performs (lens : nat -> nat) (T : list nat) (n m : nat) (A : mat) (add : bool) (f : view -> view -> heap -> res heap) : Prop :=
  forall x y xs ys h, arguments lens T n m add x y xs ys h ->
  exists h', f x y h = Ok h' /\ contents h' y = map Some (tab n (fun i => (if add then vat ys i else 0) + mv m A (vat xs) i)) /\
    only h h' (fun id k => In id T \/ touches y id k).
(** f stores b - A x, or b if a simple residual is asked for (x = 0). *)
Definition computes_residual (lens : nat -> nat) (T : list nat) (n m : nat) (A : mat) (f : view -> view -> view -> bool -> heap -> res heap) : Prop :=
  forall x rhs r xs bs h simple, arguments lens T n m false x r xs [] h ->
  v_len rhs = n -> inside h rhs -> contents h rhs = map Some bs -> ~ In (v_buf rhs) T -> v_buf rhs <> v_buf r ->
  exists h', f x rhs r simple h = Ok h' /\
    contents h' r = map Some (tab n (fun i => if simple then vat bs i else vat bs i - mv m A (vat xs) i)) /\
    only h h' (fun id k => In id T \/ touches r id k).
(** Expressions without block operators, sums of many terms, and transposes. *)
Fixpoint algebraic (e : expr) : bool :=
  match e with
  | ECSR _ | ESSS _ | EDense _ | EDiag _ | ENull _ _ | EIdentity _ _ => true
  | EStep M K _ _ _ => algebraic M && algebraic K
  | EMultiply A _ => algebraic A
  | EProduct A B _ => algebraic A && algebraic B
  | _ => false
  end.
