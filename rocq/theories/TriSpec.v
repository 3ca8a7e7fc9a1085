(** Triangular factors and permutations: specification vocabulary of C11, C12. *)
From Coq Require Import Permutation.
From Verif Require Import Util Lin CSRSpec.

(** Entry (i, j) of a matrix stored by columns. *)
Definition colmat (ip ind : list nat) (dat : list Qc) : mat := fun i j => ent (rowlist ip ind dat j) i.
(** Entry (i, j) of a matrix stored by rows. *)
Definition rowmat (ip ind : list nat) (dat : list Qc) : mat := fun i j => ent (rowlist ip ind dat i) j.

(** Columns of a lower triangular factor: non-zero diagonal entry first, then
    entries below the diagonal. *)
Definition lower_cols (n : nat) (ip ind : list nat) (dat : list Qc) : Prop :=
  wf_rows n n ip ind dat /\
  forall j, j < n -> exists d rest, rowlist ip ind dat j = (j, d) :: rest /\ d <> 0%Qc /\ forall p, In p rest -> j < fst p.

(** Columns of an upper triangular factor: entries above the diagonal, then the
    non-zero diagonal entry. *)
Definition upper_cols (n : nat) (ip ind : list nat) (dat : list Qc) : Prop :=
  wf_rows n n ip ind dat /\
  forall j, j < n -> exists d rest, rowlist ip ind dat j = rest ++ [(j, d)] /\ d <> 0%Qc /\ forall p, In p rest -> fst p < j.

(** Rows with a non-zero diagonal entry followed by the entries above the
    diagonal; what is stored before the diagonal entry is arbitrary. *)
Definition diag_rows (n : nat) (ip ind : list nat) (dat : list Qc) : Prop :=
  wf_rows n n ip ind dat /\
  forall i, i < n -> exists d pre rest, rowlist ip ind dat i = pre ++ (i, d) :: rest /\ d <> 0%Qc /\
    (forall p, In p pre -> fst p < i) /\ (forall p, In p rest -> i < fst p).

(** Entries strictly below (by columns) resp. above (by rows) the diagonal only. *)
Definition strict_above (n : nat) (ip ind : list nat) (dat : list Qc) : Prop :=
  wf_rows n n ip ind dat /\ forall j p, j < n -> In p (rowlist ip ind dat j) -> j < fst p.

(** Matrix with a diagonal given separately. *)
Definition with_diag (A : mat) (d : nat -> Qc) : mat := fun i j => if i =? j then d i else A i j.

(** The upper triangle including the diagonal. *)
Definition upper_part (A : mat) : mat := fun i j => if i <=? j then A i j else 0%Qc.

(** x is the only solution of A x = b. *)
Definition is_solution (n : nat) (A : mat) (b x : list Qc) : Prop :=
  length x = n /\ forall i, i < n -> mv n A (vat x) i = vat b i.
Definition the_solution (n : nat) (A : mat) (b x : list Qc) : Prop :=
  forall z, is_solution n A b z <-> z = x.

(** A permutation of 0, ..., n-1. *)
Definition is_perm (n : nat) (p : list nat) : Prop := Permutation (seq 0 n) p.

(** Square root of rationals, exact when numerator and denominator are squares. *)
Definition rat_sqrt (q : Qc) : Qc :=
  Q2Qc (Qmake (Z.sqrt (Qnum (this q))) (Pos.sqrt (Qden (this q)))).
