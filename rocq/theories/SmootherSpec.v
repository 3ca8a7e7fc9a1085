(** Vocabulary for the smoothers: C18, C19. *)
From Verif Require Import Util Lin CSRModel CSRSpec TriSpec.

(** D/omega + L and D/omega + U, L and U being the strict triangles of A. *)
Definition lower_split (A : mat) (D : list Qc) (omega : Qc) : mat :=
  fun i j => if j <? i then A i j else if j =? i then (vat D i / omega)%Qc else 0%Qc.
Definition upper_split (A : mat) (D : list Qc) (omega : Qc) : mat :=
  fun i j => if i <? j then A i j else if j =? i then (vat D i / omega)%Qc else 0%Qc.
Definition split_of (forward : bool) := if forward then lower_split else upper_split.

(** A linear combination of two matrices. *)
Definition mlin (a : Qc) (A : mat) (b : Qc) (B : mat) : mat := fun i j => (a * A i j + b * B i j)%Qc.

Definition symmetric (n : nat) (A : mat) : Prop := forall i j, i < n -> j < n -> A i j = A j i.

(** b - A x *)
Definition resid (n : nat) (A : mat) (b x : list Qc) : list Qc :=
  tab n (fun i => vat b i - mv n A (vat x) i)%Qc.

(** One Gauss-Seidel sweep from x to y: at the moment row i is treated, the rows
    before it (in sweep order) and row i hold new values, the others old ones,
    and the equation of row i is satisfied. *)
Definition gs_sweep (forward : bool) (n : nat) (A : mat) (b x y : list Qc) : Prop :=
  length y = n /\
  forall i, i < n ->
    mv n A (fun j => if (if forward then j <=? i else i <=? j) then vat y j else vat x j) i = vat b i.

(** k steps of a relation. *)
Inductive steps {X} (R : X -> X -> Prop) : nat -> X -> X -> Prop :=
| steps_0 x : steps R 0 x x
| steps_S k x y z : R x y -> steps R k y z -> steps R (S k) x z.

(** (I - A/r_1) ... (I - A/r_d) e *)
Fixpoint damp (n : nat) (A : mat) (roots : list Qc) (e : list Qc) : list Qc :=
  match roots with
  | [] => e
  | r :: rs => damp n A rs (tab n (fun i => vat e i - mv n A (vat e) i / r)%Qc)
  end.

Definition vsub (n : nat) (x y : list Qc) : list Qc := tab n (fun i => vat x i - vat y i)%Qc.

(** A preconditioner that computes the function B. *)
Definition computes (n : nat) (prec : list Qc -> buf Qc -> res (buf Qc)) (B : list Qc -> list Qc) : Prop :=
  forall x y, length x = n -> length y = n -> prec x y = Ok (map Some (B x)) /\ length (B x) = n.

(** y = x + B (b - A x) *)
Definition correct_by (n : nat) (A : mat) (b : list Qc) (B : list Qc -> list Qc) (x y : list Qc) : Prop :=
  y = tab n (fun i => vat x i + vat (B (resid n A b x)) i)%Qc.
