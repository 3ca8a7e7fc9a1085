(** Boundaries of simplicial meshes. *)
From Coq Require Import Permutation.
From Verif Require Import Util Lin.

(** Cells of k different vertices with numbers that fit into 31 bits. *)
Definition cells_of (k : nat) (C : list (list nat)) : Prop :=
  forall c, In c C -> length c = k /\ NoDup c /\ forall v, In v c -> (Z.of_nat v < 2147483648)%Z.

(** The number of cells that have all of the vertices f. *)
Definition contains (f c : list nat) : bool := forallb (fun v => existsb (Nat.eqb v) c) f.
Definition cells_with (C : list (list nat)) (f : list nat) : nat := length (filter (contains f) C).

(** B lists, each once, the sets of n vertices that belong to an odd number of
    cells. *)
Definition lists_odd (n : nat) (C B : list (list nat)) : Prop :=
  (forall f, In f B -> length f = n /\ NoDup f) /\
  (forall f, length f = n -> NoDup f -> ((exists h, In h B /\ Permutation f h) <-> Nat.Odd (cells_with C f))) /\
  (forall i j f h, nth_error B i = Some f -> nth_error B j = Some h -> Permutation f h -> i = j).

(** No n vertices belong to more than two cells. *)
Definition manifold (n : nat) (C : list (list nat)) : Prop :=
  forall f, length f = n -> NoDup f -> cells_with C f <= 2.

(** A set is iterated in some order. *)
Definition some_order {A} (order : list A -> list A) : Prop := forall l, Permutation l (order l).

(** b comes after a in the cyclic order of the triangle c. *)
Definition follows (c : list nat) (a b : nat) : Prop :=
  exists x, c = [a; b; x] \/ c = [x; a; b] \/ c = [b; x; a].

(** Normal of the triangle pqr, and the vector from the tetrahedron's centre to the
    triangle's centre, times 12. *)
Definition normal (p q r : list Qc) (k : nat) : Qc :=
  let x := fun j => (vat q j - vat p j)%Qc in
  let y := fun j => (vat r j - vat p j)%Qc in
  match k with
  | 0%nat => (x 1%nat * y 2%nat - x 2%nat * y 1%nat)%Qc
  | 1%nat => (x 2%nat * y 0%nat - x 0%nat * y 2%nat)%Qc
  | _ => (x 0%nat * y 1%nat - x 1%nat * y 0%nat)%Qc
  end.
Definition outwards (p q r s : list Qc) (k : nat) : Qc := (vat p k + vat q k + vat r k - (1 + 1 + 1) * vat s k)%Qc.

(** The triangle pqr of the tetrahedron with fourth corner s is oriented
    outwards. *)
Definition oriented_outwards (p q r s : list Qc) : Prop := (0 < dotf 3 (normal p q r) (outwards p q r s))%Qc.
