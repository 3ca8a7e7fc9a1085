(** Vectors and matrices of the whole, and how ranks hold them. *)
From Verif Require Import Util Lin OverlapModel OverlapSpec.
Local Open Scope nat_scope.

(** [glob p] lists the degrees of freedom 0, ..., N-1 of the whole that rank p has. The overlaps
    are consistent with it if p and q share those that both of them have. *)
Definition at_ (glob : nat -> list nat) (p i : nat) : nat := nth i (glob p) 0.
Record consistent (P N : nat) (size : nat -> nat) (mgr : nat -> manager) (glob : nat -> list nat) : Prop := Consistent {
  con_valid : valid P size mgr;
  con_size : forall p, p < P -> length (glob p) = size p;
  con_once : forall p, p < P -> NoDup (glob p);
  con_range : forall p I, p < P -> In I (glob p) -> I < N;
  con_cover : forall I, I < N -> exists p, p < P /\ In I (glob p);
  con_shared : forall p q, p < P -> q < P -> NoDup (shared mgr p q);
  con_same : forall p q, p < P -> q < P -> map (at_ glob p) (shared mgr p q) = map (at_ glob q) (shared mgr q p);
  con_all : forall p q I, p < P -> q < P -> p <> q -> In I (glob p) -> In I (glob q) -> In I (map (at_ glob p) (shared mgr p q)) }.

(** The parts of a vector of the whole: every rank has the values of its degrees of freedom *)
Definition restricted (glob : nat -> list nat) (x : nat -> Qc) (p : nat) : list Qc := map x (glob p).
(** The whole of which every rank has a summand *)
Definition assembled (P : nat) (glob : nat -> list nat) (v : nat -> list Qc) (I : nat) : Qc :=
  sumf P (fun q => sumf (length (glob q)) (fun j => if at_ glob q j =? I then vat (v q) j else 0%Qc)).
(** v is the vector x of the whole, accumulated or distributed *)
Definition represents (P N : nat) (glob : nat -> list nat) (acc : bool) (v : nat -> list Qc) (x : nat -> Qc) : Prop :=
  if acc then forall p, p < P -> v p = restricted glob x p
  else forall I, I < N -> assembled P glob v I = x I.
(** The matrix of the whole of which every rank has a summand *)
Definition assembled_matrix (P : nat) (glob : nat -> list nat) (A : nat -> mat) : mat := fun I J =>
  sumf P (fun q => sumf (length (glob q)) (fun i => sumf (length (glob q)) (fun j =>
    if (at_ glob q i =? I) && (at_ glob q j =? J) then A q i j else 0%Qc))).
(** The number of ranks that have I *)
Definition multiplicity (P : nat) (glob : nat -> list nat) (I : nat) : nat :=
  length (filter (fun p => existsb (Nat.eqb I) (glob p)) (seq 0 P)).

(** All orders in which the ranks run prog from x and the messages arrive: nothing fails, some rank or
    message can proceed until all are done, the number of steps is bounded, and rank p ends
    with a memory for which [post p] holds *)
Definition always (P : nat) (mgr : nat -> manager) (prog : list round) (x : nat -> mem) (post : nat -> mem -> Prop) : Prop :=
  exists bound, forall buffered n w, runs P mgr buffered n (start mgr prog x) w ->
    n <= bound /\ ~ fails P mgr w /\ (finished P w \/ exists w', step P mgr buffered w w') /\
    forall p, p < P -> r_ops (w_rank w p) = [] -> post p (r_mem (w_rank w p)).
