(** What the sub-simplices of an interaction domain should be, in barycentric
    coordinates of the simplex: a point is given by its coordinates l 0 .. l (n-1). *)
From Verif Require Import LinR.
Open Scope R_scope.
Set Default Proof Using "Type".

Definition bary (n : nat) (l : nat -> R) : Prop := (forall i, (i < n)%nat -> 0 <= l i) /\ rsum n l = 1.
(** Coordinate k of the point, and the square of its distance from x. *)
Definition at_bary (n : nat) (T : list (list R)) (l : nat -> R) (k : nat) : R := rsum n (fun i => l i * nth k (nth i T []) 0).
Definition far2 (dim n : nat) (x : list R) (T : list (list R)) (l : nat -> R) : R :=
  rsum dim (fun k => (at_bary n T l k - nth k x 0) ^ 2).
Definition corner (i : nat) : nat -> R := fun j => if (j =? i)%nat then 1 else 0.
(** The points of the sub-simplex with affine map m |-> A m + b, and those in its interior. *)
Definition image (n : nat) (A : nat -> nat -> R) (b : nat -> R) (m l : nat -> R) : Prop :=
  forall i, (i < n)%nat -> l i = rsum n (fun j => A i j * m j) + b i.
Definition covers (n : nat) (A : nat -> nat -> R) (b : nat -> R) (l : nat -> R) : Prop := exists m, bary n m /\ image n A b m l.
Definition strictly_covers (n : nat) (A : nat -> nat -> R) (b : nat -> R) (l : nat -> R) : Prop :=
  exists m, bary n m /\ (forall j, (j < n)%nat -> 0 < m j) /\ image n A b m l.
(** Convex hull of a set of points. *)
Definition hull (n : nat) (K : (nat -> R) -> Prop) (l : nat -> R) : Prop :=
  exists ps : list (R * (nat -> R)),
    Forall (fun p => 0 <= fst p /\ K (snd p)) ps /\
    fold_right (fun p s => fst p + s) 0 ps = 1 /\
    forall i, (i < n)%nat -> l i = fold_right (fun p s => fst p * snd p i + s) 0 ps.
Definition det (n : nat) (M : nat -> nat -> R) : R :=
  match n with
  | 2%nat => M 0%nat 0%nat * M 1%nat 1%nat - M 0%nat 1%nat * M 1%nat 0%nat
  | _ => M 0%nat 0%nat * M 1%nat 1%nat * M 2%nat 2%nat + M 0%nat 1%nat * M 1%nat 2%nat * M 2%nat 0%nat + M 0%nat 2%nat * M 1%nat 0%nat * M 2%nat 1%nat
         - M 0%nat 2%nat * M 1%nat 1%nat * M 2%nat 0%nat - M 0%nat 1%nat * M 1%nat 0%nat * M 2%nat 2%nat - M 0%nat 0%nat * M 1%nat 2%nat * M 2%nat 1%nat
  end.
(** A sub-simplex: its corners are points of the simplex, and vol is its share of the volume. *)
Definition sub_simplex (n : nat) (A : nat -> nat -> R) (b : nat -> R) (vol : R) : Prop :=
  (forall j, (j < n)%nat -> bary n (fun i => A i j + b i)) /\ vol = Rabs (det n (fun i j => A i j + b i)).
(** The sub-simplices make up the set without overlap. *)
Definition subdivision (n : nat) (subs : list ((nat -> nat -> R) * (nat -> R) * R)) (S : (nat -> R) -> Prop) : Prop :=
  (forall A b vol, In (A, b, vol) subs -> sub_simplex n A b vol) /\
  (forall l, bary n l -> ((exists A b vol, In (A, b, vol) subs /\ covers n A b l) <-> S l)) /\
  (forall i j s s', (i < j)%nat -> nth_error subs i = Some s -> nth_error subs j = Some s' ->
     forall l, ~ (strictly_covers n (fst (fst s)) (snd (fst s)) l /\ strictly_covers n (fst (fst s')) (snd (fst s')) l)).
Definition linear_subs (subs : list ((nat -> nat -> R) * R)) : list ((nat -> nat -> R) * (nat -> R) * R) :=
  map (fun s => (fst s, fun _ => 0, snd s)) subs.

(** Corners of the triangle in the ball, and the points where the circle crosses its edges. *)
Definition cut_points (x : list R) (T : list (list R)) (h2 : R) (l : nat -> R) : Prop :=
  bary 3 l /\ ((far2 2 3 x T l <= h2 /\ exists i, (i < 3)%nat /\ l i = 1) \/
               (far2 2 3 x T l = h2 /\ exists i, (i < 3)%nat /\ l i = 0)).
Definition triangle (T : list (list R)) : Prop :=
  length T = 3%nat /\ (forall v, In v T -> length v = 2%nat) /\ NoDup T.
(** Square of the distance of two points, and the point with given coordinates. *)
Definition sep2 (dim : nat) (v w : list R) : R := rsum dim (fun k => (nth k v 0 - nth k w 0) ^ 2).
Definition the_point (dim n : nat) (T : list (list R)) (l : nat -> R) : list R := map (at_bary n T l) (seq 0 dim).
(** Corner i of T1 sees a corner of T2. *)
Definition sees (T1 T2 : list (list R)) (h2 : R) (i : nat) : Prop := exists w, In w T2 /\ far2 2 3 w T1 (corner i) <= h2.
(** The corners of T1 that see a corner of T2; and on every edge from such a corner i
    to one that sees none, the farthest point that is within the horizon of a corner
    of T2 seen from i. *)
Definition reach_points (T1 T2 : list (list R)) (h2 : R) (l : nat -> R) : Prop :=
  bary 3 l /\
  ((exists i, (i < 3)%nat /\ l i = 1 /\ sees T1 T2 h2 i) \/
   (exists i o, (i < 3)%nat /\ (o < 3)%nat /\ l i + l o = 1 /\ sees T1 T2 h2 i /\ ~ sees T1 T2 h2 o /\
      (exists w, In w T2 /\ far2 2 3 w T1 (corner i) <= h2 /\ far2 2 3 w T1 l = h2) /\
      (forall w, In w T2 -> far2 2 3 w T1 (corner i) <= h2 -> h2 <= far2 2 3 w T1 l))).
