(** Integrals over a simplex, without reference to how the code computes them. *)
From Verif Require Import Util Lin MeshSpec.
Local Open Scope Qc_scope.

(** ** Polynomials in n variables

    A polynomial in n+1 variables is the list of its coefficients with respect to the last
    variable, which are polynomials in the first n. *)
Fixpoint poly (n : nat) : Type :=
  match n with
  | O => Qc
  | S n => list (poly n)
  end.
(** The value at a point. *)
Fixpoint value (n : nat) : poly n -> (nat -> Qc) -> Qc :=
  match n with
  | O => fun p x => p
  | S n => fun p x => fold_right (fun c v => value n c x + x n * v) 0 p
  end.

Fixpoint pconst (n : nat) (c : Qc) : poly n :=
  match n with
  | O => c
  | S n => [pconst n c]
  end.
(** Variable k, for k < n. *)
Fixpoint pvar (n k : nat) : poly n :=
  match n with
  | O => 0
  | S n => if (k =? n)%nat then [pconst n 0; pconst n 1] else [pvar n k]
  end.
Fixpoint zip {A} (f : A -> A -> A) (l l' : list A) : list A :=
  match l, l' with
  | [], _ => l'
  | _, [] => l
  | a :: l, a' :: l' => f a a' :: zip f l l'
  end.
Fixpoint padd (n : nat) : poly n -> poly n -> poly n :=
  match n with
  | O => Qcplus
  | S n => zip (padd n)
  end.
Fixpoint pscale (n : nat) (a : Qc) : poly n -> poly n :=
  match n with
  | O => Qcmult a
  | S n => map (pscale n a)
  end.
Fixpoint pmul (n : nat) : poly n -> poly n -> poly n :=
  match n with
  | O => Qcmult
  | S n => fun p q => fold_right (fun c r => zip (padd n) (map (pmul n c) q) (pconst n 0 :: r)) [] p
  end.

(** The partial derivative with respect to variable k. *)
Fixpoint index_scale (n i : nat) (p : list (poly n)) : list (poly n) :=
  match p with
  | [] => []
  | c :: p => pscale n (qz (Z.of_nat i)) c :: index_scale n (S i) p
  end.
Fixpoint pderiv (n k : nat) : poly n -> poly n :=
  match n with
  | O => fun p => 0
  | S n => fun p => if (k =? n)%nat then index_scale n 1 (skipn 1 p) else map (pderiv n k) p
  end.

(** The antiderivative with respect to the last variable that vanishes at 0. *)
Fixpoint index_divide (n i : nat) (p : list (poly n)) : list (poly n) :=
  match p with
  | [] => []
  | c :: p => pscale n (/ qz (Z.of_nat i)) c :: index_divide n (S i) p
  end.
Definition primitive (n : nat) (p : poly (S n)) : poly (S n) := pconst n 0 :: index_divide n 1 p.
(** The value of a polynomial when a polynomial is put for the last variable. *)
Definition subst (n : nat) (p : poly (S n)) (r : poly n) : poly n :=
  fold_right (fun c v => padd n c (pmul n r v)) (pconst n 0) p.

(** 1 - x_0 - ... - x_(n-1) *)
Fixpoint rest (n : nat) : poly n :=
  match n with
  | O => 1
  | S n => [rest n; pconst n (- (1))]
  end.
(** The integral over the reference simplex x_k >= 0, x_0 + ... + x_(n-1) <= 1: the last
    variable runs from 0 to 1 - x_0 - ... - x_(n-2), and so on. *)
Fixpoint integral (n : nat) : poly n -> Qc :=
  match n with
  | O => fun p => p
  | S n => fun p => integral n (subst n (primitive n p) (rest n))
  end.

(** The degree is at most k. *)
Fixpoint pzero (n : nat) : poly n -> bool :=
  match n with
  | O => fun p => Qc_eq_bool p 0
  | S n => forallb (pzero n)
  end.
Fixpoint deg_le (n : nat) : nat -> poly n -> bool :=
  match n with
  | O => fun k p => true
  | S n => fun k p =>
      (fix go (k : nat) (p : list (poly n)) : bool :=
         match p, k with
         | [], _ => true
         | c :: p, O => deg_le n 0 c && forallb (pzero n) p
         | c :: p, S k' => deg_le n k c && go k' p
         end) k p
  end.

(** ** The simplex with corners vs, in as many dimensions as it has edges at a corner *)

(** Barycentric coordinates of a point of the reference simplex. *)
Definition bary (d : nat) (x : nat -> Qc) : list Qc := (1 - sumf d x) :: tab d x.
Definition pbary (d i : nat) : poly d := match i with O => rest d | S k => pvar d k end.

(** p is the function f of the barycentric coordinates. *)
Definition represents (d : nat) (p : poly d) (f : list Qc -> Qc) : Prop := forall x, value d p x = f (bary d x).

(** The determinant of the map from the reference simplex. *)
Definition det (d : nat) (vs : list (list Qc)) : Qc :=
  match d with 1%nat => len1 vs | 2%nat => area2 vs | 3%nat => vol6 vs | _ => 0 end.
(** Positive value of a number. *)
Definition magnitude (a b : Qc) : Prop := (0 <= a)%Qc /\ (a = b \/ a = - b).
Definition is_simplex (d : nat) (vs : list (list Qc)) : Prop :=
  length vs = S d /\ (forall v, In v vs -> length v = d) /\ det d vs <> 0.

(** gs are the gradients of the barycentric coordinates 1, ..., d: coordinate k changes by
    1 from corner 0 to corner k and not at all from corner 0 to another corner. *)
Definition vdot (d : nat) (v w : list Qc) : Qc := dotf d (vat v) (vat w).
Definition gradients_of (d : nat) (vs gs : list (list Qc)) : Prop :=
  length gs = d /\ (forall g, In g gs -> length g = d) /\
  forall k m, (k < d)%nat -> (m < d)%nat ->
    dotf d (vat (nth k gs [])) (fun j => vat (nth (S m) vs []) j - vat (nth 0 vs []) j) = if (k =? m)%nat then 1 else 0.
(** The gradients of all barycentric coordinates, which add up to 1. *)
Definition all_gradients (d : nat) (gs : list (list Qc)) : list (list Qc) :=
  tab d (fun j => - sumf d (fun k => vat (nth k gs []) j)) :: gs.

(** Integrals over the simplex of the product of two functions and of their gradients. J
    is the absolute value of the determinant; the gradient of p is the sum over k of the
    derivative with respect to x_k times g_k. *)
Definition mass_entry (d : nat) (J : Qc) (p q : poly d) : Qc := J * integral d (pmul d p q).
Definition stiffness_entry (d : nat) (J : Qc) (gs : list (list Qc)) (p q : poly d) : Qc :=
  J * sumf d (fun k => sumf d (fun m =>
    vdot d (nth k gs []) (nth m gs []) * integral d (pmul d (pderiv d k p) (pderiv d m q)))).

(** The upper triangle of a symmetric matrix, row by row. *)
Fixpoint upper_triangle {A B} (f : A -> A -> B) (ps : list A) : list B :=
  match ps with
  | [] => []
  | p :: qs => map (f p) (p :: qs) ++ upper_triangle f qs
  end.
(** A full matrix, row by row. *)
Definition full_matrix {A B C} (f : A -> B -> C) (ps : list A) (qs : list B) : list C := flat_map (fun p => map (f p) qs) ps.

(** Lagrange basis: polynomials of degree at most k, each 1 at its node and 0 at the
    others. Nodes are given by barycentric coordinates. *)
Definition point_of (l : list Qc) : nat -> Qc := fun k => vat l (S k).
Definition lagrange_basis (d k : nat) (nodes : list (list Qc)) (ps : list (poly d)) : Prop :=
  length ps = length nodes /\
  (forall p, In p ps -> deg_le d k p = true) /\
  (forall nd, In nd nodes -> length nd = S d /\ suml nd = 1) /\
  (forall i j, (i < length ps)%nat -> (j < length nodes)%nat ->
     value d (nth i ps (pconst d 0)) (point_of (nth j nodes [])) = if (i =? j)%nat then 1 else 0).

(** The functions fs of the barycentric coordinates are the polynomials ps. *)
Definition functions (d : nat) (fs : list (list Qc -> Qc)) (ps : list (poly d)) : Prop := Forall2 (fun f p => represents d p f) fs ps.

(** Vector fields: sums over the barycentric coordinates k = 0, ..., d of a polynomial
    times the gradient of coordinate k. *)
Definition field_product (d : nat) (J : Qc) (gs : list (list Qc)) (v w : list (poly d)) : Qc :=
  J * sumf (S d) (fun k => sumf (S d) (fun m =>
    vdot d (nth k (all_gradients d gs) []) (nth m (all_gradients d gs) []) *
    integral d (pmul d (nth k v (pconst d 0)) (nth m w (pconst d 0))))).
Definition field_value (d : nat) (gs : list (list Qc)) (v : list (poly d)) (x : nat -> Qc) : list Qc :=
  tab d (fun j => sumf (S d) (fun k => value d (nth k v (pconst d 0)) x * vat (nth k (all_gradients d gs) []) j)).
(** In the plane: a x b, and the curl, the sum of the grad(p_k) x g_k. *)
Definition cross2 (a b : list Qc) : Qc := vat a 0 * vat b 1 - vat a 1 * vat b 0.
Definition curl2 (gs : list (list Qc)) (v : list (poly 2)) : poly 2 :=
  fold_right (padd 2) (pconst 2 0)
    (flat_map (fun k => map (fun m =>
       pscale 2 (cross2 (nth m gs []) (nth k (all_gradients 2 gs) [])) (pderiv 2 m (nth k v (pconst 2 0)))) (seq 0 2)) (seq 0 3)).
Definition curl_product (J : Qc) (gs : list (list Qc)) (v w : list (poly 2)) : Qc := J * integral 2 (pmul 2 (curl2 gs v) (curl2 gs w)).

(** The derivative of barycentric coordinate j in the direction b, integrated against p. *)
Definition drift_entry (d : nat) (J : Qc) (gs : list (list Qc)) (b : list Qc) (p : poly d) (j : nat) : Qc :=
  J * integral d p * vdot d b (nth j (all_gradients d gs) []).

(** The field of lowest order of Nedelec on the edge from corner i to corner j, or its
    opposite: (grad(l_j) l_i - grad(l_i) l_j) / 2. *)
Definition edge_field (s : Qc) (i j : nat) : list (poly 2) :=
  tab 3 (fun k => if (k =? j)%nat then pscale 2 (s * Q2Qc (1 # 2)) (pbary 2 i)
                  else if (k =? i)%nat then pscale 2 (- s * Q2Qc (1 # 2)) (pbary 2 j) else pconst 2 0).
(** Edges point from the vertex with the smaller number to the one with the larger. *)
Definition edge_sign (cell : list nat) (i j : nat) : Qc := if (nth j cell 0 <? nth i cell 0)%nat then - (1) else 1.
Definition edge_fields (cell : list nat) : list (list (poly 2)) :=
  map (fun e => edge_field (edge_sign cell (fst e) (snd e)) (fst e) (snd e)) [(0, 1); (1, 2); (2, 0)]%nat.

(** The mean of the corners. *)
Definition centroid (d : nat) (vs : list (list Qc)) : list Qc := tab d (fun j => suml (map (fun v => vat v j) vs) / qz (Z.of_nat (S d))).

(** The matrices of the functions fs, and fs' for the columns, on a simplex. That all
    polynomials that stand for the same functions give the same matrix is part of the
    statement. *)
Definition is_mass_matrix (d : nat) (J : Qc) (fs : list (list Qc -> Qc)) (m : list Qc) : Prop :=
  (exists ps, functions d fs ps) /\ forall ps, functions d fs ps -> m = upper_triangle (mass_entry d J) ps.
Definition is_mixed_mass_matrix (d : nat) (J : Qc) (fs fs' : list (list Qc -> Qc)) (m : list Qc) : Prop :=
  (exists ps qs, functions d fs ps /\ functions d fs' qs) /\
  forall ps qs, functions d fs ps -> functions d fs' qs -> m = full_matrix (mass_entry d J) ps qs.
Definition is_stiffness_matrix (d : nat) (J : Qc) (vs : list (list Qc)) (fs : list (list Qc -> Qc)) (m : list Qc) : Prop :=
  (exists ps gs, functions d fs ps /\ gradients_of d vs gs) /\
  forall ps gs, functions d fs ps -> gradients_of d vs gs -> m = upper_triangle (stiffness_entry d J gs) ps.
