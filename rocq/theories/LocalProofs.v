(** Polynomials: values, and the integrals needed for the local matrices. *)
From Verif Require Import Util Lin MeshSpec MeshModel BaryModel LocalModel LocalSpec.
Set Default Proof Using "Type".
Local Open Scope Qc_scope.

(** ** A ring tactic that knows rational constants *)
Ltac qc_cst t :=
  match t with
  | 0 => t
  | 1 => t
  | Q2Qc (?a # ?b) => let u := eval vm_compute in (Z.leb 0 a || true)%bool in match u with true => t end
  | _ => constr:(InitialRing.NotConstant)
  end.
Lemma Qc_ring : ring_theory 0 1 Qcplus Qcmult Qcminus Qcopp (@eq Qc).
Proof. exact Qcrt. Qed.
Add Ring Qc_const_ring : Qc_ring (decidable Qc_eq_bool_correct, constants [qc_cst]).

Lemma qz_q z : qz z = Q2Qc (z # 1).
Proof. reflexivity. Qed.

(** ** Values *)
Lemma value_pconst n c x : value n (pconst n c) x = c.
Proof. induction n; cbn; [reflexivity|rewrite IHn; ring]. Qed.
Lemma value_pvar n k x : (k < n)%nat -> value n (pvar n k) x = x k.
Proof.
  induction n; intros H; [lia|]. cbn. destruct (Nat.eqb_spec k n) as [->|E]; cbn.
  - rewrite !value_pconst. ring.
  - rewrite IHn by lia. ring.
Qed.
Lemma value_zip n (f : poly n -> poly n -> poly n) x :
  (forall p q, value n (f p q) x = value n p x + value n q x) ->
  forall p q, value (S n) (zip f p q) x = value (S n) p x + value (S n) q x.
Proof.
  intros H. cbn [value]. induction p as [|c p IH]; intros [|c' q]; cbn [zip fold_right]; try ring.
  rewrite H, IH. ring.
Qed.
Lemma value_padd n p q x : value n (padd n p q) x = value n p x + value n q x.
Proof.
  revert p q. induction n; intros p q; [reflexivity|].
  change (padd (S n) p q) with (zip (padd n) p q). apply value_zip. auto.
Qed.
Lemma value_map n (f : poly n -> poly n) a x : (forall p, value n (f p) x = a * value n p x) ->
  forall p, value (S n) (map f p) x = a * value (S n) p x.
Proof. intros H. cbn [value]. induction p as [|c p IH]; cbn [map fold_right]; [ring|]. rewrite H, IH. ring. Qed.
Lemma value_pscale n a p x : value n (pscale n a p) x = a * value n p x.
Proof. revert p. induction n; intros p; [reflexivity|]. change (pscale (S n) a p) with (map (pscale n a) p). apply value_map. auto. Qed.
Lemma value_pmul n p q x : value n (pmul n p q) x = value n p x * value n q x.
Proof.
  revert p q. induction n; intros p q; [reflexivity|].
  change (pmul (S n) p q) with (fold_right (fun c r => zip (padd n) (map (pmul n c) q) (pconst n 0 :: r)) [] p).
  induction p as [|c p IH]; [cbn; ring|]. cbn [fold_right].
  rewrite value_zip by (intros; apply value_padd). rewrite (value_map n (pmul n c) (value n c x)) by (intros; apply IHn).
  cbn [value fold_right]. cbn [value] in IH. rewrite IH, value_pconst. ring.
Qed.
Lemma value_rest n x : value n (rest n) x = 1 - sumf n x.
Proof. induction n; cbn; [ring|]. rewrite IHn, value_pconst. ring. Qed.
Lemma value_pbary d i x : (i <= d)%nat -> value d (pbary d i) x = vat (bary d x) i.
Proof.
  intros H. destruct i as [|k]; cbn [pbary].
  - rewrite value_rest. reflexivity.
  - rewrite value_pvar by lia. unfold bary, vat. cbn [nth]. symmetry. fold (vat (tab d x) k). apply vat_tab. lia.
Qed.

(** ** The polynomials of the shape functions *)
Definition polyP1 (d v : nat) : poly d := pbary d v.
Definition polyP2_vertex (d v : nat) : poly d := pmul d (pbary d v) (padd d (pscale d (qz 2) (pbary d v)) (pconst d (- (1)))).
Definition polyP2_edge (d v w : nat) : poly d := pmul d (pscale d (qz 4) (pbary d v)) (pbary d w).
Definition shifted (d v : nat) (c : Qc) : poly d := padd d (pbary d v) (pconst d (- c)).
Definition polyP3_vertex (d v : nat) : poly d :=
  pmul d (pmul d (pscale d (qf 9 2) (pbary d v)) (shifted d v (qf 1 3))) (shifted d v (qf 2 3)).
Definition polyP3_edge (d v w : nat) : poly d :=
  pmul d (pmul d (pscale d (qf 27 2) (pbary d v)) (pbary d w)) (shifted d v (qf 1 3)).
Definition polyP3_face (d u v w : nat) : poly d := pmul d (pmul d (pscale d (qz 27) (pbary d u)) (pbary d v)) (pbary d w).

Definition polysP1 (d : nat) : list (poly d) := map (polyP1 d) (seq 0 (S d)).
Definition polysP2 (d : nat) : list (poly d) :=
  match d with
  | 1%nat => map (polyP2_vertex d) [0; 1]%nat ++ [polyP2_edge d 0 1]
  | 2%nat => map (polyP2_vertex d) [0; 1; 2]%nat ++ [polyP2_edge d 0 1; polyP2_edge d 1 2; polyP2_edge d 0 2]
  | _ => map (polyP2_vertex d) [0; 1; 2; 3]%nat ++
         [polyP2_edge d 0 1; polyP2_edge d 1 2; polyP2_edge d 0 2; polyP2_edge d 0 3; polyP2_edge d 1 3; polyP2_edge d 2 3]
  end.
Definition polysP3 (d : nat) : list (poly d) :=
  match d with
  | 1%nat => map (polyP3_vertex d) [0; 1]%nat ++ [polyP3_edge d 0 1; polyP3_edge d 1 0]
  | 2%nat => map (polyP3_vertex d) [0; 1; 2]%nat ++
         [polyP3_edge d 0 1; polyP3_edge d 1 0; polyP3_edge d 1 2; polyP3_edge d 2 1; polyP3_edge d 2 0; polyP3_edge d 0 2] ++
         [polyP3_face d 0 1 2]
  | _ => map (polyP3_vertex d) [0; 1; 2; 3]%nat ++
         [polyP3_edge d 0 1; polyP3_edge d 1 0; polyP3_edge d 1 2; polyP3_edge d 2 1; polyP3_edge d 2 0; polyP3_edge d 0 2;
          polyP3_edge d 0 3; polyP3_edge d 3 0; polyP3_edge d 1 3; polyP3_edge d 3 1; polyP3_edge d 2 3; polyP3_edge d 3 2] ++
         [polyP3_face d 0 1 2; polyP3_face d 0 1 3; polyP3_face d 1 2 3; polyP3_face d 2 0 3]
  end.

Ltac rep := intros x; rewrite ?value_pmul, ?value_padd, ?value_pscale, ?value_pconst, ?value_pbary by lia.
Lemma rep_P0 d : represents d (pconst d 1) shapeP0.
Proof. rep. reflexivity. Qed.
Lemma rep_P1 d v : (v <= d)%nat -> represents d (polyP1 d v) (shapeP1 v).
Proof. intros H. unfold polyP1. rep. reflexivity. Qed.
Lemma rep_P2v d v : (v <= d)%nat -> represents d (polyP2_vertex d v) (shapeP2_vertex v).
Proof. intros H. unfold polyP2_vertex, shapeP2_vertex. rep. ring. Qed.
Lemma rep_P2e d v w : (v <= d)%nat -> (w <= d)%nat -> represents d (polyP2_edge d v w) (shapeP2_edge v w).
Proof. intros H H'. unfold polyP2_edge, shapeP2_edge. rep. ring. Qed.
Lemma rep_P3v d v : (v <= d)%nat -> represents d (polyP3_vertex d v) (shapeP3_vertex v).
Proof. intros H. unfold polyP3_vertex, shapeP3_vertex, shifted. rep. ring. Qed.
Lemma rep_P3e d v w : (v <= d)%nat -> (w <= d)%nat -> represents d (polyP3_edge d v w) (shapeP3_edge v w).
Proof. intros H H'. unfold polyP3_edge, shapeP3_edge, shifted. rep. ring. Qed.
Lemma rep_P3f d u v w : (u <= d)%nat -> (v <= d)%nat -> (w <= d)%nat -> represents d (polyP3_face d u v w) (shapeP3_face u v w).
Proof. intros H H' H''. unfold polyP3_face, shapeP3_face. rep. ring. Qed.

Lemma functions_P0 d : functions d [shapeP0] [pconst d 1].
Proof. constructor; [apply rep_P0|constructor]. Qed.
Lemma functions_P1 d : functions d (shapesP1 d) (polysP1 d).
Proof.
  unfold shapesP1, polysP1, functions. assert (H : forall v, In v (seq 0 (S d)) -> (v <= d)%nat) by (intros v Hv; apply in_seq in Hv; lia).
  induction (seq 0 (S d)) as [|v l IH]; cbn [map]; constructor; [apply rep_P1, H; left; auto|apply IH; intros; apply H; right; auto].
Qed.
Ltac funs := repeat (apply Forall2_cons; [first [apply rep_P2v|apply rep_P2e|apply rep_P3v|apply rep_P3e|apply rep_P3f]; lia|]); apply Forall2_nil.
Lemma functions_P2 d : (1 <= d <= 3)%nat -> functions d (shapesP2 d) (polysP2 d).
Proof. intros H. destruct d as [|[|[|[|d]]]]; try lia; unfold functions, shapesP2, polysP2; cbn [map app]; funs. Qed.
Lemma functions_P3 d : (1 <= d <= 3)%nat -> functions d (shapesP3 d) (polysP3 d).
Proof. intros H. destruct d as [|[|[|[|d]]]]; try lia; unfold functions, shapesP3, polysP3; cbn [map app]; funs. Qed.

(** ** They are the Lagrange basis *)
Definition qeqb := Qc_eq_bool.
Definition lagrange_check (d k : nat) (nodes : list (list Qc)) (ps : list (poly d)) : bool :=
  (length ps =? length nodes)%nat && forallb (deg_le d k) ps &&
  forallb (fun nd => (length nd =? S d)%nat && qeqb (suml nd) 1) nodes &&
  forallb (fun i => forallb (fun j =>
    qeqb (value d (nth i ps (pconst d 0)) (point_of (nth j nodes []))) (if (i =? j)%nat then 1 else 0)) (seq 0 (length nodes)))
    (seq 0 (length ps)).
Lemma lagrange_check_ok d k nodes ps : lagrange_check d k nodes ps = true -> lagrange_basis d k nodes ps.
Proof.
  unfold lagrange_check. rewrite !andb_true_iff, !forallb_forall. intros (((A & B) & C) & D). split; [apply Nat.eqb_eq, A|]. split; [exact B|]. split.
  - intros nd Hn. specialize (C nd Hn). apply andb_true_iff in C as (C & C'). apply Nat.eqb_eq in C. apply Qc_eq_bool_correct in C'. auto.
  - intros i j Hi Hj. assert (Di := D i (proj2 (in_seq _ _ _) (conj (Nat.le_0_l _) Hi))). rewrite forallb_forall in Di.
    apply Qc_eq_bool_correct. apply Di. apply in_seq. lia.
Qed.
Lemma lagrange_P1 d : (1 <= d <= 3)%nat -> lagrange_basis d 1 (nodesP1 d) (polysP1 d).
Proof. intros H. apply lagrange_check_ok. destruct d as [|[|[|[|d]]]]; try lia; vm_compute; reflexivity. Qed.
Lemma lagrange_P2 d : (1 <= d <= 3)%nat -> lagrange_basis d 2 (nodesP2 d) (polysP2 d).
Proof. intros H. apply lagrange_check_ok. destruct d as [|[|[|[|d]]]]; try lia; vm_compute; reflexivity. Qed.
Lemma lagrange_P3 d : (1 <= d <= 3)%nat -> lagrange_basis d 3 (nodesP3 d) (polysP3 d).
Proof. intros H. apply lagrange_check_ok. destruct d as [|[|[|[|d]]]]; try lia; vm_compute; reflexivity. Qed.

(** ** Tables of integrals *)
Lemma upper_triangle_map {A B C} (F : B -> C) (g : A -> A -> B) ps :
  upper_triangle (fun p q => F (g p q)) ps = map F (upper_triangle g ps).
Proof. induction ps as [|p ps IH]; cbn [upper_triangle]; [reflexivity|]. rewrite map_app, map_map, IH. reflexivity. Qed.
Definition mtab (d : nat) (p q : poly d) : Qc := integral d (pmul d p q).
Definition ktab (d : nat) (p q : poly d) : list Qc :=
  flat_map (fun k => map (fun m => integral d (pmul d (pderiv d k p) (pderiv d m q))) (seq 0 d)) (seq 0 d).
