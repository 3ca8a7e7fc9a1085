(** C52: interaction domains, over the real numbers. *)
From Coq Require Import R_sqrt Psatz.
From Verif Require Import LinR InteractionModel InteractionSpec InteractionProofs InteractionProofs2 InteractionProofs5 InteractionProofs6 InteractionProofs8.
Open Scope R_scope.

(** C52, inner loop in 1D: if no end point is at distance exactly h of x, there is at
    most one sub-interval, and it is the part of the interval within the horizon of x. *)
Theorem C52_node_1d :
  forall a b x h2 : R, a <> b -> (a - x) ^ 2 <> h2 -> (b - x) ^ 2 <> h2 ->
  exists subs, node_1D (ball2 1 h2) [x] [[a]; [b]] = Ok subs /\ (length subs <= 1)%nat /\
    subdivision 2 (linear_subs subs) (fun l => far2 1 2 [x] [[a]; [b]] l <= h2).
Proof. exact node_1D_ok. Qed.
Print Assumptions C52_node_1d.

(** C52, inner loop in 2D: if no corner is at distance exactly h of x, the sub-triangles
    make up the convex hull of the corners within the horizon and the points where the
    circle crosses the edges, without overlap and with the right shares of the area; so
    all of them is within the horizon.  If no corner is within the horizon there are none. *)
Theorem C52_node_2d :
  forall (x : list R) (T : list (list R)) (h2 : R),
  triangle T -> length x = 2%nat -> (forall i, (i < 3)%nat -> far2 2 3 x T (corner i) <> h2) ->
  exists subs, node_2D (ball2 2 h2) x T = Ok subs /\
    ((exists i, (i < 3)%nat /\ far2 2 3 x T (corner i) < h2) -> subdivision 3 (linear_subs subs) (hull 3 (cut_points x T h2))) /\
    ((forall i, (i < 3)%nat -> h2 < far2 2 3 x T (corner i)) -> subs = []) /\
    (forall A b vol l, bary 3 l -> In (A, b, vol) (linear_subs subs) -> covers 3 A b l -> far2 2 3 x T l <= h2).
Proof. exact node_2D_all. Qed.
Print Assumptions C52_node_2d.

(** C52, relative position by the corners. *)
Theorem C52_relative_position :
  forall (dim : nat) (h2 : R) (T1 T2 : list (list R)),
  (forall v, In v T1 \/ In v T2 -> (dim <= length v)%nat) -> T1 <> [] -> T2 <> [] -> 0 <= h2 ->
  exists r, ball2_getRelativePosition dim h2 T1 T2 = Ok r /\
    (r = REMOTE <-> forall v w, In v T1 -> In w T2 -> h2 <= sep2 dim v w) /\
    (r = INTERACT <-> (exists v w, In v T1 /\ In w T2 /\ sep2 dim v w < h2) /\ forall v w, In v T1 -> In w T2 -> sep2 dim v w <= h2) /\
    (r = CUT <-> (exists v w, In v T1 /\ In w T2 /\ sep2 dim v w < h2) /\ exists v w, In v T1 /\ In w T2 /\ h2 < sep2 dim v w).
Proof. exact relative_ok. Qed.
Print Assumptions C52_relative_position.

(** C52: simplices that interact do so in all of their points, in any dimension. *)
Theorem C52_interact :
  forall (dim : nat) (h2 : R) (T1 T2 : list (list R)),
  (forall v, In v T1 \/ In v T2 -> (dim <= length v)%nat) -> T1 <> [] -> T2 <> [] -> 0 <= h2 ->
  ball2_getRelativePosition dim h2 T1 T2 = Ok INTERACT ->
  forall l m, bary (length T1) l -> bary (length T2) m ->
    sep2 dim (the_point dim (length T1) T1 l) (the_point dim (length T2) T2 m) <= h2.
Proof.
  exact (fun dim h2 T1 T2 HV N1 N2 Hh HI l m Hl Hm => interact_all dim h2 T1 T2 l m (interact_corners dim h2 T1 T2 HV N1 N2 Hh HI) Hl Hm).
Qed.
Print Assumptions C52_interact.

(** C52: intervals side by side that are remote are so in all of their points. *)
Theorem C52_remote_1d :
  forall h2 a1 b1 a2 b2 : R, a1 <= b1 -> a2 <= b2 -> b1 <= a2 \/ b2 <= a1 -> 0 <= h2 ->
  ball2_getRelativePosition 1 h2 [[a1]; [b1]] [[a2]; [b2]] = Ok REMOTE ->
  forall l m, bary 2 l -> bary 2 m -> h2 <= sep2 1 (the_point 1 2 [[a1]; [b1]] l) (the_point 1 2 [[a2]; [b2]] m).
Proof.
  exact (fun h2 a1 b1 a2 b2 H1 H2 HD Hh HR l m Hl Hm => remote_1D h2 a1 b1 a2 b2 l m H1 H2 HD (remote_corners h2 a1 b1 a2 b2 Hh HR) Hl Hm).
Qed.
Print Assumptions C52_remote_1d.

(** C52: but not so triangles, if a corner of the one faces an edge of the other. *)
Theorem C52_remote_2d_refuted :
  ball2_getRelativePosition 2 1 [[0; 0]; [-1; 1]; [-1; -1]] [[1 / 2; -10]; [1 / 2; 10]; [2; 0]] = Ok REMOTE /\
  exists l m, bary 3 l /\ bary 3 m /\ sep2 2 (the_point 2 3 [[0; 0]; [-1; 1]; [-1; -1]] l) (the_point 2 3 [[1 / 2; -10]; [1 / 2; 10]; [2; 0]] m) = 1 / 4.
Proof. exact remote_2D. Qed.
Print Assumptions C52_remote_2d_refuted.

(** C52, outer loop in 1D: for cells of a mesh that are cut, the sub-intervals make up
    the points of the first that are within the horizon of some point of the second. *)
Theorem C52_simplex_1d :
  forall h2 a1 b1 a2 b2 : R, a1 < b1 -> a2 < b2 -> 0 < h2 -> (b1 <= a2 \/ b2 <= a1 \/ (a1 = a2 /\ b1 = b2)) ->
  ball2_getRelativePosition 1 h2 [[a1]; [b1]] [[a2]; [b2]] = Ok CUT ->
  exists subs, simplex_1D h2 [[a1]; [b1]] [[a2]; [b2]] = Ok subs /\
    subdivision 2 subs (fun l => exists m, bary 2 m /\ sep2 1 (the_point 1 2 [[a1]; [b1]] l) (the_point 1 2 [[a2]; [b2]] m) <= h2).
Proof. exact simplex_1D_ok. Qed.
Print Assumptions C52_simplex_1d.

(** C52, outer loop in 2D: the sub-triangles make up the convex hull of the corners that
    see a corner of the second triangle and of the farthest points of the edges that are
    within the horizon of such a corner. *)
Theorem C52_simplex_2d :
  forall (T1 T2 : list (list R)) (h2 : R), triangle T1 -> length T2 = 3%nat -> (forall w, In w T2 -> length w = 2%nat) ->
  (forall i w, (i < 3)%nat -> In w T2 -> far2 2 3 w T1 (corner i) <> h2) -> (exists i, (i < 3)%nat /\ sees T1 T2 h2 i) ->
  exists subs, simplex_2D (ball2 2 h2) T1 T2 = Ok subs /\ subdivision 3 subs (hull 3 (reach_points T1 T2 h2)).
Proof. exact simplex_2D_all. Qed.
Print Assumptions C52_simplex_2d.

(** C52, domains by barycenter: the whole simplex if its barycenter is within the
    horizon, nothing otherwise. *)
Theorem C52_barycenter :
  forall (dim : nat) (h2 : R) (x : list R) (T : list (list R)), T <> [] -> length x = dim -> (forall v, In v T -> (dim <= length v)%nat) ->
  barycenter_node (ball2_isInside h2) dim x T =
    Ok (if Rle_dec (far2 dim (length T) x T (fun _ => / INR (length T))) h2 then [(identity, 1)] else []).
Proof. exact barycenter_node_ok. Qed.
Print Assumptions C52_barycenter.

(** C52: with an end point at distance exactly h, half of the interval is lost. *)
Theorem C52_on_sphere_refuted :
  exists A, node_1D (ball2 1 (1 / 16)) [1 / 4] [[0]; [1]] = Ok [(A, 0)] /\
  (forall l, bary 2 l -> covers 2 A (fun _ => 0) l -> l 1%nat = 0) /\
  (forall l, bary 2 l -> l 1%nat <= 1 / 2 -> far2 1 2 [1 / 4] [[0]; [1]] l <= 1 / 16).
Proof. exact node_1D_on_sphere. Qed.
Print Assumptions C52_on_sphere_refuted.

(** C52: in 2D the sub-triangles do not cover the part of the triangle within the
    horizon; not even if x is in its interior. *)
Theorem C52_no_corner_refuted :
  node_2D (ball2 2 (1 / 4)) [0; 0] [[-1; -1]; [1; -1]; [0; 1]] = Ok [] /\
  exists l, bary 3 l /\ (forall i, (i < 3)%nat -> 0 < l i) /\ far2 2 3 [0; 0] [[-1; -1]; [1; -1]; [0; 1]] l = 0.
Proof. exact node_2D_no_corner. Qed.
Print Assumptions C52_no_corner_refuted.

(** C52: the ball of the maximum norm reads and writes past the end of arrays. *)
Theorem C52_ballInf_refuted :
  forall tol : R, 0 <= tol < 1 ->
    node_1D (ballInf 1 1 tol) [0] [[0]; [2]] = Err EOob /\ node_2D (ballInf 2 1 tol) [0; 0] [[-2; -2]; [2; 2]; [-2; 2]] = Err EOob.
Proof. exact (fun tol H => conj (ballInf_1D tol H) (ballInf_2D tol H)). Qed.
Print Assumptions C52_ballInf_refuted.

(** ** Examples *)
Example interaction_ex_1d : exists subs, node_1D (ball2 1 1) [1 / 2] [[0]; [4]] = Ok subs /\ (length subs <= 1)%nat /\
  subdivision 2 (linear_subs subs) (fun l => far2 1 2 [1 / 2] [[0]; [4]] l <= 1).
Proof. apply C52_node_1d; lra. Qed.
(** The circle cuts off a pentagon. *)
Example interaction_ex_2d : exists subs, node_2D (ball2 2 1) [1 / 2; 1 / 2] [[0; 0]; [2; 0]; [0; 2]] = Ok subs /\
  subdivision 3 (linear_subs subs) (hull 3 (cut_points [1 / 2; 1 / 2] [[0; 0]; [2; 0]; [0; 2]] 1)) /\
  cut_points [1 / 2; 1 / 2] [[0; 0]; [2; 0]; [0; 2]] 1 (corner 0).
Proof.
  destruct (C52_node_2d [1 / 2; 1 / 2] [[0; 0]; [2; 0]; [0; 2]] 1) as (subs & E & HS & _).
  - split; [reflexivity|]. split; [intros v [<-|[<-|[<-|[]]]]; reflexivity|].
    constructor; [intros [E|[E|[]]]; injection E; lra|]. constructor; [intros [E|[]]; injection E; lra|]. constructor; [intros []|constructor].
  - reflexivity.
  - intros [|[|[|i]]] Hi; [| | |lia]; unfold far2, at_bary, corner; cbn [rsum nth Nat.eqb]; lra.
  - exists subs. split; [exact E|]. split; [apply HS; exists 0%nat; split; [lia|]; unfold far2, at_bary, corner; cbn [rsum nth Nat.eqb]; lra|].
    split; [split; [intros [|[|[|i]]] Hi; unfold corner; cbn [Nat.eqb]; lra|unfold corner; cbn [rsum Nat.eqb]; lra]|].
    left. split; [unfold far2, at_bary, corner; cbn [rsum nth Nat.eqb]; lra|]. exists 0%nat. split; [lia|reflexivity].
Qed.
Example interaction_ex_interact : ball2_getRelativePosition 1 9 [[0]; [1]] [[1]; [2]] = Ok INTERACT.
Proof.
  destruct (C52_relative_position 1 9 [[0]; [1]] [[1]; [2]]) as (r & E & _ & HI & _).
  - intros v [[<-|[<-|[]]]|[<-|[<-|[]]]]; cbn; lia.
  - discriminate.
  - discriminate.
  - lra.
  - rewrite E. f_equal. apply HI. split.
    + exists [1], [1]. split; [cbn; auto|]. split; [cbn; auto|]. unfold sep2. cbn [rsum nth]. lra.
    + intros v w [<-|[<-|[]]] [<-|[<-|[]]]; unfold sep2; cbn [rsum nth]; lra.
Qed.
Example interaction_ex_remote : ball2_getRelativePosition 1 1 [[0]; [1]] [[2]; [3]] = Ok REMOTE.
Proof.
  destruct (C52_relative_position 1 1 [[0]; [1]] [[2]; [3]]) as (r & E & HI & _).
  - intros v [[<-|[<-|[]]]|[<-|[<-|[]]]]; cbn; lia.
  - discriminate.
  - discriminate.
  - lra.
  - rewrite E. f_equal. apply HI. intros v w [<-|[<-|[]]] [<-|[<-|[]]]; unfold sep2; cbn [rsum nth]; lra.
Qed.
Example interaction_ex_cut : exists subs, simplex_1D 1 [[0]; [1]] [[1]; [2]] = Ok subs /\
  subdivision 2 subs (fun l => exists m, bary 2 m /\ sep2 1 (the_point 1 2 [[0]; [1]] l) (the_point 1 2 [[1]; [2]] m) <= 1).
Proof.
  apply C52_simplex_1d; try lra. destruct (C52_relative_position 1 1 [[0]; [1]] [[1]; [2]]) as (r & E & _ & _ & HI).
  - intros v [[<-|[<-|[]]]|[<-|[<-|[]]]]; cbn; lia.
  - discriminate.
  - discriminate.
  - lra.
  - rewrite E. f_equal. apply HI. split.
    + exists [1], [1]. split; [cbn; auto|]. split; [cbn; auto|]. unfold sep2. cbn [rsum nth]. lra.
    + exists [0], [2]. split; [cbn; auto|]. split; [cbn; auto|]. unfold sep2. cbn [rsum nth]. lra.
Qed.
Example interaction_ex_outer : exists subs, simplex_2D (ball2 2 1) [[0; 0]; [2; 0]; [0; 2]] [[0; 0]; [-2; 0]; [0; -2]] = Ok subs /\
  subdivision 3 subs (hull 3 (reach_points [[0; 0]; [2; 0]; [0; 2]] [[0; 0]; [-2; 0]; [0; -2]] 1)).
Proof.
  apply C52_simplex_2d.
  - split; [reflexivity|]. split; [intros v [<-|[<-|[<-|[]]]]; reflexivity|].
    constructor; [intros [E|[E|[]]]; injection E; lra|]. constructor; [intros [E|[]]; injection E; lra|]. constructor; [intros []|constructor].
  - reflexivity.
  - intros v [<-|[<-|[<-|[]]]]; reflexivity.
  - intros [|[|[|i]]] w Hi [<-|[<-|[<-|[]]]]; try lia; unfold far2, at_bary, corner; cbn [rsum nth Nat.eqb]; lra.
  - exists 0%nat. split; [lia|]. exists [0; 0]. split; [cbn; auto|]. unfold far2, at_bary, corner. cbn [rsum nth Nat.eqb]. lra.
Qed.
Example interaction_ex_barycenter : barycenter_node (ball2_isInside 1) 1 [0] [[0]; [1]] = Ok [(identity, 1)].
Proof.
  rewrite (C52_barycenter 1 1 [0] [[0]; [1]]); [|discriminate|reflexivity|intros v [<-|[<-|[]]]; cbn; lia].
  destruct (Rle_dec _ 1) as [L|L]; [reflexivity|]. exfalso. apply L. unfold far2, at_bary. cbn [length rsum nth INR]. lra.
Qed.
