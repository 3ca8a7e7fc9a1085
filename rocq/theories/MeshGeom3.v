(** The children of refined cells subdivide them. *)
From Coq Require Import Permutation.
From Verif Require Import Util Lin MeshSpec MeshGeom MeshGeom2.
Local Open Scope nat_scope.

Section Refined.
  Variable dim : nat.
  Variable V : list (list Qc).
  Variable E : list (nat * nat).
  Hypothesis HV : forall p, In p V -> length p = dim.
  Local Notation V' := (refined_vertices V E).

  Lemma point_old a : a < length V -> point V' a = point V a.
  Proof using Type. intros H. unfold point, refined_vertices. apply app_nth1. auto. Qed.

  Lemma point_mid a b m : a < length V -> b < length V -> mid V E a b m -> is_mid dim (point V' m) (point V a) (point V b).
  Proof using HV.
    intros Ha Hb (j & Hj & ->) k Hk. unfold point at 1. unfold refined_vertices.
    rewrite app_nth2 by lia. replace (length V + j - length V) with j by lia.
    rewrite (nth_error_nth _ _ _ (map_nth_error _ _ _ Hj)). cbn [fst snd].
    assert (L : forall c, c < length V -> length (point V c) = dim). { intros c Hc. apply HV. unfold point. apply nth_In. auto. }
    unfold midpoint. rewrite vat_tab by (rewrite L; lia). unfold Qcdiv. rewrite <- half_inv.
    destruct (Nat.le_gt_cases a b); [rewrite Nat.min_l, Nat.max_r by lia|rewrite Nat.min_r, Nat.max_l by lia]; ring.
  Qed.

  Lemma halves_geometry c ch : halves V E c ch -> (forall v, In v c -> v < length V) ->
    (0 < dim -> forall t, In t ch -> (len1 (corners V' t) * (1 + 1) = len1 (corners V c))%Qc) /\
    (independent dim (corners V c) -> subdivides dim (corners V c) (map (corners V') ch)).
  Proof using HV.
    intros (a & b & m & -> & Hm & ->) Hc. assert (Ha : a < length V) by (apply Hc; cbn; auto). assert (Hb : b < length V) by (apply Hc; cbn; auto).
    pose proof (point_mid a b m Ha Hb Hm) as M. unfold corners. cbn [map]. rewrite ?(point_old a Ha), ?(point_old b Hb). split.
    - intros Hd t [<-|[<-|[]]]; cbn [map len1]; rewrite ?(point_old a Ha), ?(point_old b Hb); rewrite (M 0 Hd), half_inv; field; apply two_0.
    - intros Hi. apply halves_subdivide; auto.
  Qed.

  Lemma quarters_geometry c ch : quarters V E c ch -> (forall v, In v c -> v < length V) ->
    (1 < dim -> forall t, In t ch -> (area2 (corners V' t) * (1 + 1 + 1 + 1) = area2 (corners V c))%Qc) /\
    (independent dim (corners V c) -> subdivides dim (corners V c) (map (corners V') ch)).
  Proof using HV.
    intros (v0 & v1 & v2 & m01 & m12 & m02 & -> & M1 & M2 & M3 & ->) Hc.
    assert (H0 : v0 < length V) by (apply Hc; cbn; auto). assert (H1 : v1 < length V) by (apply Hc; cbn; auto). assert (H2 : v2 < length V) by (apply Hc; cbn; auto).
    apply point_mid in M1, M2, M3; auto. unfold corners. cbn [map]. rewrite ?(point_old v0 H0), ?(point_old v1 H1), ?(point_old v2 H2). split.
    - intros Hd t [<-|[<-|[<-|[<-|[]]]]]; cbn [map area2]; rewrite ?(point_old v0 H0), ?(point_old v1 H1), ?(point_old v2 H2); unfold is_mid in *; rewrite ?M1, ?M2, ?M3, ?half_inv by lia; field; apply two_0.
    - intros Hi. apply (quarters_subdivide dim _ _ _ _ _ _ M1 M2 M3 Hi).
  Qed.

  Ltac perm := repeat (first [apply perm_nil | match goal with
    | |- Permutation (?x :: _) (?x :: _) => apply perm_skip
    | |- Permutation (?x :: _) (?a :: ?x :: ?t) => refine (Permutation_cons_app [a] t x _); cbn [app]
    | |- Permutation (?x :: _) (?a :: ?b :: ?x :: ?t) => refine (Permutation_cons_app [a; b] t x _); cbn [app]
    | |- Permutation (?x :: _) (?a :: ?b :: ?c :: ?x :: ?t) => refine (Permutation_cons_app [a; b; c] t x _); cbn [app]
    | |- Permutation (?x :: _) (?a :: ?b :: ?c :: ?d :: ?x :: ?t) => refine (Permutation_cons_app [a; b; c; d] t x _); cbn [app]
    | |- Permutation (?x :: _) (?a :: ?b :: ?c :: ?d :: ?e :: ?x :: ?t) => refine (Permutation_cons_app [a; b; c; d; e] t x _); cbn [app]
    | |- Permutation (?x :: _) (?a :: ?b :: ?c :: ?d :: ?e :: ?f :: ?x :: ?t) => refine (Permutation_cons_app [a; b; c; d; e; f] t x _); cbn [app]
    | |- Permutation (?x :: _) (?a :: ?b :: ?c :: ?d :: ?e :: ?f :: ?g :: ?x :: ?t) => refine (Permutation_cons_app [a; b; c; d; e; f; g] t x _); cbn [app]
    end]).

  (** The three cuts, in terms of points *)
  Lemma cuts_subdivide p0 p1 p2 p3 m01 m02 m03 m12 m13 m23 : is_mid dim m01 p0 p1 -> is_mid dim m02 p0 p2 -> is_mid dim m03 p0 p3 ->
    is_mid dim m12 p1 p2 -> is_mid dim m13 p1 p3 -> is_mid dim m23 p2 p3 -> independent dim [p0; p1; p2; p3] ->
    forall A0 A1 A2 A3, A0 = [p0; m01; m02; m03] -> A1 = [m01; p1; m12; m13] -> A2 = [m02; m12; p2; m23] -> A3 = [m03; m13; m23; p3] ->
    (forall i0 i1 i2 i3, i0 = [m01; m12; m02; m23] -> i1 = [m01; m23; m03; m13] -> i2 = [m01; m02; m03; m23] -> i3 = [m01; m13; m12; m23] ->
       subdivides dim [p0; p1; p2; p3] [A0; A1; A2; A3; i0; i1; i2; i3]) /\
    (forall i0 i1 i2 i3, i0 = [m01; m02; m03; m13] -> i1 = [m01; m12; m02; m13] -> i2 = [m02; m03; m13; m23] -> i3 = [m02; m13; m12; m23] ->
       subdivides dim [p0; p1; p2; p3] [A0; A1; A2; A3; i0; i1; i2; i3]) /\
    (forall i0 i1 i2 i3, i0 = [m01; m13; m12; m03] -> i1 = [m03; m23; m13; m12] -> i2 = [m03; m23; m12; m02] -> i3 = [m01; m12; m02; m03] ->
       subdivides dim [p0; p1; p2; p3] [A0; A1; A2; A3; i0; i1; i2; i3]).
  Proof using Type.
    intros M01 M02 M03 M12 M13 M23 Hi A0 A1 A2 A3 EA0 EA1 EA2 EA3. split; [|split]; intros i0 i1 i2 i3 E0 E1 E2 E3.
    - apply (subdivides_perm dim [p0; p1; p2; p3] _ (ch4 p0 p1 p2 p3 m01 m02 m03 m12 m13 m23) [A0; A1; A2; A3; i2; i3; i0; i1]).
      + apply ch4_subdivide; auto.
      + apply Permutation_refl.
      + unfold ch4. subst. repeat (apply Forall2_cons; [perm|]). apply Forall2_nil.
      + perm.
    - apply (subdivides_perm dim [p0; p2; p1; p3] _ (ch4 p0 p2 p1 p3 m02 m01 m03 m12 m23 m13) [A0; A2; A1; A3; i0; i3; i1; i2]).
      + apply ch4_subdivide; auto using is_mid_sym. apply (independent_perm dim [p0; p1; p2; p3]); auto. perm.
      + perm.
      + unfold ch4. subst. repeat (apply Forall2_cons; [perm|]). apply Forall2_nil.
      + perm.
    - apply (subdivides_perm dim [p0; p3; p1; p2] _ (ch4 p0 p3 p1 p2 m03 m01 m02 m13 m23 m12) [A0; A3; A1; A2; i3; i1; i0; i2]).
      + apply ch4_subdivide; auto using is_mid_sym. apply (independent_perm dim [p0; p1; p2; p3]); auto. perm.
      + perm.
      + unfold ch4. subst. repeat (apply Forall2_cons; [perm|]). apply Forall2_nil.
      + perm.
  Qed.

  Lemma eighths_geometry c ch : eighths V E c ch -> (forall v, In v c -> v < length V) ->
    (2 < dim -> forall t, In t ch -> (vol6 (corners V' t) * (1 + 1 + 1 + 1 + 1 + 1 + 1 + 1) = vol6 (corners V c))%Qc) /\
    (independent dim (corners V c) -> subdivides dim (corners V c) (map (corners V') ch)).
  Proof using HV.
    intros (v0 & v1 & v2 & v3 & m01 & m02 & m03 & m12 & m13 & m23 & inner & -> & M01 & M02 & M03 & M12 & M13 & M23 & -> & Hin) Hc.
    assert (H0 : v0 < length V) by (apply Hc; cbn; auto). assert (H1 : v1 < length V) by (apply Hc; cbn; auto).
    assert (H2 : v2 < length V) by (apply Hc; cbn; auto). assert (H3 : v3 < length V) by (apply Hc; cbn; auto 6).
    apply point_mid in M01, M02, M03, M12, M13, M23; auto.
    assert (Hin' : inner = cut01_23 m01 m02 m03 m12 m13 m23 \/ inner = cut02_13 m01 m02 m03 m12 m13 m23 \/ inner = cut03_12 m01 m02 m03 m12 m13 m23) by tauto.
    clear Hin. split.
    - intros Hd t Ht. apply in_app_or in Ht. unfold corners. cbn [map vol6]. unfold is_mid in *.
      destruct Hin' as [-> |[-> | ->]]; destruct Ht as [Ht|Ht]; cbn in Ht;
      repeat (destruct Ht as [<-|Ht]; [cbn [map vol6]; rewrite ?(point_old v0 H0), ?(point_old v1 H1), ?(point_old v2 H2), ?(point_old v3 H3); rewrite ?M01, ?M02, ?M03, ?M12, ?M13, ?M23, ?half_inv by lia; field; apply two_0|]); destruct Ht.
    - intros Hi. unfold corners in *. rewrite map_app. cbn [map] in *. rewrite ?(point_old v0 H0), ?(point_old v1 H1), ?(point_old v2 H2), ?(point_old v3 H3).
      destruct (cuts_subdivide _ _ _ _ _ _ _ _ _ _ M01 M02 M03 M12 M13 M23 Hi _ _ _ _ eq_refl eq_refl eq_refl eq_refl) as (S1 & S2 & S3).
      destruct Hin' as [-> |[-> | ->]]; [apply S1|apply S2|apply S3]; reflexivity.
  Qed.
End Refined.

(** ** Cells of positive measure are independent *)
Lemma independent1 p q : len1 [p; q] <> 0%Qc -> independent 1 [p; q].
Proof.
  intros Hd l l' Hl Hl' Ht Ht' Hk. destruct l as [|a [|b [|? ?]]]; cbn in Hl; try discriminate. destruct l' as [|a' [|b' [|? ?]]]; cbn in Hl'; try discriminate.
  cbn [total combination len1] in *. specialize (Hk 0 (le_n 1)).
  assert (Ea : a = (1 - b)%Qc) by (rewrite <- Ht; ring). assert (Ea' : a' = (1 - b')%Qc) by (rewrite <- Ht'; ring). subst a a'.
  assert (X : ((b - b') * (vat q 0 - vat p 0) = 0)%Qc).
  { transitivity (((1 - b) * vat p 0 + (b * vat q 0 + 0)) - ((1 - b') * vat p 0 + (b' * vat q 0 + 0)))%Qc; [ring|]. rewrite Hk. ring. }
  apply Qcmult_integral in X as [X|X]; [|contradiction].
  assert (b = b') by (rewrite <- (Qcplus_0_r b'), <- X; ring). subst. reflexivity.
Qed.

Lemma independent2 p q r : area2 [p; q; r] <> 0%Qc -> independent 2 [p; q; r].
Proof.
  intros Hd l l' Hl Hl' Ht Ht' Hk. destruct l as [|a [|b [|c [|? ?]]]]; cbn in Hl; try discriminate. destruct l' as [|a' [|b' [|c' [|? ?]]]]; cbn in Hl'; try discriminate.
  cbn [total combination area2] in *.
  assert (Ea : a = (1 - b - c)%Qc) by (rewrite <- Ht; ring). assert (Ea' : a' = (1 - b' - c')%Qc) by (rewrite <- Ht'; ring). subst a a'. clear Ht Ht'.
  assert (X : forall k, k < 2 -> ((b - b') * (vat q k - vat p k) + (c - c') * (vat r k - vat p k) = 0)%Qc).
  { intros k Hk'. specialize (Hk k Hk'). 
    transitivity (((1 - b - c) * vat p k + (b * vat q k + (c * vat r k + 0))) - ((1 - b' - c') * vat p k + (b' * vat q k + (c' * vat r k + 0))))%Qc; [ring|]. rewrite Hk. ring. }
  pose proof (X 0 ltac:(lia)) as X0. pose proof (X 1 ltac:(lia)) as X1. clear X Hk.
  set (D := ((vat q 0 - vat p 0) * (vat r 1 - vat p 1) - (vat q 1 - vat p 1) * (vat r 0 - vat p 0))%Qc) in *.
  assert (B : ((b - b') * D = 0)%Qc).
  { transitivity (((b - b') * (vat q 0 - vat p 0) + (c - c') * (vat r 0 - vat p 0)) * (vat r 1 - vat p 1) - ((b - b') * (vat q 1 - vat p 1) + (c - c') * (vat r 1 - vat p 1)) * (vat r 0 - vat p 0))%Qc; [unfold D; ring|].
    rewrite X0, X1. ring. }
  assert (C : ((c - c') * D = 0)%Qc).
  { transitivity (((b - b') * (vat q 1 - vat p 1) + (c - c') * (vat r 1 - vat p 1)) * (vat q 0 - vat p 0) - ((b - b') * (vat q 0 - vat p 0) + (c - c') * (vat r 0 - vat p 0)) * (vat q 1 - vat p 1))%Qc; [unfold D; ring|].
    rewrite X0, X1. ring. }
  apply Qcmult_integral in B as [B|B]; [|contradiction]. apply Qcmult_integral in C as [C|C]; [|contradiction].
  assert (b = b') by (rewrite <- (Qcplus_0_r b'), <- B; ring). assert (c = c') by (rewrite <- (Qcplus_0_r c'), <- C; ring). subst. reflexivity.
Qed.

Lemma independent3 p q r s : vol6 [p; q; r; s] <> 0%Qc -> independent 3 [p; q; r; s].
Proof.
  intros Hd l l' Hl Hl' Ht Ht' Hk. destruct l as [|a [|b [|c [|d [|? ?]]]]]; cbn in Hl; try discriminate. destruct l' as [|a' [|b' [|c' [|d' [|? ?]]]]]; cbn in Hl'; try discriminate.
  cbn [total combination vol6] in *.
  assert (Ea : a = (1 - b - c - d)%Qc) by (rewrite <- Ht; ring). assert (Ea' : a' = (1 - b' - c' - d')%Qc) by (rewrite <- Ht'; ring). subst a a'. clear Ht Ht'.
  assert (X : forall k, k < 3 -> ((b - b') * (vat q k - vat p k) + (c - c') * (vat r k - vat p k) + (d - d') * (vat s k - vat p k) = 0)%Qc).
  { intros k Hk'. specialize (Hk k Hk'). 
    transitivity (((1 - b - c - d) * vat p k + (b * vat q k + (c * vat r k + (d * vat s k + 0)))) - ((1 - b' - c' - d') * vat p k + (b' * vat q k + (c' * vat r k + (d' * vat s k + 0)))))%Qc; [ring|]. rewrite Hk. ring. }
  pose proof (X 0 ltac:(lia)) as X0. pose proof (X 1 ltac:(lia)) as X1. pose proof (X 2 ltac:(lia)) as X2. clear X Hk.
  set (q0 := (vat q 0 - vat p 0)%Qc) in *. set (q1 := (vat q 1 - vat p 1)%Qc) in *. set (q2 := (vat q 2 - vat p 2)%Qc) in *.
  set (r0 := (vat r 0 - vat p 0)%Qc) in *. set (r1 := (vat r 1 - vat p 1)%Qc) in *. set (r2 := (vat r 2 - vat p 2)%Qc) in *.
  set (s0 := (vat s 0 - vat p 0)%Qc) in *. set (s1 := (vat s 1 - vat p 1)%Qc) in *. set (s2 := (vat s 2 - vat p 2)%Qc) in *.
  clearbody q0 q1 q2 r0 r1 r2 s0 s1 s2.
  set (x := (b - b')%Qc) in *. set (y := (c - c')%Qc) in *. set (z := (d - d')%Qc) in *.
  match type of Hd with ?D <> _ => set (D0 := D) in * end.
  assert (B : (x * D0 = 0)%Qc).
  { transitivity ((x * q0 + y * r0 + z * s0) * (r1 * s2 - r2 * s1) - (x * q1 + y * r1 + z * s1) * (r0 * s2 - r2 * s0) + (x * q2 + y * r2 + z * s2) * (r0 * s1 - r1 * s0))%Qc; [unfold D0; ring|].
    rewrite X0, X1, X2. ring. }
  assert (C : (y * D0 = 0)%Qc).
  { transitivity (q0 * ((x * q1 + y * r1 + z * s1) * s2 - (x * q2 + y * r2 + z * s2) * s1) - q1 * ((x * q0 + y * r0 + z * s0) * s2 - (x * q2 + y * r2 + z * s2) * s0) + q2 * ((x * q0 + y * r0 + z * s0) * s1 - (x * q1 + y * r1 + z * s1) * s0))%Qc; [unfold D0; ring|].
    rewrite X0, X1, X2. ring. }
  assert (Z : (z * D0 = 0)%Qc).
  { transitivity (q0 * (r1 * (x * q2 + y * r2 + z * s2) - r2 * (x * q1 + y * r1 + z * s1)) - q1 * (r0 * (x * q2 + y * r2 + z * s2) - r2 * (x * q0 + y * r0 + z * s0)) + q2 * (r0 * (x * q1 + y * r1 + z * s1) - r1 * (x * q0 + y * r0 + z * s0)))%Qc; [unfold D0; ring|].
    rewrite X0, X1, X2. ring. }
  apply Qcmult_integral in B as [B|B]; [|contradiction]. apply Qcmult_integral in C as [C|C]; [|contradiction]. apply Qcmult_integral in Z as [Z|Z]; [|contradiction].
  subst x y z.
  assert (b = b') by (rewrite <- (Qcplus_0_r b'), <- B; ring). assert (c = c') by (rewrite <- (Qcplus_0_r c'), <- C; ring). assert (d = d') by (rewrite <- (Qcplus_0_r d'), <- Z; ring). subst. reflexivity.
Qed.
