(** Geometry of the refined cells. *)
From Coq Require Import QArith Lqa.
From Verif Require Import Util Lin MeshSpec.
Local Open Scope nat_scope.

(** ** Linear arithmetic over Qc *)
Lemma this_add a b : (this (a + b)%Qc == this a + this b)%Q.
Proof. apply Qred_correct. Qed.
Lemma this_mul a b : (this (a * b)%Qc == this a * this b)%Q.
Proof. apply Qred_correct. Qed.
Lemma this_opp a : (this (- a)%Qc == - this a)%Q.
Proof. apply Qred_correct. Qed.
Lemma this_sub a b : (this (a - b)%Qc == this a - this b)%Q.
Proof. unfold Qcminus. rewrite this_add, this_opp. reflexivity. Qed.
Lemma this_0 : (this 0%Qc == 0)%Q.
Proof. reflexivity. Qed.
Lemma this_1 : (this 1%Qc == 1)%Q.
Proof. reflexivity. Qed.
Definition half : Qc := Q2Qc (1 # 2).
Lemma this_half : (this half == 1 # 2)%Q.
Proof. reflexivity. Qed.
Lemma this_eq a b : a = b -> (this a == this b)%Q.
Proof. intros ->. reflexivity. Qed.

Ltac to_q :=
  repeat match goal with
    | H : @eq Qc _ _ |- _ => apply this_eq in H
    | H : (_ <= _)%Qc |- _ => unfold Qcle in H
    | H : (_ < _)%Qc |- _ => unfold Qclt in H
    end;
  try apply Qc_is_canon; unfold Qcle, Qclt in *;
  repeat rewrite ?this_add, ?this_sub, ?this_mul, ?this_opp, ?this_half, ?this_0, ?this_1 in *.
Ltac qclra := to_q; lra.


Lemma half_inv : half = (/ (1 + 1))%Qc.
Proof. apply Qc_is_canon. reflexivity. Qed.
Lemma two_0 : (1 + 1 <> 0)%Qc.
Proof. intros H. apply (f_equal this) in H. vm_compute in H. discriminate H. Qed.
Lemma qc_cases a b : (a <= b)%Qc \/ (b <= a)%Qc.
Proof. destruct (Qclt_le_dec a b) as [H|H]; [left; apply Qclt_le_weak|right]; auto. Qed.

(** ** Simplices with two, three and four corners *)
Section Points.
  Variable dim : nat.
  Local Notation at_ x k := (vat x k).

  Lemma inside2 p q x : inside dim [p; q] x <-> exists u v, (0 <= u)%Qc /\ (0 <= v)%Qc /\ (u + v = 1)%Qc /\
    forall k, k < dim -> vat x k = (u * vat p k + v * vat q k)%Qc.
  Proof.
    split.
    - intros (l & Hl & Hp & Ht & Hx). destruct l as [|u [|v [|? ?]]]; cbn in Hl; try discriminate. exists u, v.
      cbn [total combination] in Ht, Hx. repeat split; try (apply Hp; cbn; tauto); [rewrite <- Ht; ring|].
      intros k Hk. rewrite Hx by auto. ring.
    - intros (u & v & Hu & Hv & Ht & Hx). exists [u; v]. cbn [total combination]. repeat split; auto.
      + intros w [<-|[<-|[]]]; auto.
      + rewrite <- Ht. ring.
      + intros k Hk. rewrite Hx by auto. ring.
  Qed.
  Lemma inside3 p q r x : inside dim [p; q; r] x <-> exists u v w, (0 <= u)%Qc /\ (0 <= v)%Qc /\ (0 <= w)%Qc /\ (u + v + w = 1)%Qc /\
    forall k, k < dim -> vat x k = (u * vat p k + v * vat q k + w * vat r k)%Qc.
  Proof.
    split.
    - intros (l & Hl & Hp & Ht & Hx). destruct l as [|u [|v [|w [|? ?]]]]; cbn in Hl; try discriminate. exists u, v, w.
      cbn [total combination] in Ht, Hx. repeat split; try (apply Hp; cbn; tauto); [rewrite <- Ht; ring|].
      intros k Hk. rewrite Hx by auto. ring.
    - intros (u & v & w & Hu & Hv & Hw & Ht & Hx). exists [u; v; w]. cbn [total combination]. repeat split; auto.
      + intros z [<-|[<-|[<-|[]]]]; auto.
      + rewrite <- Ht. ring.
      + intros k Hk. rewrite Hx by auto. ring.
  Qed.
  Lemma inside4 p q r s x : inside dim [p; q; r; s] x <-> exists u v w z, (0 <= u)%Qc /\ (0 <= v)%Qc /\ (0 <= w)%Qc /\ (0 <= z)%Qc /\ (u + v + w + z = 1)%Qc /\
    forall k, k < dim -> vat x k = (u * vat p k + v * vat q k + w * vat r k + z * vat s k)%Qc.
  Proof.
    split.
    - intros (l & Hl & Hp & Ht & Hx). destruct l as [|u [|v [|w [|z [|? ?]]]]]; cbn in Hl; try discriminate. exists u, v, w, z.
      cbn [total combination] in Ht, Hx. repeat split; try (apply Hp; cbn; tauto); [rewrite <- Ht; ring|].
      intros k Hk. rewrite Hx by auto. ring.
    - intros (u & v & w & z & Hu & Hv & Hw & Hz & Ht & Hx). exists [u; v; w; z]. cbn [total combination]. repeat split; auto.
      + intros y [<-|[<-|[<-|[<-|[]]]]]; auto.
      + rewrite <- Ht. ring.
      + intros k Hk. rewrite Hx by auto. ring.
  Qed.
  Lemma strictly_inside2 p q x : strictly_inside dim [p; q] x -> exists u v, (0 < u)%Qc /\ (0 < v)%Qc /\ (u + v = 1)%Qc /\
    forall k, k < dim -> vat x k = (u * vat p k + v * vat q k)%Qc.
  Proof.
    intros (l & Hl & Hp & Ht & Hx). destruct l as [|u [|v [|? ?]]]; cbn in Hl; try discriminate. exists u, v.
    cbn [total combination] in Ht, Hx. repeat split; try (apply Hp; cbn; tauto); [rewrite <- Ht; ring|].
    intros k Hk. rewrite Hx by auto. ring.
  Qed.
  Lemma strictly_inside3 p q r x : strictly_inside dim [p; q; r] x -> exists u v w, (0 < u)%Qc /\ (0 < v)%Qc /\ (0 < w)%Qc /\ (u + v + w = 1)%Qc /\
    forall k, k < dim -> vat x k = (u * vat p k + v * vat q k + w * vat r k)%Qc.
  Proof.
    intros (l & Hl & Hp & Ht & Hx). destruct l as [|u [|v [|w [|? ?]]]]; cbn in Hl; try discriminate. exists u, v, w.
    cbn [total combination] in Ht, Hx. repeat split; try (apply Hp; cbn; tauto); [rewrite <- Ht; ring|].
    intros k Hk. rewrite Hx by auto. ring.
  Qed.
  Lemma strictly_inside4 p q r s x : strictly_inside dim [p; q; r; s] x -> exists u v w z, (0 < u)%Qc /\ (0 < v)%Qc /\ (0 < w)%Qc /\ (0 < z)%Qc /\ (u + v + w + z = 1)%Qc /\
    forall k, k < dim -> vat x k = (u * vat p k + v * vat q k + w * vat r k + z * vat s k)%Qc.
  Proof.
    intros (l & Hl & Hp & Ht & Hx). destruct l as [|u [|v [|w [|z [|? ?]]]]]; cbn in Hl; try discriminate. exists u, v, w, z.
    cbn [total combination] in Ht, Hx. repeat split; try (apply Hp; cbn; tauto); [rewrite <- Ht; ring|].
    intros k Hk. rewrite Hx by auto. ring.
  Qed.

  (** m is the midpoint of p and q *)
  Definition is_mid (m p q : list Qc) : Prop := forall k, k < dim -> vat m k = (half * vat p k + half * vat q k)%Qc.

  Ltac sums := rewrite ?half_inv; field; exact two_0.

  Lemma halves_subdivide p q m : is_mid m p q -> independent dim [p; q] -> subdivides dim [p; q] [[p; m]; [m; q]].
  Proof.
    intros Hm Hi. split.
    - intros x. rewrite inside2. split.
      + intros (u & v & Hu & Hv & Ht & Hx). assert (Eu : u = (1 - v)%Qc) by qclra. destruct (qc_cases half u) as [H|H].
        * exists [p; m]. split; [left; auto|]. apply inside2. exists (u + u - 1)%Qc, (v + v)%Qc. split; [qclra|]. split; [qclra|]. split; [qclra|].
          intros k Hk. rewrite Hx, (Hm k Hk), Eu by auto. sums.
        * exists [m; q]. split; [right; left; auto|]. apply inside2. exists (u + u)%Qc, (1 - u - u)%Qc. split; [qclra|]. split; [qclra|]. split; [qclra|].
          intros k Hk. rewrite Hx, (Hm k Hk), Eu by auto. sums.
      + intros (qs & [<-|[<-|[]]] & H); apply inside2 in H as (u & v & Hu & Hv & Ht & Hx).
        * exists (u + half * v)%Qc, (half * v)%Qc. split; [qclra|]. split; [qclra|]. split; [qclra|]. intros k Hk. rewrite Hx, (Hm k Hk) by auto. ring.
        * exists (half * u)%Qc, (half * u + v)%Qc. split; [qclra|]. split; [qclra|]. split; [qclra|]. intros k Hk. rewrite Hx, (Hm k Hk) by auto. ring.
    - assert (U : forall a b a' b', (a + b = 1)%Qc -> (a' + b' = 1)%Qc ->
        (forall k, k < dim -> (a * vat p k + b * vat q k = a' * vat p k + b' * vat q k)%Qc) -> a = a' /\ b = b').
      { intros a b a' b' T T' Hk. assert (X : [a; b] = [a'; b']); [|inversion X; auto].
        apply Hi; auto; cbn [total combination]; [rewrite <- T; ring|rewrite <- T'; ring|]. intros k Hk'. transitivity (a * vat p k + b * vat q k)%Qc; [ring|]. rewrite (Hk k Hk'). ring. }
      intros i j qs rs x Hij Hq Hr S I.
      destruct i as [|[|i]], j as [|[|j]]; cbn in Hq, Hr; try (destruct i; discriminate); try (destruct j; discriminate); try lia.
      + inversion Hq; inversion Hr; subst. apply strictly_inside2 in S as (u & v & Hu & Hv & Ht & Hx). apply inside2 in I as (u' & v' & Hu' & Hv' & Ht' & Hx').
        destruct (U (u + half * v) (half * v) (half * u') (half * u' + v'))%Qc; [qclra|qclra| |qclra].
        intros k Hk. specialize (Hx k Hk). specialize (Hx' k Hk). rewrite (Hm k Hk) in Hx, Hx'. transitivity (vat x k); [rewrite Hx|rewrite Hx']; ring.
      + inversion Hq; inversion Hr; subst. apply strictly_inside2 in S as (u & v & Hu & Hv & Ht & Hx). apply inside2 in I as (u' & v' & Hu' & Hv' & Ht' & Hx').
        destruct (U (u' + half * v') (half * v') (half * u) (half * u + v))%Qc; [qclra|qclra| |qclra].
        intros k Hk. specialize (Hx k Hk). specialize (Hx' k Hk). rewrite (Hm k Hk) in Hx, Hx'. transitivity (vat x k); [rewrite Hx'|rewrite Hx]; ring.
  Qed.

  (** *** Triangles *)
  Lemma corner3 o p q m1 m2 x : is_mid m1 o p -> is_mid m2 o q ->
    (inside dim [o; m1; m2] x <-> exists a b c, (half <= a)%Qc /\ (0 <= b)%Qc /\ (0 <= c)%Qc /\ (a + b + c = 1)%Qc /\
       forall k, k < dim -> vat x k = (a * vat o k + b * vat p k + c * vat q k)%Qc).
  Proof.
    intros H1 H2. rewrite inside3. split.
    - intros (u & v & w & Hu & Hv & Hw & Ht & Hx). exists (u + half * v + half * w)%Qc, (half * v)%Qc, (half * w)%Qc.
      split; [qclra|]. split; [qclra|]. split; [qclra|]. split; [qclra|]. intros k Hk. rewrite Hx, (H1 k Hk), (H2 k Hk) by auto. ring.
    - intros (a & b & c & Ha & Hb & Hc & Ht & Hx). exists (a + a - 1)%Qc, (b + b)%Qc, (c + c)%Qc.
      split; [qclra|]. split; [qclra|]. split; [qclra|]. split; [qclra|]. assert (Ea : a = (1 - b - c)%Qc) by qclra.
      intros k Hk. rewrite Hx, (H1 k Hk), (H2 k Hk), Ea by auto. sums.
  Qed.
  Lemma corner3_strict o p q m1 m2 x : is_mid m1 o p -> is_mid m2 o q -> strictly_inside dim [o; m1; m2] x ->
    exists a b c, (half < a)%Qc /\ (0 < b)%Qc /\ (0 < c)%Qc /\ (a + b + c = 1)%Qc /\
       forall k, k < dim -> vat x k = (a * vat o k + b * vat p k + c * vat q k)%Qc.
  Proof.
    intros H1 H2 H. apply strictly_inside3 in H as (u & v & w & Hu & Hv & Hw & Ht & Hx). exists (u + half * v + half * w)%Qc, (half * v)%Qc, (half * w)%Qc.
    split; [qclra|]. split; [qclra|]. split; [qclra|]. split; [qclra|]. intros k Hk. rewrite Hx, (H1 k Hk), (H2 k Hk) by auto. ring.
  Qed.
  Lemma middle3 p q r mpq mqr mpr x : is_mid mpq p q -> is_mid mqr q r -> is_mid mpr p r ->
    (inside dim [mpq; mqr; mpr] x <-> exists a b c, (a <= half)%Qc /\ (b <= half)%Qc /\ (c <= half)%Qc /\ (a + b + c = 1)%Qc /\
       forall k, k < dim -> vat x k = (a * vat p k + b * vat q k + c * vat r k)%Qc).
  Proof.
    intros H1 H2 H3. rewrite inside3. split.
    - intros (u & v & w & Hu & Hv & Hw & Ht & Hx). exists (half * u + half * w)%Qc, (half * u + half * v)%Qc, (half * v + half * w)%Qc.
      split; [qclra|]. split; [qclra|]. split; [qclra|]. split; [qclra|]. intros k Hk. rewrite Hx, (H1 k Hk), (H2 k Hk), (H3 k Hk) by auto. ring.
    - intros (a & b & c & Ha & Hb & Hc & Ht & Hx). exists (1 - c - c)%Qc, (1 - a - a)%Qc, (1 - b - b)%Qc.
      split; [qclra|]. split; [qclra|]. split; [qclra|]. split; [qclra|]. assert (Ea : a = (1 - b - c)%Qc) by qclra.
      intros k Hk. rewrite Hx, (H1 k Hk), (H2 k Hk), (H3 k Hk), Ea by auto. sums.
  Qed.
  Lemma middle3_strict p q r mpq mqr mpr x : is_mid mpq p q -> is_mid mqr q r -> is_mid mpr p r -> strictly_inside dim [mpq; mqr; mpr] x ->
    exists a b c, (a < half)%Qc /\ (b < half)%Qc /\ (c < half)%Qc /\ (a + b + c = 1)%Qc /\
       forall k, k < dim -> vat x k = (a * vat p k + b * vat q k + c * vat r k)%Qc.
  Proof.
    intros H1 H2 H3 H. apply strictly_inside3 in H as (u & v & w & Hu & Hv & Hw & Ht & Hx).
    exists (half * u + half * w)%Qc, (half * u + half * v)%Qc, (half * v + half * w)%Qc.
    split; [qclra|]. split; [qclra|]. split; [qclra|]. split; [qclra|]. intros k Hk. rewrite Hx, (H1 k Hk), (H2 k Hk), (H3 k Hk) by auto. ring.
  Qed.

  Lemma is_mid_sym m p q : is_mid m p q -> is_mid m q p.
  Proof. intros H k Hk. rewrite (H k Hk). ring. Qed.

  (** Coordinates of x with respect to p, q, r satisfying R *)
  Definition coords3 (p q r x : list Qc) (R : Qc -> Qc -> Qc -> Prop) : Prop :=
    exists a b c, R a b c /\ (a + b + c = 1)%Qc /\ forall k, k < dim -> vat x k = (a * vat p k + b * vat q k + c * vat r k)%Qc.

  Definition closed3 (n : nat) (a b c : Qc) : Prop :=
    match n with
    | 0 => (half <= a /\ 0 <= b /\ 0 <= c)%Qc
    | 1 => (half <= b /\ 0 <= c /\ 0 <= a)%Qc
    | 2 => (half <= c /\ 0 <= a /\ 0 <= b)%Qc
    | 3 => (a <= half /\ b <= half /\ c <= half)%Qc
    | _ => False
    end.
  Definition open3 (n : nat) (a b c : Qc) : Prop :=
    match n with
    | 0 => (half < a /\ 0 < b /\ 0 < c)%Qc
    | 1 => (half < b /\ 0 < c /\ 0 < a)%Qc
    | 2 => (half < c /\ 0 < a /\ 0 < b)%Qc
    | 3 => (a < half /\ b < half /\ c < half)%Qc
    | _ => False
    end.

  Ltac got H := let a := fresh "a" in let b := fresh "b" in let c := fresh "c" in
    let Ha := fresh "Ha" in let Hb := fresh "Hb" in let Hc := fresh "Hc" in let Ht := fresh "Ht" in let Hx := fresh "Hx" in
    destruct H as (a & b & c & Ha & Hb & Hc & Ht & Hx).

  Section Triangle.
    Variables p q r mpq mqr mpr : list Qc.
    Hypothesis Hpq : is_mid mpq p q.
    Hypothesis Hqr : is_mid mqr q r.
    Hypothesis Hpr : is_mid mpr p r.
    Definition ch3 := [[p; mpq; mpr]; [q; mqr; mpq]; [r; mpr; mqr]; [mpq; mqr; mpr]].

    Ltac rot := intros k Hk; match goal with H : forall k, k < dim -> _ = _ |- _ => rewrite (H k Hk); ring end.

    Lemma child3 n qs x : nth_error ch3 n = Some qs -> (inside dim qs x <-> coords3 p q r x (closed3 n)).
    Proof using Hpq Hqr Hpr.
      intros H. destruct n as [|[|[|[|n]]]]; cbn in H; try (destruct n; discriminate H); inversion H; subst qs; unfold coords3; cbn [closed3].
      - rewrite (corner3 p q r) by auto using is_mid_sym. split; intros X; [got X|destruct X as (a & b & c & (Ha & Hb & Hc) & Ht & Hx)]; exists a, b, c; tauto.
      - rewrite (corner3 q r p) by auto using is_mid_sym. split; intros X.
        + got X. exists c, a, b. split; [auto|]. split; [rewrite <- Ht; ring|rot].
        + destruct X as (a & b & c & (Ha & Hb & Hc) & Ht & Hx). exists b, c, a. do 3 (split; [auto|]). split; [rewrite <- Ht; ring|rot].
      - rewrite (corner3 r p q) by auto using is_mid_sym. split; intros X.
        + got X. exists b, c, a. split; [auto|]. split; [rewrite <- Ht; ring|rot].
        + destruct X as (a & b & c & (Ha & Hb & Hc) & Ht & Hx). exists c, a, b. do 3 (split; [auto|]). split; [rewrite <- Ht; ring|rot].
      - rewrite (middle3 p q r) by auto. split; intros X; [got X|destruct X as (a & b & c & (Ha & Hb & Hc) & Ht & Hx)]; exists a, b, c; tauto.
    Qed.
    Lemma child3_strict n qs x : nth_error ch3 n = Some qs -> strictly_inside dim qs x -> coords3 p q r x (open3 n).
    Proof using Hpq Hqr Hpr.
      intros H X. destruct n as [|[|[|[|n]]]]; cbn in H; try (destruct n; discriminate H); inversion H; subst qs; unfold coords3; cbn [open3].
      - apply (corner3_strict p q r) in X; auto using is_mid_sym. got X. exists a, b, c; tauto.
      - apply (corner3_strict q r p) in X; auto using is_mid_sym. got X. exists c, a, b. split; [auto|]. split; [rewrite <- Ht; ring|rot].
      - apply (corner3_strict r p q) in X; auto using is_mid_sym. got X. exists b, c, a. split; [auto|]. split; [rewrite <- Ht; ring|rot].
      - apply (middle3_strict p q r) in X; auto. got X. exists a, b, c; tauto.
    Qed.

    Lemma quarters_subdivide : independent dim [p; q; r] -> subdivides dim [p; q; r] ch3.
    Proof using Hpq Hqr Hpr.
      intros Hi. split.
      - intros x. split.
        + intros H. apply inside3 in H. got H.
          assert (X : exists n, n < 4 /\ closed3 n a b c).
          { destruct (qc_cases half a); [exists 0; cbn; auto with arith|]. destruct (qc_cases half b); [exists 1; cbn; auto with arith|].
            destruct (qc_cases half c); [exists 2; cbn; auto with arith|]. exists 3. cbn. auto with arith. }
          destruct X as (n & Hn & HR). destruct (nth_error_lt ch3 n Hn) as [qs Hqs]. exists qs. split; [eapply nth_error_In; eauto|].
          apply (child3 n qs x Hqs). exists a, b, c. auto.
        + intros (qs & Hqs & H). apply In_nth_error in Hqs as [n Hn]. apply (child3 n qs x Hn) in H as (a & b & c & HR & Ht & Hx).
          apply inside3. exists a, b, c. destruct n as [|[|[|[|n]]]]; cbn in HR; try tauto; destruct HR as (H1 & H2 & H3);
            (split; [qclra|]; split; [qclra|]; split; [qclra|]; auto).
      - intros i j qs rs x Hij Hq Hr S I. apply (child3_strict i qs x Hq) in S as (a & b & c & HS & Ht & Hx).
        apply (child3 j rs x Hr) in I as (a' & b' & c' & HR & Ht' & Hx').
        assert (X : [a; b; c] = [a'; b'; c']).
        { apply Hi; auto; cbn [total combination]; [rewrite <- Ht; ring|rewrite <- Ht'; ring|].
          intros k Hk. transitivity (vat x k); [rewrite (Hx k Hk)|rewrite (Hx' k Hk)]; ring. }
        inversion X; subst a' b' c'. clear X Ht' Hx Hx' Hi Hq Hr Hpq Hqr Hpr.
        destruct i as [|[|[|[|i]]]]; cbn in HS; try tauto; destruct j as [|[|[|[|j]]]]; cbn in HR; try tauto;
          destruct HS as (S1 & S2 & S3); destruct HR as (R1 & R2 & R3); qclra.
    Qed.
  End Triangle.
End Points.
