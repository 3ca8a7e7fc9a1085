(** Geometry of the refined tetrahedra. *)
From Coq Require Import QArith Lqa Permutation.
From Verif Require Import Util Lin MeshSpec MeshGeom.
Local Open Scope nat_scope.

Section Points.
  Variable dim : nat.
  Local Notation is_mid := (is_mid dim).
  Ltac sums := rewrite ?half_inv; field; exact two_0.
  Ltac splits := repeat match goal with |- (_ <= _)%Qc /\ _ => split; [qclra|] | |- (_ < _)%Qc /\ _ => split; [qclra|] | |- (@eq Qc _ _) /\ _ => split; [qclra|] end.

  Definition coords4 (p q r s x : list Qc) (R : Qc -> Qc -> Qc -> Qc -> Prop) : Prop :=
    exists a b c d, R a b c d /\ (a + b + c + d = 1)%Qc /\ forall k, k < dim -> vat x k = (a * vat p k + b * vat q k + c * vat r k + d * vat s k)%Qc.

  Lemma corner4 o p q r m1 m2 m3 x : is_mid m1 o p -> is_mid m2 o q -> is_mid m3 o r ->
    (inside dim [o; m1; m2; m3] x <-> coords4 o p q r x (fun a b c d => (half <= a /\ 0 <= b /\ 0 <= c /\ 0 <= d)%Qc)) /\
    (strictly_inside dim [o; m1; m2; m3] x -> coords4 o p q r x (fun a b c d => (half < a /\ 0 < b /\ 0 < c /\ 0 < d)%Qc)).
  Proof.
    intros H1 H2 H3. rewrite inside4. split; [split|].
    - intros (u & v & w & z & Hu & Hv & Hw & Hz & Ht & Hx). exists (u + half * v + half * w + half * z)%Qc, (half * v)%Qc, (half * w)%Qc, (half * z)%Qc.
      split; [splits; qclra|]. split; [qclra|]. intros k Hk. rewrite Hx, (H1 k Hk), (H2 k Hk), (H3 k Hk) by auto. ring.
    - intros (a & b & c & d & (Ha & Hb & Hc & Hd) & Ht & Hx). exists (a + a - 1)%Qc, (b + b)%Qc, (c + c)%Qc, (d + d)%Qc.
      splits. assert (Ea : a = (1 - b - c - d)%Qc) by qclra.
      intros k Hk. rewrite Hx, (H1 k Hk), (H2 k Hk), (H3 k Hk), Ea by auto. sums.
    - intros H. apply strictly_inside4 in H as (u & v & w & z & Hu & Hv & Hw & Hz & Ht & Hx). exists (u + half * v + half * w + half * z)%Qc, (half * v)%Qc, (half * w)%Qc, (half * z)%Qc.
      split; [splits; qclra|]. split; [qclra|]. intros k Hk. rewrite Hx, (H1 k Hk), (H2 k Hk), (H3 k Hk) by auto. ring.
  Qed.

  (** The tetrahedron at the diagonal from mxy to mzw with the other edges at x *)
  Lemma inner4 px py pz pw mxy mzw mxz mxw x : is_mid mxy px py -> is_mid mzw pz pw -> is_mid mxz px pz -> is_mid mxw px pw ->
    (inside dim [mxy; mzw; mxz; mxw] x <-> coords4 px py pz pw x (fun a b c d => (a <= half /\ 0 <= b /\ half <= a + c /\ half <= a + d)%Qc)) /\
    (strictly_inside dim [mxy; mzw; mxz; mxw] x -> coords4 px py pz pw x (fun a b c d => (a < half /\ 0 < b /\ half < a + c /\ half < a + d)%Qc)).
  Proof.
    intros H1 H2 H3 H4. rewrite inside4. split; [split|].
    - intros (u & v & w & z & Hu & Hv & Hw & Hz & Ht & Hx). exists (half * u + half * w + half * z)%Qc, (half * u)%Qc, (half * v + half * w)%Qc, (half * v + half * z)%Qc.
      split; [splits; qclra|]. split; [qclra|]. intros k Hk. rewrite Hx, (H1 k Hk), (H2 k Hk), (H3 k Hk), (H4 k Hk) by auto. ring.
    - intros (a & b & c & d & (Ha & Hb & Hc & Hd) & Ht & Hx). exists (b + b)%Qc, (1 - a - a)%Qc, (a + a + c + c - 1)%Qc, (a + a + d + d - 1)%Qc.
      splits. assert (Ea : a = (1 - b - c - d)%Qc) by qclra.
      intros k Hk. rewrite Hx, (H1 k Hk), (H2 k Hk), (H3 k Hk), (H4 k Hk), Ea by auto. sums.
    - intros H. apply strictly_inside4 in H as (u & v & w & z & Hu & Hv & Hw & Hz & Ht & Hx). exists (half * u + half * w + half * z)%Qc, (half * u)%Qc, (half * v + half * w)%Qc, (half * v + half * z)%Qc.
      split; [splits; qclra|]. split; [qclra|]. intros k Hk. rewrite Hx, (H1 k Hk), (H2 k Hk), (H3 k Hk), (H4 k Hk) by auto. ring.
  Qed.

  Definition closed4 (n : nat) (a b c d : Qc) : Prop :=
    match n with
    | 0 => (half <= a /\ 0 <= b /\ 0 <= c /\ 0 <= d)%Qc
    | 1 => (half <= b /\ 0 <= a /\ 0 <= c /\ 0 <= d)%Qc
    | 2 => (half <= c /\ 0 <= a /\ 0 <= b /\ 0 <= d)%Qc
    | 3 => (half <= d /\ 0 <= a /\ 0 <= b /\ 0 <= c)%Qc
    | 4 => (a <= half /\ 0 <= b /\ half <= a + c /\ half <= a + d)%Qc
    | 5 => (b <= half /\ 0 <= a /\ half <= b + c /\ half <= b + d)%Qc
    | 6 => (c <= half /\ 0 <= d /\ half <= c + a /\ half <= c + b)%Qc
    | 7 => (d <= half /\ 0 <= c /\ half <= d + a /\ half <= d + b)%Qc
    | _ => False
    end.
  Definition open4 (n : nat) (a b c d : Qc) : Prop :=
    match n with
    | 0 => (half < a /\ 0 < b /\ 0 < c /\ 0 < d)%Qc
    | 1 => (half < b /\ 0 < a /\ 0 < c /\ 0 < d)%Qc
    | 2 => (half < c /\ 0 < a /\ 0 < b /\ 0 < d)%Qc
    | 3 => (half < d /\ 0 < a /\ 0 < b /\ 0 < c)%Qc
    | 4 => (a < half /\ 0 < b /\ half < a + c /\ half < a + d)%Qc
    | 5 => (b < half /\ 0 < a /\ half < b + c /\ half < b + d)%Qc
    | 6 => (c < half /\ 0 < d /\ half < c + a /\ half < c + b)%Qc
    | 7 => (d < half /\ 0 < c /\ half < d + a /\ half < d + b)%Qc
    | _ => False
    end.

  Section Tetrahedron.
    Variables p0 p1 p2 p3 m01 m02 m03 m12 m13 m23 : list Qc.
    Hypothesis H01 : is_mid m01 p0 p1.
    Hypothesis H02 : is_mid m02 p0 p2.
    Hypothesis H03 : is_mid m03 p0 p3.
    Hypothesis H12 : is_mid m12 p1 p2.
    Hypothesis H13 : is_mid m13 p1 p3.
    Hypothesis H23 : is_mid m23 p2 p3.
    Definition ch4 := [[p0; m01; m02; m03]; [p1; m01; m12; m13]; [p2; m02; m12; m23]; [p3; m03; m13; m23];
                       [m01; m23; m02; m03]; [m01; m23; m12; m13]; [m23; m01; m02; m12]; [m23; m01; m03; m13]].

    Ltac fwd X := destruct X as (a & b & c & d & HR & Ht & Hx).
    Ltac fin := cbn in *; split; [tauto|]; split; [match goal with H : (_ = 1)%Qc |- _ => rewrite <- H; ring end|];
      intros k Hk; match goal with H : forall k, k < dim -> _ = _ |- _ => rewrite (H k Hk); ring end.

    Lemma child4 n qs x : nth_error ch4 n = Some qs ->
      (inside dim qs x <-> coords4 p0 p1 p2 p3 x (closed4 n)) /\ (strictly_inside dim qs x -> coords4 p0 p1 p2 p3 x (open4 n)).
    Proof using H01 H02 H03 H12 H13 H23.
      intros H. destruct n as [|[|[|[|[|[|[|[|n]]]]]]]]; cbn in H; try (destruct n; discriminate H); inversion H; subst qs; clear H.
      - destruct (corner4 p0 p1 p2 p3 m01 m02 m03 x) as [A B]; auto using is_mid_sym.
      - destruct (corner4 p1 p0 p2 p3 m01 m12 m13 x) as [A B]; auto using is_mid_sym. rewrite A. split; [split|intros X; apply B in X]; try intros X; fwd X.
        + exists b, a, c, d. fin. + exists b, a, c, d. fin. + exists b, a, c, d. fin.
      - destruct (corner4 p2 p0 p1 p3 m02 m12 m23 x) as [A B]; auto using is_mid_sym. rewrite A. split; [split|intros X; apply B in X]; try intros X; fwd X.
        + exists b, c, a, d. fin. + exists c, a, b, d. fin. + exists b, c, a, d. fin.
      - destruct (corner4 p3 p0 p1 p2 m03 m13 m23 x) as [A B]; auto using is_mid_sym. rewrite A. split; [split|intros X; apply B in X]; try intros X; fwd X.
        + exists b, c, d, a. fin. + exists d, a, b, c. fin. + exists b, c, d, a. fin.
      - destruct (inner4 p0 p1 p2 p3 m01 m23 m02 m03 x) as [A B]; auto using is_mid_sym.
      - destruct (inner4 p1 p0 p2 p3 m01 m23 m12 m13 x) as [A B]; auto using is_mid_sym. rewrite A. split; [split|intros X; apply B in X]; try intros X; fwd X.
        + exists b, a, c, d. fin. + exists b, a, c, d. fin. + exists b, a, c, d. fin.
      - destruct (inner4 p2 p3 p0 p1 m23 m01 m02 m12 x) as [A B]; auto using is_mid_sym. rewrite A. split; [split|intros X; apply B in X]; try intros X; fwd X.
        + exists c, d, a, b. fin. + exists c, d, a, b. fin. + exists c, d, a, b. fin.
      - destruct (inner4 p3 p2 p0 p1 m23 m01 m03 m13 x) as [A B]; auto using is_mid_sym. rewrite A. split; [split|intros X; apply B in X]; try intros X; fwd X.
        + exists c, d, b, a. fin. + exists d, c, a, b. fin. + exists c, d, b, a. fin.
    Qed.

    Lemma ch4_subdivide : independent dim [p0; p1; p2; p3] -> subdivides dim [p0; p1; p2; p3] ch4.
    Proof using H01 H02 H03 H12 H13 H23.
      intros Hi. split.
      - intros x. split.
        + intros H. apply inside4 in H as (a & b & c & d & Ha & Hb & Hc & Hd & Ht & Hx).
          assert (X : exists n, n < 8 /\ closed4 n a b c d).
          { destruct (qc_cases half a); [exists 0; cbn; split; [lia|tauto]|]. destruct (qc_cases half b); [exists 1; cbn; split; [lia|tauto]|].
            destruct (qc_cases half c); [exists 2; cbn; split; [lia|tauto]|]. destruct (qc_cases half d); [exists 3; cbn; split; [lia|tauto]|].
            clear Hx. destruct (qc_cases half (a + c)), (qc_cases half (a + d)).
            - exists 4. split; [lia|]. cbn. tauto.
            - exists 6. split; [lia|]. cbn. splits. qclra.
            - exists 7. split; [lia|]. cbn. splits. qclra.
            - exists 5. split; [lia|]. cbn. splits. qclra. }
          destruct X as (n & Hn & HR). destruct (nth_error_lt ch4 n Hn) as [qs Hqs]. exists qs. split; [eapply nth_error_In; eauto|].
          apply (child4 n qs x Hqs). exists a, b, c, d. auto.
        + intros (qs & Hqs & H). apply In_nth_error in Hqs as [n Hn]. apply (child4 n qs x Hn) in H as (a & b & c & d & HR & Ht & Hx).
          apply inside4. exists a, b, c, d. destruct n as [|[|[|[|[|[|[|[|n]]]]]]]]; cbn in HR; try tauto; destruct HR as (X1 & X2 & X3 & X4);
            (do 4 (split; [clear Hx; qclra|]); auto).
      - intros i j qs rs x Hij Hq Hr S I. apply (child4 i qs x Hq) in S as (a & b & c & d & HS & Ht & Hx).
        apply (child4 j rs x Hr) in I as (a' & b' & c' & d' & HR & Ht' & Hx').
        assert (X : [a; b; c; d] = [a'; b'; c'; d']).
        { apply Hi; auto; cbn [total combination]; [rewrite <- Ht; ring|rewrite <- Ht'; ring|].
          intros k Hk. transitivity (vat x k); [rewrite (Hx k Hk)|rewrite (Hx' k Hk)]; ring. }
        inversion X; subst a' b' c' d'. clear X Ht' Hx Hx' Hi Hq Hr H01 H02 H03 H12 H13 H23.
        destruct i as [|[|[|[|[|[|[|[|i]]]]]]]]; cbn in HS; try tauto; destruct j as [|[|[|[|[|[|[|[|j]]]]]]]]; cbn in HR; try tauto;
          destruct HS as (S1 & S2 & S3 & S4); destruct HR as (R1 & R2 & R3 & R4); qclra.
    Qed.
  End Tetrahedron.

  (** *** Order of corners and children *)
  Lemma combo_perm (w w' : list (Qc * list Qc)) : Permutation w w' ->
    total (map fst w) = total (map fst w') /\ forall k, combination (map fst w) (map snd w) k = combination (map fst w') (map snd w') k.
  Proof.
    induction 1 as [|a w w' _ [IH1 IH2]|a b w|w1 w2 w3 _ [A1 A2] _ [B1 B2]]; cbn [map total combination]; auto.
    - rewrite IH1. split; auto. intros k. rewrite IH2. auto.
    - split; intros; ring.
    - split; [congruence|]. intros k. rewrite A2. auto.
  Qed.
  Lemma paired {A B} (l : list A) (ps ps' : list B) : length l = length ps -> Permutation ps ps' ->
    exists w : list (A * B), exists w', Permutation w w' /\ map fst w = l /\ map snd w = ps /\ map snd w' = ps'.
  Proof.
    intros Hl Hp. exists (combine l ps).
    assert (X : map snd (combine l ps) = ps).
    { clear Hp. revert ps Hl. induction l as [|a l IH]; intros [|b ps] Hl; cbn in *; try discriminate; auto. f_equal. auto. }
    assert (Y : map fst (combine l ps) = l).
    { clear Hp X. revert ps Hl. induction l as [|a l IH]; intros [|b ps] Hl; cbn in *; try discriminate; auto. f_equal. auto. }
    assert (Z : Permutation ps' (map snd (combine l ps))) by (rewrite X; apply Permutation_sym; auto).
    apply Permutation_map_inv in Z as (w' & E & P). exists w'. auto using Permutation_sym.
  Qed.
  Lemma inside_perm ps ps' x : Permutation ps ps' -> (inside dim ps x -> inside dim ps' x) /\ (strictly_inside dim ps x -> strictly_inside dim ps' x).
  Proof.
    intros Hp. split; intros (l & Hl & Hpos & Ht & Hx); destruct (paired l ps ps' Hl Hp) as (w & w' & P & W1 & W2 & W3);
      destruct (combo_perm w w' P) as [C1 C2]; exists (map fst w'); subst l ps ps'; rewrite !map_length;
      (split; [auto|]; split; [intros u Hu; apply Hpos; apply (Permutation_in _ (Permutation_map fst (Permutation_sym P))); auto|];
       split; [congruence|]; intros k Hk; rewrite <- C2; auto).
  Qed.
  Lemma inside_perm_iff ps ps' x : Permutation ps ps' -> (inside dim ps x <-> inside dim ps' x).
  Proof. intros H. split; apply inside_perm; auto using Permutation_sym. Qed.

  Lemma subdivides_perm ps ps' ch ch1 ch' : subdivides dim ps ch -> Permutation ps ps' -> Forall2 (@Permutation _) ch ch1 -> Permutation ch1 ch' ->
    subdivides dim ps' ch'.
  Proof.
    intros [S1 S2] Hp HF HP.
    assert (HFn : forall n qs, nth_error ch1 n = Some qs -> exists rs, nth_error ch n = Some rs /\ Permutation rs qs).
    { clear - HF. induction HF as [|a b ch ch1 H HF IH]; intros n qs Hn; destruct n as [|n]; cbn in *; try discriminate; [inversion Hn; subst; eauto|auto]. }
    assert (HFi : forall rs, In rs ch -> exists qs, In qs ch1 /\ Permutation rs qs).
    { clear - HF. induction HF as [|a b ch ch1 H HF IH]; intros rs Hn; cbn in *; [tauto|]. destruct Hn as [<-|Hn]; [eauto|]. destruct (IH rs Hn) as (qs & A & B). eauto. }
    split.
    - intros x. rewrite <- (inside_perm_iff _ _ _ Hp), S1. split.
      + intros (rs & Hr & H). destruct (HFi rs Hr) as (qs & Hq & P). exists qs. split; [eapply Permutation_in; eauto|]. apply (inside_perm_iff _ _ _ P). auto.
      + intros (qs & Hq & H). apply (Permutation_in _ (Permutation_sym HP)) in Hq. apply In_nth_error in Hq as [n Hn].
        destruct (HFn n qs Hn) as (rs & Hr & P). exists rs. split; [eapply nth_error_In; eauto|]. apply (inside_perm_iff _ _ _ P). auto.
    - apply Permutation_nth_error in HP as (_ & f & Hf & HPn).
      intros i j qs rs x Hij Hq Hr S I. rewrite HPn in Hq, Hr. destruct (HFn _ _ Hq) as (q1 & Hq1 & P1). destruct (HFn _ _ Hr) as (r1 & Hr1 & P2).
      apply (S2 (f i) (f j) q1 r1 x); auto.
      + apply (inside_perm _ _ x (Permutation_sym P1)). auto.
      + apply (inside_perm_iff _ _ _ P2). auto.
  Qed.

  Lemma independent_perm ps ps' : Permutation ps ps' -> independent dim ps -> independent dim ps'.
  Proof.
    intros Hp Hi l l' Hl Hl' Ht Ht' Hk.
    assert (X : exists w w', Permutation w w' /\ map fst (map fst w) = l /\ map snd (map fst w) = l' /\ map snd w = ps' /\ map snd w' = ps).
    { destruct (paired (combine l l') ps' ps) as (w & w' & P & W1 & W2 & W3); [rewrite combine_length; lia|apply Permutation_sym; auto|].
      exists w, w'. split; auto. rewrite W1. split; [|split; [|auto]].
      - clear - Hl Hl'. revert l' ps' Hl Hl'. induction l as [|a l IH]; intros [|b l'] [|c ps'] Hl Hl'; cbn in *; try discriminate; auto. f_equal. eapply (IH l' ps'); lia.
      - clear - Hl Hl'. revert l' ps' Hl Hl'. induction l as [|a l IH]; intros [|b l'] [|c ps'] Hl Hl'; cbn in *; try discriminate; auto. f_equal. eapply (IH l' ps'); lia. }
    destruct X as (w & w' & P & W1 & W2 & W3 & W4).
    assert (C1 := combo_perm (map (fun z => (fst (fst z), snd z)) w) (map (fun z => (fst (fst z), snd z)) w') (Permutation_map _ P)).
    assert (C2 := combo_perm (map (fun z => (snd (fst z), snd z)) w) (map (fun z => (snd (fst z), snd z)) w') (Permutation_map _ P)).
    rewrite !map_map in C1, C2. cbn [fst snd] in C1, C2. rewrite <- !(map_map fst fst) in C1. rewrite <- !(map_map fst snd) in C2.
    change (fun z : Qc * Qc * list Qc => snd z) with (@snd (Qc * Qc) (list Qc)) in C1, C2.
    rewrite W1, W3, W4 in C1. rewrite W2, W3, W4 in C2. destruct C1 as [T1 K1]. destruct C2 as [T2 K2].
    assert (X : map fst (map fst w') = map snd (map fst w')).
    { apply Hi; [rewrite !map_length, <- W4, map_length; auto|rewrite !map_length, <- W4, map_length; auto|congruence|congruence|].
      intros k Hk'. rewrite <- K1, <- K2. auto. }
    assert (Y : forall z, In z w -> fst (fst z) = snd (fst z)).
    { intros z Hz. apply (Permutation_in _ P) in Hz. rewrite !map_map in X. clear - X Hz. induction w' as [|y w' IH]; cbn in *; [tauto|].
      inversion X. destruct Hz as [<-|Hz]; auto. }
    rewrite <- W1, <- W2. rewrite !map_map. apply map_ext_in. auto.
  Qed.
End Points.
