(** The multigrid cycle as a matrix: linearity and symmetry. *)
From Verif Require Import Util Lin CSRModel CSRProofs TriModel TriSpec TriProofs SmootherModel SmootherSpec SmootherProofs3 MGModel MGSpec MGProofs MGProofs2.
Set Default Proof Using "Type".
Local Open Scope Qc_scope.

Lemma dot_plus n u v w : dotf n u (fun i => v i + w i) = dotf n u v + dotf n u w.
Proof. unfold dotf. rewrite <- sumf_plus. apply sumf_ext. intros; ring. Qed.
Lemma dot_minus n u v w : dotf n u (fun i => v i - w i) = dotf n u v - dotf n u w.
Proof. unfold dotf. rewrite <- sumf_minus. apply sumf_ext. intros; ring. Qed.
Lemma dot_plus_l n u v w : dotf n (fun i => v i + w i) u = dotf n v u + dotf n w u.
Proof. rewrite !(dotf_comm n _ u). apply dot_plus. Qed.
Lemma dot_minus_l n u v w : dotf n (fun i => v i - w i) u = dotf n v u - dotf n w u.
Proof. rewrite !(dotf_comm n _ u). apply dot_minus. Qed.
Lemma dot_ext n u u' v v' : (forall i, (i < n)%nat -> u i = u' i) -> (forall i, (i < n)%nat -> v i = v' i) -> dotf n u v = dotf n u' v'.
Proof. intros H1 H2. apply sumf_ext. intros i Hi. rewrite H1, H2; auto. Qed.

(** Adjoint matrices and inner products. *)
Lemma adjoint_dot n m A B u v : adjoint n m A B -> dotf n u (mv m A v) = dotf m (mv n B u) v.
Proof.
  intros H. rewrite mv_adjoint. apply dot_ext; auto. intros i Hi. apply sumf_ext. intros j Hj. unfold mt. rewrite H; auto.
Qed.
Lemma symmetric_adjoint n A : symmetric n A <-> adjoint n n A A.
Proof. unfold symmetric, adjoint. tauto. Qed.
Lemma adjoint_swap n m A B : adjoint n m A B -> adjoint m n B A.
Proof. intros H i j Hi Hj. symmetry. apply H; auto. Qed.

Definition unit_vec (k i : nat) : Qc := if (i =? k)%nat then 1 else 0.
Lemma mv_unit m A k i : (k < m)%nat -> mv m A (unit_vec k) i = A i k.
Proof.
  intros Hk. unfold mv. rewrite (sumf_single m _ k Hk).
  - unfold unit_vec. rewrite Nat.eqb_refl. ring.
  - intros j _ Hne. unfold unit_vec. apply Nat.eqb_neq in Hne. rewrite Hne. ring.
Qed.
Lemma dot_unit n k v : (k < n)%nat -> dotf n (unit_vec k) v = v k.
Proof.
  intros Hk. unfold dotf. rewrite (sumf_single n _ k Hk).
  - unfold unit_vec. rewrite Nat.eqb_refl. ring.
  - intros j _ Hne. unfold unit_vec. apply Nat.eqb_neq in Hne. rewrite Hne. ring.
Qed.
Lemma dot_adjoint n m A B : (forall u v, dotf n u (mv m A v) = dotf m (mv n B u) v) -> adjoint n m A B.
Proof.
  intros H i j Hi Hj. specialize (H (unit_vec i) (unit_vec j)). rewrite dot_unit, mv_unit in H by auto.
  rewrite dotf_comm, dot_unit, mv_unit in H by auto. auto.
Qed.

(** * Iterating x + M (b - A x) *)
Fixpoint series (n : nat) (A M : mat) (k : nat) : mat :=
  match k with
  | O => fun _ _ => 0
  | S k' => fun i j => series n A M k' i j + (M i j - mm n M (mm n A (series n A M k')) i j)
  end.

Lemma mv_madd n A B v i : mv n (fun i j => A i j + B i j) v i = mv n A v i + mv n B v i.
Proof. unfold mv. rewrite <- sumf_plus. apply sumf_ext. intros; ring. Qed.
Lemma mv_msub n A B v i : mv n (fun i j => A i j - B i j) v i = mv n A v i - mv n B v i.
Proof. unfold mv. rewrite <- sumf_minus. apply sumf_ext. intros; ring. Qed.

Lemma mv_series_S n A M k v i :
  mv n (series n A M (S k)) v i = mv n (series n A M k) v i + (mv n M v i - mv n M (mv n A (mv n (series n A M k) v)) i).
Proof.
  cbn [series]. rewrite mv_madd, mv_msub. rewrite mv_mm_rect. do 2 f_equal. apply mv_ext. intros j _. apply mv_mm_rect.
Qed.
Lemma mv_series_0 n A M v i : mv n (series n A M 0) v i = 0.
Proof. cbn [series]. unfold mv. apply sumf_zero. intros; ring. Qed.

Lemma series_comm n A M k : forall v i,
  mv n M (mv n A (mv n (series n A M k) v)) i = mv n (series n A M k) (mv n A (mv n M v)) i.
Proof.
  induction k as [|k IH]; intros v i.
  - rewrite mv_series_0. apply mv_zero. intros j _. apply mv_zero. intros l _. apply mv_series_0.
  - rewrite mv_series_S.
    rewrite (mv_ext n M _ (fun j => mv n A (mv n (series n A M k) v) j + (mv n A (mv n M v) j - mv n A (mv n M (mv n A (mv n (series n A M k) v))) j))).
    2: { intros j _. rewrite (mv_ext n A _ (fun l => mv n (series n A M k) v l + (mv n M v l - mv n M (mv n A (mv n (series n A M k) v)) l)))
           by (intros; apply mv_series_S). rewrite mv_plus, mv_minus. reflexivity. }
    rewrite mv_plus, mv_minus, IH.
    rewrite (mv_ext n M (mv n A (mv n M (mv n A (mv n (series n A M k) v)))) (mv n A (mv n (series n A M k) (mv n A (mv n M v))))).
    + reflexivity.
    + intros j _. apply mv_ext. intros l _. apply IH.
Qed.

Lemma series_adjoint n A M1 M2 k : symmetric n A -> adjoint n n M1 M2 -> adjoint n n (series n A M1 k) (series n A M2 k).
Proof.
  intros HA HM. induction k as [|k IH].
  - intros i j _ _. reflexivity.
  - apply dot_adjoint. intros u v.
    set (N1 := series n A M1 k) in *. set (N2 := series n A M2 k) in *.
    rewrite (dot_ext n u u _ (fun i => mv n N1 v i + (mv n M1 v i - mv n N1 (mv n A (mv n M1 v)) i))).
    2: auto. 2: { intros i _. rewrite mv_series_S, series_comm. reflexivity. }
    rewrite dot_plus, dot_minus.
    rewrite (dot_ext n (mv n (series n A M2 (S k)) u) (fun i => mv n N2 u i + (mv n M2 u i - mv n M2 (mv n A (mv n N2 u)) i)) v v).
    3: auto. 2: { intros i _. apply mv_series_S. }
    rewrite dot_plus_l, dot_minus_l.
    rewrite !(adjoint_dot n n N1 N2) by auto. rewrite (adjoint_dot n n M1 M2 u v) by auto.
    rewrite (adjoint_dot n n A A (mv n N2 u)) by (apply symmetric_adjoint; auto).
    rewrite (adjoint_dot n n M1 M2 _ v) by auto. reflexivity.
Qed.

Lemma resid_at n A b x i : (i < n)%nat -> vat (resid n A b x) i = vat b i - mv n A (vat x) i.
Proof. intros Hi. apply vat_tab; auto. Qed.

(** Iterating from x with the right-hand side b. *)
Lemma iter_series n A M S b x k : smooths_by n A M S -> length b = n -> length x = n ->
  Nat.iter k (S b) x = tab n (fun i => vat x i + mv n (series n A M k) (vat (resid n A b x)) i).
Proof.
  intros HS Hb Hx. induction k as [|k IH].
  - cbn [Nat.iter nat_rect]. apply (eq_tab _ _ _ 0 Hx). intros i Hi. rewrite mv_series_0. change (nth i x 0) with (vat x i). ring.
  - change (Nat.iter (Datatypes.S k) (S b) x) with (S b (Nat.iter k (S b) x)). rewrite IH.
    set (y := tab n _). rewrite HS by (auto; apply tab_length). apply tab_ext. intros i Hi.
    unfold y at 1. rewrite vat_tab by auto. rewrite mv_series_S.
    rewrite (mv_ext n M (vat (resid n A b y)) (fun j => vat (resid n A b x) j - mv n A (mv n (series n A M k) (vat (resid n A b x))) j)).
    + rewrite mv_minus. ring.
    + intros j Hj. rewrite !resid_at by auto. unfold y. rewrite (mv_ext n A _ (fun l => vat x l + mv n (series n A M k) (vat (resid n A b x)) l)).
      * rewrite mv_plus. ring.
      * intros l Hl. apply vat_tab; auto.
Qed.

Lemma iter_series0 n A M S b k : smooths_by n A M S -> length b = n ->
  Nat.iter k (S b) (zeros n) = tab n (mv n (series n A M k) (vat b)).
Proof.
  intros HS Hb. rewrite (iter_series n A M S b (zeros n) k HS Hb) by apply tab_length. apply tab_ext. intros i Hi.
  rewrite resid_zeros by auto. rewrite vat_zeros. ring.
Qed.

(** * One level *)
Section Level.
  Variables (n m : nat) (A R P N1 N2 K : mat).

  (** A P K R (I - A N1) etc. as matrices *)
  Definition cg : mat := mm m P (mm m K R).
  Definition rest : mat := fun i j => unit_vec j i - mm n A N1 i j.
  Definition corr : mat := mm n cg rest.
  Definition two_level : mat := fun i j => N1 i j + (corr i j + mm n N2 (fun i j => rest i j - mm n A corr i j) i j).

  Lemma mv_rest v i : (i < n)%nat -> mv n rest v i = v i - mv n A (mv n N1 v) i.
  Proof.
    intros Hi. unfold rest. rewrite mv_msub, mv_mm_rect. f_equal. unfold mv. rewrite (sumf_single n _ i Hi).
    - unfold unit_vec. rewrite Nat.eqb_refl. ring.
    - intros j _ Hne. unfold unit_vec. apply not_eq_sym, Nat.eqb_neq in Hne. rewrite Hne. ring.
  Qed.
  Lemma mv_cg v i : mv n cg v i = mv m P (mv m K (mv n R v)) i.
  Proof. unfold cg. rewrite mv_mm_rect. apply mv_ext. intros j _. apply mv_mm_rect. Qed.
  Lemma mv_two_level v i :
    mv n two_level v i = mv n N1 v i + (mv n cg (mv n rest v) i + mv n N2 (fun j => mv n rest v j - mv n A (mv n cg (mv n rest v)) j) i).
  Proof.
    unfold two_level. rewrite !mv_madd, mv_mm_rect. unfold corr. rewrite mv_mm_rect. do 2 f_equal. apply mv_ext. intros j _.
    rewrite mv_msub, mv_mm_rect. f_equal. apply mv_ext. intros l _. apply mv_mm_rect.
  Qed.

  Hypothesis HA : symmetric n A.
  Hypothesis HRP : adjoint m n R P.
  Hypothesis HN : adjoint n n N1 N2.
  Hypothesis HK : symmetric m K.

  Lemma cg_sym u v : dotf n u (mv n cg v) = dotf n (mv n cg u) v.
  Proof using HRP HK.
    rewrite (dot_ext n u u _ (mv m P (mv m K (mv n R v)))) by (auto; intros; apply mv_cg).
    rewrite (dot_ext n _ (mv m P (mv m K (mv n R u))) v v) by (auto; intros; apply mv_cg).
    rewrite (adjoint_dot n m P R) by (apply adjoint_swap; auto).
    rewrite (adjoint_dot m m K K) by (apply symmetric_adjoint; auto).
    rewrite (adjoint_dot m n R P) by auto. reflexivity.
  Qed.

  Lemma two_level_sym : symmetric n two_level.
  Proof using HA HRP HN HK.
    apply symmetric_adjoint, dot_adjoint.
    assert (HF : forall u v, dotf n u (mv n two_level v) =
       dotf n u (mv n N1 v) + dotf n (mv n N1 u) v - dotf n (mv n N1 u) (mv n A (mv n N1 v)) + dotf n (mv n rest u) (mv n cg (mv n rest v))).
    { intros u v. set (w := mv n cg (mv n rest v)).
      rewrite (dot_ext n u u _ (fun i => mv n N1 v i + (w i + mv n N2 (fun j => mv n rest v j - mv n A w j) i))) by (auto; intros; apply mv_two_level).
      rewrite !dot_plus. rewrite (adjoint_dot n n N2 N1) by (apply adjoint_swap; auto). rewrite dot_minus.
      rewrite (dot_ext n (mv n N1 u) (mv n N1 u) (mv n rest v) (fun i => v i - mv n A (mv n N1 v) i)) by (auto; intros; apply mv_rest; auto).
      rewrite dot_minus. rewrite (adjoint_dot n n A A (mv n N1 u) w) by (apply symmetric_adjoint; auto).
      rewrite (dot_ext n (mv n rest u) (fun i => u i - mv n A (mv n N1 u) i) w w) by (auto; intros; apply mv_rest; auto).
      rewrite dot_minus_l. ring. }
    intros u v. rewrite HF. rewrite (dotf_comm n (mv n two_level u) v), HF.
    rewrite (dotf_comm n u (mv n N1 v)), (dotf_comm n (mv n N1 u) v).
    rewrite (adjoint_dot n n A A (mv n N1 v)) by (apply symmetric_adjoint; auto).
    rewrite (dotf_comm n (mv n A (mv n N1 v)) (mv n N1 u)).
    rewrite (cg_sym (mv n rest v)). rewrite (dotf_comm n (mv n cg (mv n rest v))). ring.
  Qed.
End Level.

(** * All levels *)
Section Levels.
  Variables (H : hierarchy) (top cyc : nat) (C : mat) (N : nat -> bool -> mat).
  Hypothesis Hcyc : (0 < cyc)%nat.
  Hypothesis HC : forall b, length b = dim H 0 -> hC H b = tab (dim H 0) (mv (dim H 0) C (vat b)).
  Hypothesis HS : forall l post, (0 < l <= top)%nat -> smooths_by (dim H l) (hA H l) (N l post) (hS H l post).

  (** the matrix of the cycle on level l >= 1 and of the coarse part *)
  Fixpoint cyc_mat (l : nat) : mat :=
    match l with
    | O => C
    | S k => two_level (dim H l) (dim H k) (hA H l) (hR H l) (hP H l) (N l false) (N l true)
               (match k with O => C | _ => series (dim H k) (hA H k) (cyc_mat k) cyc end)
    end.
  Definition coarse_mat (k : nat) : mat :=
    match k with O => C | _ => series (dim H k) (hA H k) (cyc_mat k) cyc end.

  Lemma cycle_matrix : forall l, (0 < l <= top)%nat -> smooths_by (dim H l) (hA H l) (cyc_mat l) (mg H cyc l).
  Proof using Hcyc HC HS.
    induction l as [|l IH]; intros Hl b x Hb Hx; [lia|].
    change (cyc_mat (S l)) with (two_level (dim H (S l)) (dim H l) (hA H (S l)) (hR H (S l)) (hP H (S l)) (N (S l) false) (N (S l) true) (coarse_mat l)).
    cbn [mg]. set (n := dim H (S l)) in *. set (m := dim H l) in *. set (A := hA H (S l)). 
    set (y := hS H (S l) false b x). set (d := tab m _).
    assert (Ld : length d = m) by apply tab_length.
    assert (Ec : Nat.iter cyc (mg H cyc l d) (tab m (fun _ => 0)) = tab m (mv m (coarse_mat l) (vat d))).
    { destruct l as [|l'].
      - rewrite (iter_const _ cyc _ (hC H d)) by auto. apply HC; auto.
      - fold (zeros m). unfold coarse_mat. rewrite (iter_series0 m (hA H (S l')) (cyc_mat (S l')) (mg H cyc (S l'))); auto.
        apply IH. lia. }
    rewrite Ec. clear Ec.
    assert (Ly : length y = n) by (unfold y; rewrite (HS (S l) false) by (auto; lia); apply tab_length).
    rewrite (HS (S l) true) by (auto using tab_length; lia).
    apply tab_ext. intros i Hi. rewrite vat_tab by auto.
    set (r := vat (resid n A b x)).
    assert (Ey : forall j, (j < n)%nat -> vat y j = vat x j + mv n (N (S l) false) r j).
    { intros j Hj. unfold y. rewrite (HS (S l) false) by (auto; lia). apply vat_tab; auto. }
    rewrite mv_two_level, Ey by auto.
    assert (Er : forall j, (j < n)%nat -> vat (resid n A b y) j = mv n (rest n A (N (S l) false)) r j).
    { intros j Hj. rewrite mv_rest, resid_at by auto. rewrite (mv_ext n A (vat y) (fun k => vat x k + mv n (N (S l) false) r k)) by auto.
      rewrite mv_plus. unfold r at 2. rewrite resid_at by auto. ring. }
    assert (Ew : forall j, (j < n)%nat -> mv m (hP H (S l)) (vat (tab m (mv m (coarse_mat l) (vat d)))) j
                   = mv n (cg m (hR H (S l)) (hP H (S l)) (coarse_mat l)) (mv n (rest n A (N (S l) false)) r) j).
    { intros j Hj. rewrite mv_cg. apply mv_ext. intros k Hk. rewrite vat_tab by auto. apply mv_ext. intros k' Hk'. unfold d.
      rewrite vat_tab by auto. apply mv_ext. intros k'' Hk''. apply Er; auto. }
    rewrite Ew by auto.
    set (w := mv n (cg m (hR H (S l)) (hP H (S l)) (coarse_mat l)) (mv n (rest n A (N (S l) false)) r)) in *.
    rewrite (mv_ext n (N (S l) true) _ (fun j => mv n (rest n A (N (S l) false)) r j - mv n A w j)); [unfold w; ring|].
    intros j Hj. rewrite resid_at by auto. rewrite (mv_ext n A _ (fun k => vat y k + w k)).
    - rewrite mv_plus. rewrite <- Er, resid_at by auto. ring.
    - intros k Hk. rewrite vat_tab by auto. rewrite Ew by auto. reflexivity.
  Qed.

  Hypothesis HCs : symmetric (dim H 0) C.
  Hypothesis Hsym : forall l, (0 < l <= top)%nat -> symmetric (dim H l) (hA H l) /\
    adjoint (dim H (l - 1)) (dim H l) (hR H l) (hP H l) /\ adjoint (dim H l) (dim H l) (N l false) (N l true).

  Lemma cycle_sym : forall l, (l <= top)%nat -> symmetric (dim H l) (cyc_mat l).
  Proof using HCs Hsym.
    clear Hcyc. induction l as [|l IH]; intros Hl; [exact HCs|].
    destruct (Hsym (S l)) as (H1 & H2 & H3); [lia|]. replace (S l - 1)%nat with l in H2 by lia.
    cbn [cyc_mat]. apply two_level_sym; auto.
    destruct l as [|l']; [exact HCs|].
    apply symmetric_adjoint. apply series_adjoint; [apply Hsym; lia|]. apply symmetric_adjoint. apply IH. lia.
  Qed.
End Levels.
