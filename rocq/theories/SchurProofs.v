(** Selections and the algebra of Schur complements. *)
From Coq Require Import Permutation.
From Verif Require Import Util Lin SparsitySpec CSRModel CSRSpec CSRProofs OpsProofs3 DenseModel SmootherModel CompModel CompSpec CompProofs7 SchurModel SchurSpec.
Local Open Scope nat_scope.
Set Default Proof Using "Type".

Lemma in_rest n I k : In k (rest n I) <-> k < n /\ ~ In k I.
Proof.
  unfold rest. rewrite filter_In, in_seq, negb_true_iff. split.
  - intros (H & E). split; [lia|]. intros HI. assert (X : existsb (Nat.eqb k) I = true) by (apply existsb_exists; exists k; split; [exact HI|apply Nat.eqb_refl]). congruence.
  - intros (H & N). split; [lia|]. apply not_true_is_false. intros X. apply existsb_exists in X. destruct X as (j & Hj & E). apply Nat.eqb_eq in E. subst j. exact (N Hj).
Qed.
Lemma rest_nodup n I : NoDup (rest n I).
Proof. apply NoDup_filter, seq_NoDup. Qed.

Lemma others_ok n I : (forall i, In i I -> i < n) -> others n I = Ok (rest n I).
Proof.
  intros H. unfold others.
  assert (G : forall l temp, (forall i, In i l -> i < n) -> length temp = n -> exists temp', for_list l (fun dof temp => aset temp dof false) temp = Ok temp' /\
    forall k, nth k temp' false = (nth k temp false && negb (existsb (Nat.eqb k) l))%bool).
  { induction l as [|d l IH]; intros temp Hl L; cbn [for_list existsb].
    - exists temp. split; [reflexivity|]. intros k. now rewrite andb_true_r.
    - rewrite aset_ok by (rewrite L; apply Hl; left; auto). cbn [bind].
      destruct (IH (upd temp d false)) as (t' & E & N); [intros i Hi; apply Hl; right; auto|rewrite upd_length; auto|].
      exists t'. split; [exact E|]. intros k. rewrite N. destruct (Nat.eqb_spec k d) as [->|Ne]; cbn [orb negb].
      + rewrite nth_upd_eq by (rewrite L; apply Hl; left; auto). now rewrite andb_false_r.
      + rewrite nth_upd_neq by auto. reflexivity. }
  destruct (G I (repeat true n) H (repeat_length _ _)) as (t' & E & N). rewrite E. cbn [bind]. f_equal. unfold rest. apply filter_ext_in. intros k Hk. apply in_seq in Hk.
  rewrite N. rewrite (nth_indep _ false true) by (rewrite repeat_length; lia). rewrite nth_repeat. reflexivity.
Qed.

Lemma selection_wf n I : (forall i, In i I -> i < n) -> wf_csr (length I) n (selection n I).
Proof.
  intros H. split; [reflexivity|]. unfold selection. cbn [c_indptr c_indices c_data]. split; [apply seq_length|]. split; [|split; [|split; [apply repeat_length|exact H]]].
  - intros i Hi. rewrite !seq_nth by lia. lia.
  - rewrite seq_nth by lia. lia.
Qed.
Lemma selection_matrix n I i j : i < length I -> matrix (selection n I) i j = if nth i I 0 =? j then 1%Qc else 0%Qc.
Proof.
  intros Hi. unfold matrix, selection, rowlist. cbn [c_indptr c_indices c_data]. rewrite !seq_nth by lia. cbn [Nat.add].
  assert (E : slice (combine I (repeat 1%Qc (length I))) i (Datatypes.S i) = [(nth i I 0, 1%Qc)]).
  { revert i Hi. induction I as [|a I IH]; intros i Hi; cbn [length] in Hi; [lia|]. destruct i as [|i]; [reflexivity|]. apply (IH i). lia. }
  rewrite E. unfold ent. cbn [filter fst]. destruct (nth i I 0 =? j); [|reflexivity]. cbn. ring.
Qed.

(** R A P picks rows and columns. *)
Lemma picked n M I J R P i j : i < length I -> j < length J -> (forall i, In i I -> i < n) -> (forall j, In j J -> j < n) ->
  (forall k, matrix R i k = if nth i I 0 =? k then 1%Qc else 0%Qc) -> (forall l, l < n -> matrix P l j = if nth j J 0 =? l then 1%Qc else 0%Qc) ->
  mm n (mm n (matrix R) M) (matrix P) i j = sub_matrix M I J i j.
Proof.
  intros Hi Hj HI HJ ER EP. unfold mm at 1. pose proof (HI _ (nth_In I 0 Hi)) as Li. pose proof (HJ _ (nth_In J 0 Hj)) as Lj.
  rewrite (sumf_ext n _ (fun l => if l =? nth j J 0 then mm n (matrix R) M i l else 0%Qc)).
  - rewrite sumf_delta by exact Lj. unfold mm. rewrite (sumf_ext n _ (fun k => if k =? nth i I 0 then M k (nth j J 0) else 0%Qc)); [rewrite sumf_delta by exact Li; reflexivity|].
    intros k Hk. rewrite ER, Nat.eqb_sym. destruct (k =? nth i I 0); ring.
  - intros l Hl. rewrite (EP l Hl), Nat.eqb_sym. destruct (l =? nth j J 0); ring.
Qed.

(** ** Algebra *)
Lemma sum_perm l l' : Permutation l l' -> suml l = suml l'.
Proof. induction 1; cbn [suml]; try congruence; ring. Qed.
Lemma NoDup_app_rest {A} (a b : list A) : NoDup a -> NoDup b -> (forall x, In x a -> In x b -> False) -> NoDup (a ++ b).
Proof.
  induction a as [|x a IH]; intros Na Nb H; [exact Nb|]. inversion Na; subst. cbn. constructor.
  - rewrite in_app_iff. intros [X|X]; [contradiction|]. apply (H x); [left; reflexivity|exact X].
  - apply IH; auto. intros y Hy. apply H. right. exact Hy.
Qed.
Lemma split_sum n I f : NoDup I -> (forall i, In i I -> i < n) ->
  (sumf n f = sumf (length I) (fun i => f (nth i I 0%nat)) + sumf (length (rest n I)) (fun k => f (nth k (rest n I) 0%nat)))%Qc.
Proof.
  intros Nd HI. assert (L : forall l : list nat, sumf (length l) (fun i => f (nth i l 0)) = suml (map f l)).
  { intros l. rewrite <- suml_tab. f_equal. apply nth_ext with (d := 0%Qc) (d' := 0%Qc); [now rewrite tab_length, map_length|].
    intros i H. rewrite tab_length in H. rewrite nth_tab by auto. rewrite (nth_indep (map f l) 0%Qc (f 0)) by (rewrite map_length; auto). symmetry. apply map_nth. }
  rewrite !L, <- suml_app, <- map_app, <- suml_tab. unfold tab. apply sum_perm, Permutation_map. apply NoDup_Permutation; [apply seq_NoDup| |].
  - apply NoDup_app_rest; [exact Nd|apply rest_nodup|]. intros k H1 H2. apply in_rest in H2. tauto.
  - intros k. rewrite in_app_iff, in_rest, in_seq. destruct (in_dec Nat.eq_dec k I) as [H|H]; [specialize (HI k H)|]; intuition lia.
Qed.

Section Algebra.
  Variables (n : nat) (M D : mat) (I : list nat) (u : nat -> Qc).
  Hypothesis Nd : NoDup I.
  Hypothesis HI : forall i, In i I -> i < n.
  Let J := rest n I.
  Lemma split_mv K r : r < length K -> mv n M u (nth r K 0) = (mv (length I) (sub_matrix M K I) (at_ u I) r + mv (length J) (sub_matrix M K J) (at_ u J) r)%Qc.
  Proof using Nd HI. intros _. unfold mv. rewrite (split_sum n I _ Nd HI). reflexivity. Qed.
  Lemma schur_mv r : mv (length I) (schur_matrix M D I J) (at_ u I) r =
    (mv (length I) (sub_matrix M I I) (at_ u I) r - mv (length J) (sub_matrix M I J) (mv (length J) D (mv (length I) (sub_matrix M J I) (at_ u I))) r)%Qc.
  Proof using Type.
    transitivity (mv (length I) (sub_matrix M I I) (at_ u I) r - mv (length I) (mm (length J) (sub_matrix M I J) (mm (length J) D (sub_matrix M J I))) (at_ u I) r)%Qc.
    - unfold mv, Qcminus. rewrite <- sumf_opp, <- sumf_plus. apply sumf_ext. intros j _. unfold schur_matrix. ring.
    - f_equal. rewrite mv_mm. unfold mv at 1 3. apply sumf_ext. intros k _. now rewrite mv_mm.
  Qed.
  Lemma apply_inverse k A B w : inverts k A B -> forall r, r < k -> mv k A (mv k B w) r = w r.
  Proof using Type.
    intros H r Hr. rewrite <- mv_mm. unfold mv. rewrite (sumf_ext k _ (fun j => if j =? r then w j else 0%Qc)); [apply sumf_delta; exact Hr|].
    intros j Hj. rewrite (H r j Hr Hj), Nat.eqb_sym. destruct (j =? r); ring.
  Qed.
  (** Unknowns J eliminated *)
  Lemma schur_extends : inverts (length J) (sub_matrix M J J) D ->
    (forall k, k < length J -> u (nth k J 0) = (- mv (length J) D (mv (length I) (sub_matrix M J I) (at_ u I)) k)%Qc) ->
    (forall k, k < length J -> mv n M u (nth k J 0) = 0%Qc) /\ forall i, i < length I -> mv n M u (nth i I 0) = mv (length I) (schur_matrix M D I J) (at_ u I) i.
  Proof using Nd HI.
    intros Hinv Hu.
    assert (N : forall K r, mv (length J) (sub_matrix M K J) (at_ u J) r = (- mv (length J) (sub_matrix M K J) (mv (length J) D (mv (length I) (sub_matrix M J I) (at_ u I))) r)%Qc).
    { intros K r. unfold mv at 1 2. rewrite <- sumf_opp. apply sumf_ext. intros k Hk. unfold at_ at 1. rewrite (Hu k Hk). ring. }
    split.
    - intros k Hk. rewrite (split_mv J k Hk), N, (apply_inverse (length J) _ _ _ Hinv k Hk). ring.
    - intros i Hi. rewrite (split_mv I i Hi), N, schur_mv. ring.
  Qed.
  Lemma schur_agrees : inverts (length J) D (sub_matrix M J J) -> (forall k, k < length J -> mv n M u (nth k J 0) = 0%Qc) ->
    forall i, i < length I -> mv (length I) (schur_matrix M D I J) (at_ u I) i = mv n M u (nth i I 0).
  Proof using Nd HI.
    intros Hinv Hz i Hi. rewrite (split_mv I i Hi), schur_mv. unfold Qcminus. f_equal.
    transitivity (- mv (length J) (sub_matrix M I J) (fun k => - at_ u J k) i)%Qc.
    - f_equal. unfold mv at 1 4. apply sumf_ext. intros k Hk. f_equal.
      rewrite <- (apply_inverse (length J) _ _ (at_ u J) Hinv k Hk). unfold mv at 1 3. rewrite <- sumf_opp. apply sumf_ext. intros l Hl.
      pose proof (Hz l Hl) as E. rewrite (split_mv J l Hl) in E. replace (mv (length I) (sub_matrix M J I) (at_ u I) l) with (- mv (length J) (sub_matrix M J J) (at_ u J) l)%Qc by (rewrite <- (Qcplus_0_l (- _)), <- E; ring). ring.
    - unfold mv. rewrite <- sumf_opp. apply sumf_ext. intros k _. ring.
  Qed.
End Algebra.
