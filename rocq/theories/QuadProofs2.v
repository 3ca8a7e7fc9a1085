(** The volume of a simplex; the value of integrate; sums of rules; exactness. *)
From Verif Require Import Util Lin MeshModel MeshSpec MeshProofs BaryModel BarySpec LocalModel LocalSpec LocalProofs LocalProofs2 LocalProofs6 FormsProofs QuadModel QuadSpec QuadProofs.
Set Default Proof Using "Type".
Local Open Scope Qc_scope.

Lemma eval_rule_ok n weights (g : nat -> Qc) vol : length weights = n ->
  eval_rule n weights (map Some (tab n g)) vol = Ok (sumf n (fun i => vat weights i * g i) * vol).
Proof.
  intros L. unfold eval_rule.
  destruct (for_range_inv (fun k s => s = sumf k (fun i => vat weights i * g i))
    (fun i s => w <- aget weights i ;; v <- rd (map Some (tab n g)) i ;; Ok (s + w * v)) 0 n 0) as (s & E & ->); [lia|reflexivity| |].
  - intros k s Hk ->. eexists. split; [|cbn [sumf]; reflexivity]. rewrite (aget_nth weights k 0) by lia. cbn [bind].
    rewrite (rd_some (tab n g) k 0) by (rewrite tab_length; lia). rewrite nth_tab by lia. reflexivity.
  - rewrite E. reflexivity.
Qed.

(** ** Volumes *)
Lemma scaled_magnitude J a c : c <> 0 -> magnitude (J * c) a -> J = qabs a / c.
Proof. intros Hc H. rewrite (magnitude_unique _ _ _ (qabs_magnitude a) H). field. auto. Qed.

Lemma getSimplexVolume_ok d nodes weights vs span vol : (1 <= d <= 3)%nat -> is_simplex d vs -> shape d d span -> is_volume d vs vol ->
  getSimplexVolume (Rule d nodes weights) vs span = Ok vol.
Proof.
  intros Hd H HS HV. unfold is_volume in HV. destruct d as [|[|[|[|d]]]]; try lia.
  - apply scaled_magnitude in HV; [|intros E; apply (f_equal this) in E; vm_compute in E; discriminate]. subst vol.
    destruct (simplex1 vs H) as (a & b & ->). rows HS. unfold getSimplexVolume. run. f_equal.
    replace (qz 1) with 1 by (apply Qc_is_canon; reflexivity). field. intros E; apply (f_equal this) in E; vm_compute in E; discriminate.
  - apply scaled_magnitude in HV; [|intros E; apply (f_equal this) in E; vm_compute in E; discriminate]. subst vol.
    destruct (simplex2 vs H) as (a0 & a1 & b0 & b1 & c0 & c1 & ->). rows HS. unfold getSimplexVolume. run. f_equal.
  - apply scaled_magnitude in HV; [|intros E; apply (f_equal this) in E; vm_compute in E; discriminate]. subst vol.
    destruct (simplex3 vs H) as (a0 & a1 & a2 & b0 & b1 & b2 & c0 & c1 & c2 & d0 & d1 & d2 & ->). rows HS. unfold getSimplexVolume. run. f_equal.
    f_equal. f_equal. ring.
Qed.

Lemma integrate_ok d n nodes weights vs f tempVec span vol : (1 <= d <= 3)%nat -> node_table d n nodes weights -> is_simplex d vs ->
  length tempVec = d -> shape d d span -> is_volume d vs vol ->
  integrate (Rule d nodes weights) f vs tempVec span = Ok (weighted d n nodes weights vs f * vol).
Proof.
  intros Hd HT H Lt HS HV. unfold integrate. rewrite (table_columns nodes weights d n HT). pose proof H as (H1 & H2 & _).
  destruct (evalFun_ok nodes weights vs d n HT H1 H2 f tempVec (alloc n) Lt (alloc_length n)) as (t & ->). cbn [bind].
  rewrite (getSimplexVolume_ok d nodes weights vs span vol) by auto. cbn [bind q_weights]. rewrite eval_rule_ok by apply HT. reflexivity.
Qed.

(** ** The sum of two rules *)
Lemma hstack_ok a : forall b, length a = length b ->
  exists c, hstack a b = Ok c /\ length c = length a /\ forall k, nth k c [] = nth k a [] ++ nth k b [].
Proof.
  induction a as [|r a IH]; intros [|s b] L; try discriminate L.
  - exists []. repeat split; auto. intros [|k]; reflexivity.
  - injection L as L. destruct (IH b L) as (c & E & L' & N). exists ((r ++ s) :: c). cbn [hstack]. rewrite E. cbn [bind length]. repeat split; [lia|].
    intros [|k]; [reflexivity|apply N].
Qed.
Lemma vat_app_l a b i : (i < length a)%nat -> vat (a ++ b) i = vat a i.
Proof. intros H. unfold vat. apply app_nth1. auto. Qed.
Lemma vat_app_r a b i : vat (a ++ b) (length a + i) = vat b i.
Proof. unfold vat. rewrite app_nth2 by lia. f_equal. lia. Qed.

Lemma weighted_add d n n' nodes nodes' weights weights' c vs f : node_table d n nodes weights -> node_table d n' nodes' weights' ->
  (forall k, nth k c [] = nth k nodes [] ++ nth k nodes' []) ->
  weighted d (n + n') c (weights ++ weights') vs f = weighted d n nodes weights vs f + weighted d n' nodes' weights' vs f.
Proof.
  intros (H1 & H2 & H3) (H1' & H2' & H3') N. unfold weighted. rewrite sumf_app. f_equal; apply sumf_ext; intros i Hi.
  - rewrite vat_app_l by lia. f_equal. f_equal. unfold point_at. apply tab_ext. intros m Hm. apply sumf_ext. intros k Hk. f_equal.
    unfold coordinates. rewrite N, vat_app_l; auto. rewrite (H2 (nth k nodes [])); auto. apply nth_In. lia.
  - rewrite <- H3 at 1. rewrite vat_app_r. f_equal. f_equal. unfold point_at. apply tab_ext. intros m Hm. apply sumf_ext. intros k Hk. f_equal.
    unfold coordinates. rewrite N. rewrite <- (H2 (nth k nodes [])); [apply vat_app_r|apply nth_In; lia].
Qed.

Lemma add_rules_ok d n n' nodes nodes' weights weights' : (1 <= d <= 3)%nat -> node_table d n nodes weights -> node_table d n' nodes' weights' ->
  exists c, add_rules (Rule d nodes weights) (Rule d nodes' weights') = Ok (Rule d c (weights ++ weights')) /\
    node_table d (n + n') c (weights ++ weights') /\ forall k, nth k c [] = nth k nodes [] ++ nth k nodes' [].
Proof.
  intros Hd HT HT'. pose proof HT as (H1 & H2 & H3). pose proof HT' as (H1' & H2' & H3').
  destruct (hstack_ok nodes nodes') as (c & E & L & N); [congruence|]. exists c.
  assert (HC : node_table d (n + n') c (weights ++ weights')).
  { split; [congruence|]. split; [|rewrite app_length; lia]. intros row Hrow. destruct (In_nth c row [] Hrow) as (k & Hk & <-). rewrite N, app_length.
    rewrite (H2 (nth k nodes [])), (H2' (nth k nodes' [])); auto; apply nth_In; lia. }
  split; [|split; auto]. unfold add_rules. cbn [q_dim q_nodes q_weights]. rewrite Nat.eqb_refl. cbn [guard bind]. rewrite E. cbn [bind].
  unfold simplexQuadratureRule. pose proof (table_columns c (weights ++ weights') d (n + n') HC) as C. unfold num_nodes in C. cbn [q_nodes] in C. rewrite C.
  rewrite app_length, H3, H3', Nat.eqb_refl. cbn [guard bind]. destruct d as [|[|[|[|d]]]]; try lia; reflexivity.
Qed.

(** ** Linear functionals that vanish on monomials *)
Record functional (n : nat) (F : poly n -> Qc) : Prop := {
  fn_same : forall p q, same_function n p q -> F p = F q;
  fn_add : forall p q, F (padd n p q) = F p + F q;
  fn_scale : forall c p, F (pscale n c p) = c * F p
}.
Fixpoint monos (n k : nat) : list (poly n) :=
  match n with
  | O => [1]
  | S n => (fix go (k : nat) : list (poly (S n)) :=
              map (fun m => [m]) (monos n k) ++ match k with O => [] | S k => map (cons (pconst n 0)) (go k) end) k
  end.

Lemma fn_zero n F p : functional n F -> (forall x, value n p x = 0) -> F p = 0.
Proof.
  intros HF H. transitivity (F (pscale n 0 p)); [apply (fn_same n F HF); intros x; rewrite value_pscale, H; ring|]. rewrite (fn_scale n F HF). ring.
Qed.
Lemma value_zero n : forall p x, pzero n p = true -> value n p x = 0.
Proof.
  induction n as [|n IH]; intros p x H; cbn [pzero value] in *; [apply Qc_eq_bool_correct in H; exact H|].
  induction p as [|c p IHp]; [reflexivity|]. cbn [forallb] in H. apply andb_prop in H as [H1 H2]. cbn [fold_right]. rewrite IHp, IH by auto. ring.
Qed.

Lemma vanish n : forall k F p, functional n F -> (forall m, In m (monos n k) -> F m = 0) -> deg_le n k p = true -> F p = 0.
Proof.
  induction n as [|n IH]; intros k F p HF HM HD.
  - transitivity (F (pscale 0 p 1)); [f_equal; symmetry; exact (Qcmult_1_r p)|]. rewrite (fn_scale 0 F HF), (HM 1) by (left; reflexivity). ring.
  - revert k F HF HM HD. induction p as [|c p IHp]; intros k F HF HM HD; [apply (fn_zero (S n)); auto|].
    assert (E : F (c :: p) = F [c] + F (pconst n 0 :: p)).
    { rewrite <- (fn_add (S n) F HF). apply (fn_same (S n) F HF). intros x. rewrite value_padd. cbn [value fold_right]. rewrite value_pconst. ring. }
    assert (F1 : functional n (fun c => F [c])).
    { split.
      - intros a b H. apply (fn_same (S n) F HF). intros x. cbn [value fold_right]. rewrite H. reflexivity.
      - intros a b. exact (fn_add (S n) F HF [a] [b]).
      - intros a b. exact (fn_scale (S n) F HF a [b]). }
    assert (F2 : functional (S n) (fun p => F (pconst n 0 :: p))).
    { split.
      - intros a b H. apply (fn_same (S n) F HF). intros x. specialize (H x). cbn [value fold_right] in *. rewrite H. reflexivity.
      - intros a b. rewrite <- (fn_add (S n) F HF). apply (fn_same (S n) F HF). intros x. rewrite value_padd. pose proof (value_padd (S n) a b x) as V. cbn [value fold_right] in *. rewrite V, value_pconst. ring.
      - intros a b. rewrite <- (fn_scale (S n) F HF). apply (fn_same (S n) F HF). intros x. rewrite value_pscale. pose proof (value_pscale (S n) a b x) as V. cbn [value fold_right] in *. rewrite V, value_pconst. ring. }
    rewrite E. destruct k as [|k].
    + cbn [deg_le] in HD. apply andb_prop in HD as [D1 D2]. rewrite (IH 0%nat (fun c => F [c]) c F1).
      * rewrite (fn_zero (S n) F (pconst n 0 :: p) HF); [ring|]. intros x. pose proof (value_zero (S n) p x D2) as V. cbn [value fold_right] in *. rewrite V, value_pconst. ring.
      * intros m Hm. apply HM. cbn [monos]. apply in_or_app. left. apply in_map_iff. exists m. auto.
      * exact D1.
    + cbn [deg_le] in HD. apply andb_prop in HD as [D1 D2]. rewrite (IH (S k) (fun c => F [c]) c F1).
      * rewrite (IHp k (fun p => F (pconst n 0 :: p)) F2); [ring| |exact D2]. intros m Hm. apply HM. cbn [monos]. apply in_or_app. right. apply in_map_iff. exists m. auto.
      * intros m Hm. apply HM. cbn [monos]. apply in_or_app. left. apply in_map_iff. exists m. auto.
      * exact D1.
Qed.

(** The error of a rule on the reference simplex. *)
Definition rule_error (d n : nat) (nodes : list (list Qc)) (weights : list Qc) (p : poly d) : Qc :=
  sumf n (fun i => vat weights i * value d p (fun k => coordinates nodes i (S k))) + - (qz (Z.of_nat (fact d)) * integral d p).
Lemma rule_error_functional d n nodes weights : functional d (rule_error d n nodes weights).
Proof.
  unfold rule_error. split.
  - intros p q H. rewrite (integral_same d p q H). f_equal. apply sumf_ext. intros i _. rewrite H. reflexivity.
  - intros p q. rewrite integral_padd. rewrite (sumf_ext n _ (fun i => vat weights i * value d p (fun k => coordinates nodes i (S k)) + vat weights i * value d q (fun k => coordinates nodes i (S k)))) by (intros; rewrite value_padd; ring).
    rewrite sumf_plus. ring.
  - intros c p. rewrite integral_pscale. rewrite (sumf_ext n _ (fun i => c * (vat weights i * value d p (fun k => coordinates nodes i (S k))))) by (intros; rewrite value_pscale; ring).
    rewrite sumf_scal. ring.
Qed.
Definition exact_check (d k n : nat) (nodes : list (list Qc)) (weights : list Qc) : bool :=
  forallb (fun m => Qc_eq_bool (rule_error d n nodes weights m) 0) (monos d k) &&
  forallb (fun i => Qc_eq_bool (sumf (S d) (coordinates nodes i)) 1) (seq 0 n).

Lemma exact_on d k n nodes weights vs f p vol : exact_check d k n nodes weights = true ->
  is_polynomial d vs f p -> deg_le d k p = true -> is_volume d vs vol -> integral_over d vs p (weighted d n nodes weights vs f * vol).
Proof.
  intros HC HP HD HV. apply andb_prop in HC as [C1 C2]. rewrite forallb_forall in C1, C2.
  assert (E : rule_error d n nodes weights p = 0).
  { apply (vanish d k); auto; [apply rule_error_functional|]. intros m Hm. apply Qc_eq_bool_correct. apply C1. auto. }
  exists (vol * qz (Z.of_nat (fact d))). split; [exact HV|]. unfold rule_error in E. unfold weighted.
  rewrite (sumf_ext n _ (fun i => vat weights i * value d p (fun k => coordinates nodes i (S k)))).
  - set (S1 := sumf n _) in *. transitivity ((S1 + - (qz (Z.of_nat (fact d)) * integral d p)) * vol + vol * qz (Z.of_nat (fact d)) * integral d p); [ring|]. rewrite E. ring.
  - intros i Hi. f_equal. apply HP. apply Qc_eq_bool_correct. apply C2. apply in_seq. lia.
Qed.
Lemma exact_2D : exact_check 2 2 3 quad_point2D_order2 weights2D_order2 = true.
Proof. vm_compute. reflexivity. Qed.
Lemma exact_3D : exact_check 3 3 5 quad_point3D_order3 weights3D_order3 = true.
Proof. vm_compute. reflexivity. Qed.
