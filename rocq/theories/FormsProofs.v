(** Linearity of integrals; assembled matrices as forms. *)
From Verif Require Import Util Lin MeshSpec LocalModel LocalSpec LocalProofs LocalProofs2 LocalProofs6 AssemblyModel AssemblySpec FormsModel FormsSpec.
Set Default Proof Using "Type".
Local Open Scope Qc_scope.

(** ** Linearity *)
Lemma index_divide_add n x t p : forall q k,
  ev (coefs n (index_divide n k (zip (padd n) p q)) x) t = ev (coefs n (index_divide n k p) x) t + ev (coefs n (index_divide n k q) x) t.
Proof.
  unfold ev, coefs. induction p as [|a p IH]; intros q k; [cbn [zip index_divide map fold_right]; ring|]. destruct q as [|b q]; cbn [zip index_divide map fold_right]; [ring|].
  rewrite IH. rewrite !value_pscale, value_padd. ring.
Qed.
Lemma index_divide_scale n x t c p : forall k,
  ev (coefs n (index_divide n k (map (pscale n c) p)) x) t = c * ev (coefs n (index_divide n k p) x) t.
Proof.
  unfold ev, coefs. induction p as [|a p IH]; intros k; cbn [map index_divide fold_right]; [ring|].
  rewrite IH. rewrite !value_pscale. ring.
Qed.
Lemma integral_padd n p q : integral n (padd n p q) = integral n p + integral n q.
Proof.
  induction n as [|n IH]; [reflexivity|]. cbn [integral]. rewrite <- IH. apply integral_same. intros x. rewrite value_padd, !value_subst.
  unfold primitive, ev, coefs. cbn [map fold_right padd]. pose proof (index_divide_add n x (value n (rest n) x) p q 1) as E. unfold coefs, ev in E. rewrite E, !value_pconst. ring.
Qed.
Lemma integral_pscale n c p : integral n (pscale n c p) = c * integral n p.
Proof.
  induction n as [|n IH]; [reflexivity|]. cbn [integral]. rewrite <- IH. apply integral_same. intros x. rewrite value_pscale, !value_subst.
  unfold primitive, ev, coefs. cbn [map fold_right pscale]. pose proof (index_divide_scale n x (value n (rest n) x) c p 1) as E. unfold coefs, ev in E. rewrite E, !value_pconst. ring.
Qed.
Lemma integral_0 n : integral n (pconst n 0) = 0.
Proof.
  transitivity (integral n (pscale n 0 (pconst n 0))); [apply integral_same; intros x; rewrite value_pscale, !value_pconst; ring|]. rewrite integral_pscale. ring.
Qed.

Lemma index_scale_add n x p : forall q k,
  value (S n) (index_scale n k (zip (padd n) p q)) x = value (S n) (index_scale n k p) x + value (S n) (index_scale n k q) x.
Proof.
  cbn [value]. induction p as [|a p IH]; intros q k; [cbn [zip index_scale fold_right]; ring|]. destruct q as [|b q]; cbn [zip index_scale fold_right]; [ring|].
  rewrite IH, !value_pscale, value_padd. ring.
Qed.
Lemma index_scale_scale n x c p : forall k, value (S n) (index_scale n k (map (pscale n c) p)) x = c * value (S n) (index_scale n k p) x.
Proof. cbn [value]. induction p as [|a p IH]; intros k; cbn [map index_scale fold_right]; [ring|]. rewrite IH, !value_pscale. ring. Qed.
Lemma skipn_zip {A} (f : A -> A -> A) p q : skipn 1 (zip f p q) = zip f (skipn 1 p) (skipn 1 q).
Proof. destruct p as [|a p], q as [|b q]; try reflexivity. cbn. destruct p; reflexivity. Qed.
Lemma value_pderiv_add n k p q x : value n (pderiv n k (padd n p q)) x = value n (pderiv n k p) x + value n (pderiv n k q) x.
Proof.
  revert k p q. induction n as [|n IH]; intros k p q; [cbn; ring|]. cbn [pderiv padd]. destruct (k =? n)%nat.
  - rewrite skipn_zip. apply index_scale_add.
  - cbn [value]. revert q. induction p as [|a p IHp]; intros q; [cbn [zip map fold_right]; ring|]. destruct q as [|b q]; cbn [zip map fold_right]; [ring|].
    rewrite IHp, IH. ring.
Qed.
Lemma value_pderiv_scale n k c p x : value n (pderiv n k (pscale n c p)) x = c * value n (pderiv n k p) x.
Proof.
  revert k p. induction n as [|n IH]; intros k p; [cbn; ring|]. cbn [pderiv pscale]. destruct (k =? n)%nat.
  - rewrite skipn_map. apply index_scale_scale.
  - cbn [value]. induction p as [|a p IHp]; cbn [map fold_right]; [ring|]. rewrite IHp, IH. ring.
Qed.

(** ** Bilinear forms on polynomials *)
Record bilinear (d : nat) (B : poly d -> poly d -> Qc) : Prop := {
  bl_add : forall p q r, B (padd d p q) r = B p r + B q r;
  bl_scale : forall c p r, B (pscale d c p) r = c * B p r;
  bl_zero : forall r, B (pconst d 0) r = 0;
  bl_sym : forall p q, B p q = B q p }.

Lemma bl_psum d B n f r : bilinear d B -> B (psum d n f) r = sumf n (fun j => B (f j) r).
Proof.
  intros H. unfold psum. assert (E : forall m k, B (fold_right (padd d) (pconst d 0) (map f (seq k m))) r = sumf m (fun j => B (f (k + j)%nat) r)).
  { induction m as [|m IH]; intros k; [apply (bl_zero d B H)|]. cbn [seq map fold_right]. rewrite (bl_add d B H), IH, sumf_first, Nat.add_0_r. f_equal.
    apply sumf_ext. intros j _. replace (k + S j)%nat with (S k + j)%nat by lia. reflexivity. }
  apply E.
Qed.
Lemma bl_on_cell d B ps dofs cf cf' i : bilinear d B ->
  B (on_cell d ps dofs cf i) (on_cell d ps dofs cf' i) =
  sumf (length ps) (fun j => sumf (length ps) (fun k => cf (dof dofs i j) * B (nth j ps (pconst d 0)) (nth k ps (pconst d 0)) * cf' (dof dofs i k))).
Proof.
  intros H. unfold on_cell at 1. rewrite bl_psum by auto. apply sumf_ext. intros j _. rewrite (bl_scale d B H), (bl_sym d B H). unfold on_cell. rewrite bl_psum by auto.
  rewrite <- sumf_scal. apply sumf_ext. intros k _. rewrite (bl_scale d B H), (bl_sym d B H). ring.
Qed.

Lemma bilinear_mass d J : bilinear d (mass_entry d J).
Proof.
  unfold mass_entry. split; intros.
  - rewrite <- Qcmult_plus_distr_r, <- integral_padd. f_equal. apply integral_same. intros x. rewrite value_padd, !value_pmul, value_padd. ring.
  - transitivity (J * (c * integral d (pmul d p r))); [|ring]. rewrite <- (integral_pscale d c (pmul d p r)). f_equal. apply integral_same. intros x. rewrite value_pscale, !value_pmul, value_pscale. ring.
  - rewrite (integral_same d _ (pconst d 0)), integral_0; [ring|]. intros x. rewrite value_pmul, !value_pconst. ring.
  - f_equal. apply integral_same. intros x. rewrite !value_pmul. ring.
Qed.
Lemma vdot_sym d a b : vdot d a b = vdot d b a.
Proof. unfold vdot, dotf. apply sumf_ext. intros; ring. Qed.
Lemma bilinear_stiffness d J gs : bilinear d (stiffness_entry d J gs).
Proof.
  unfold stiffness_entry. split; intros.
  - rewrite <- Qcmult_plus_distr_r. f_equal. rewrite <- sumf_plus. apply sumf_ext. intros k _. rewrite <- sumf_plus. apply sumf_ext. intros m _.
    rewrite <- Qcmult_plus_distr_r, <- integral_padd. f_equal. apply integral_same. intros x. rewrite value_padd, !value_pmul, value_pderiv_add. ring.
  - transitivity (J * (c * sumf d (fun k => sumf d (fun m => vdot d (nth k gs []) (nth m gs []) * integral d (pmul d (pderiv d k p) (pderiv d m r)))))); [|ring].
    f_equal. rewrite <- sumf_scal. apply sumf_ext. intros k _. rewrite <- sumf_scal. apply sumf_ext. intros m _.
    transitivity (vdot d (nth k gs []) (nth m gs []) * (c * integral d (pmul d (pderiv d k p) (pderiv d m r)))); [|ring]. f_equal.
    rewrite <- integral_pscale. apply integral_same. intros x. rewrite value_pscale, !value_pmul, value_pderiv_scale. ring.
  - rewrite sumf_zero; [ring|]. intros k _. apply sumf_zero. intros m _. rewrite (integral_same d _ (pconst d 0)), integral_0; [ring|].
    intros x. rewrite value_pmul, value_deriv_0, value_pconst. ring.
  - f_equal. rewrite sumf_swap. apply sumf_ext. intros k _. apply sumf_ext. intros m _. rewrite vdot_sym. f_equal. apply integral_same. intros x. rewrite !value_pmul. ring.
Qed.

(** ** The forms of assembled matrices *)
Lemma interior_sum n u (z : Z) : (z < Z.of_nat n)%Z -> sumf n (fun I => if (z =? Z.of_nat I)%Z then u I else 0) = interior u z.
Proof.
  intros Hz. unfold interior. destruct (Z.ltb_spec z 0).
  - apply sumf_zero. intros I _. destruct (Z.eqb_spec z (Z.of_nat I)); [lia|reflexivity].
  - rewrite <- (sumf_delta n u (Z.to_nat z)) by lia. apply sumf_ext. intros I _. destruct (Z.eqb_spec z (Z.of_nat I)), (Nat.eqb_spec I (Z.to_nat z)); auto; lia.
Qed.
Lemma pair_sum n u v (z z' : Z) (l : Qc) : (z < Z.of_nat n)%Z -> (z' < Z.of_nat n)%Z ->
  sumf n (fun I => sumf n (fun J => v I * (if (z =? Z.of_nat I)%Z && (z' =? Z.of_nat J)%Z then l else 0) * u J)) = interior v z * l * interior u z'.
Proof.
  intros Hz Hz'. rewrite <- (interior_sum n v z), <- (interior_sum n u z') by auto. rewrite <- !sumf_scal_r. apply sumf_ext. intros I _.
  rewrite <- sumf_scal. apply sumf_ext. intros J _. destruct (_ =? _)%Z, (_ =? _)%Z; cbn [andb]; ring.
Qed.
Lemma form_plus n M M' v u : form n (fun I J => M I J + M' I J) v u = form n M v u + form n M' v u.
Proof. unfold form. rewrite <- sumf_plus. apply sumf_ext. intros I _. rewrite <- sumf_plus. apply sumf_ext. intros J _. ring. Qed.
Lemma form_ext n M M' v u : (forall I J, (I < n)%nat -> (J < n)%nat -> M I J = M' I J) -> form n M v u = form n M' v u.
Proof. intros H. unfold form. apply sumf_ext. intros I HI. apply sumf_ext. intros J HJ. rewrite H by auto. reflexivity. Qed.
Lemma form_sumf n m (M : nat -> mat) v u : form n (fun I J => sumf m (fun j => M j I J)) v u = sumf m (fun j => form n (M j) v u).
Proof.
  induction m as [|m IH].
  - cbn [sumf]. unfold form. apply sumf_zero. intros I _. apply sumf_zero. intros J _. ring.
  - cbn [sumf]. rewrite <- IH. apply form_plus.
Qed.

Lemma dof_lt nc dpe n nb dofs i j : dofs_ok nc dpe n nb dofs -> (dof dofs i j < Z.of_nat n)%Z.
Proof.
  intros (H1 & H2 & H3). unfold dof. destruct (le_lt_dec (length dofs) i) as [L|L].
  - rewrite (nth_overflow dofs) by auto. rewrite nth_overflow by (cbn; lia). lia.
  - pose proof (nth_In dofs [] L) as Hr. destruct (le_lt_dec (length (nth i dofs [])) j) as [L'|L'].
    + rewrite nth_overflow by auto. lia.
    + apply (H3 (nth i dofs []) _ Hr). apply nth_In. auto.
Qed.
Lemma assembled_form nc dpe n nb dofs cs loc v u : dofs_ok nc dpe n nb dofs ->
  form n (assembled dofs dofs dpe dpe cs loc) v u =
  suml (map (fun i => sumf dpe (fun j => sumf dpe (fun k => interior v (dof dofs i j) * loc i j k * interior u (dof dofs i k)))) cs).
Proof.
  intros ok. induction cs as [|i cs IH].
  - unfold form. cbn [map suml fold_right]. apply sumf_zero. intros I _. apply sumf_zero. intros J _. unfold assembled. cbn [map suml fold_right]. ring.
  - rewrite (form_ext n _ (fun I J => sumf dpe (fun j => sumf dpe (fun k => if (dof dofs i j =? Z.of_nat I)%Z && (dof dofs i k =? Z.of_nat J)%Z then loc i j k else 0)) +
      assembled dofs dofs dpe dpe cs loc I J)) by (intros; unfold assembled; reflexivity).
    rewrite form_plus, IH. cbn [map suml fold_right]. f_equal. rewrite form_sumf. apply sumf_ext. intros j _. rewrite form_sumf. apply sumf_ext. intros k _.
    unfold form. apply pair_sum; eapply dof_lt; eauto.
Qed.
Lemma boundary_form nc dpe n nb dofs cs loc g v : dofs_ok nc dpe n nb dofs ->
  sumf n (fun I => v I * boundary_action dofs dpe cs loc g I) =
  suml (map (fun i => sumf dpe (fun j => sumf dpe (fun k => interior v (dof dofs i j) * loc i j k * lifting g (dof dofs i k)))) cs).
Proof.
  intros ok. induction cs as [|i cs IH].
  - cbn [map suml fold_right]. apply sumf_zero. intros I _. unfold boundary_action. cbn [map suml fold_right]. ring.
  - cbn [map suml fold_right]. change (fold_right Qcplus 0) with suml. rewrite <- IH. clear IH.
    transitivity (sumf n (fun I => v I * sumf dpe (fun j => sumf dpe (fun k => if (dof dofs i j =? Z.of_nat I)%Z && (dof dofs i k <? 0)%Z then loc i j k * vat g (Z.to_nat (- dof dofs i k - 1)) else 0)) +
      v I * boundary_action dofs dpe cs loc g I)).
    { apply sumf_ext. intros I _. unfold boundary_action. cbn [map suml fold_right]. ring. }
    rewrite sumf_plus. f_equal.
    transitivity (sumf n (fun I => sumf dpe (fun j => sumf dpe (fun k => (if (dof dofs i j =? Z.of_nat I)%Z then v I else 0) * (loc i j k * lifting g (dof dofs i k)))))).
    { apply sumf_ext. intros I _. rewrite <- sumf_scal. apply sumf_ext. intros j _. rewrite <- sumf_scal. apply sumf_ext. intros k _. unfold lifting.
      destruct (_ =? _)%Z, (_ <? 0)%Z; cbn [andb]; ring. }
    rewrite sumf_swap. apply sumf_ext. intros j _. rewrite sumf_swap. apply sumf_ext. intros k _. rewrite sumf_scal_r, interior_sum by (eapply dof_lt; eauto). ring.
Qed.

Lemma triangle_nth {A B} (f : A -> A -> B) (d : A) ps : upper_triangle (fun j k => f (nth j ps d) (nth k ps d)) (seq 0 (length ps)) = upper_triangle f ps.
Proof.
  assert (M : forall {X} (g : X -> A) l, upper_triangle (fun a b => f (g a) (g b)) l = upper_triangle f (map g l)).
  { intros X g. induction l as [|a l IH]; [reflexivity|]. cbn [upper_triangle map]. rewrite IH, map_map. reflexivity. }
  rewrite (M nat (fun j => nth j ps d)). f_equal. clear. induction ps as [|p ps IH]; [reflexivity|]. cbn [length seq map]. f_equal. rewrite <- seq_shift, map_map. exact IH.
Qed.
