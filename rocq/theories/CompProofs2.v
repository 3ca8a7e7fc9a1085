(** Products built from other products. *)
From Verif Require Import Util Lin CSRModel CSRSpec DenseModel DenseSpec SmootherModel SmootherProofs3 CompModel CompSpec CompProofs.
Local Open Scope Qc_scope.

Definition mutable (T : list nat) (y : view) (id k : nat) : Prop := In id T \/ touches y id k.

Lemma args_after lens T n m a x y xs ys ys' h h' : arguments lens T n m a x y xs ys h -> only h h' (mutable T y) ->
  contents h' y = map Some ys' -> arguments lens T n m true x y xs ys' h'.
Proof.
  intros (Hl & Hx & Hy & Ix & Iy & Cx & Cy & Nx & Ny & Nxy) Ho C. unfold arguments.
  split; [intros id Hid; rewrite (proj1 Ho); auto|]. split; [auto|]. split; [auto|]. split; [eapply only_inside; eauto|]. split; [eapply only_inside; eauto|].
  split; [|auto]. rewrite <- Cx. eapply only_contents; [exact Ho|]. intros k Hk [H|(H & _)]; auto.
Qed.
Lemma args_keep lens T n m x y xs ys h h' : arguments lens T n m true x y xs ys h -> only h h' (fun id _ => In id T) ->
  arguments lens T n m true x y xs ys h'.
Proof.
  intros A Ho. eapply args_after; [exact A|eapply only_weaken; [exact Ho|unfold mutable; auto]|].
  destruct A as (_ & _ & _ & _ & _ & _ & Cy & _ & Ny & _). rewrite <- (Cy eq_refl). eapply only_contents; [exact Ho|]. auto.
Qed.
Lemma args_scratch lens T T2 n n' m a x y z xs ys h : arguments lens T n m a x y xs ys h ->
  In (v_buf z) T -> (v_off z + v_len z <= lens (v_buf z))%nat -> v_len z = n' -> incl T2 T -> ~ In (v_buf z) T2 ->
  arguments lens T2 n' m false x z xs [] h.
Proof.
  intros (Hl & Hx & Hy & Ix & Iy & Cx & Cy & Nx & Ny & Nxy) Hz Lz En Hi Nz. unfold arguments.
  split; [auto|]. split; [auto|]. split; [auto|]. split; [auto|]. split; [unfold inside; specialize (Hl _ Hz); lia|]. split; [auto|].
  split; [discriminate|]. split; [auto|]. split; [auto|]. intros E. rewrite E in Nx. auto.
Qed.
Lemma args_weaken lens T T2 n m a x y xs ys h : arguments lens T n m a x y xs ys h -> incl T2 T -> arguments lens T2 n m a x y xs ys h.
Proof.
  intros (Hl & Hx & Hy & Ix & Iy & Cx & Cy & Nx & Ny & Nxy) Hi. unfold arguments.
  split; [auto|]. split; [auto|]. split; [auto|]. split; [auto|]. split; [auto|]. split; [auto|]. split; [auto|]. split; auto.
Qed.
Lemma args_overwrite lens T n m a x y xs ys h : arguments lens T n m a x y xs ys h -> arguments lens T n m false x y xs ys h.
Proof.
  intros (Hl & Hx & Hy & Ix & Iy & Cx & Cy & Nx & Ny & Nxy). unfold arguments.
  split; [auto|]. split; [auto|]. split; [auto|]. split; [auto|]. split; [auto|]. split; [auto|]. split; [discriminate|]. auto.
Qed.
Lemma args_outlen lens T n m x y xs ys h : arguments lens T n m true x y xs ys h -> length ys = n.
Proof.
  intros (Hl & Hx & Hy & Ix & Iy & Cx & Cy & Nx & Ny & Nxy). rewrite <- Hy, <- (contents_length h y Iy), (Cy eq_refl), map_length. reflexivity.
Qed.
Lemma args_inlen lens T n m a x y xs ys h : arguments lens T n m a x y xs ys h -> length xs = m.
Proof.
  intros (Hl & Hx & Hy & Ix & Iy & Cx & Cy & Nx & Ny & Nxy). rewrite <- Hx, <- (contents_length h x Ix), Cx, map_length. reflexivity.
Qed.

Lemma some_tab n f g : (forall i, (i < n)%nat -> f i = g i) -> map Some (tab n (f : nat -> Qc)) = map Some (tab n g).
Proof. intros H. f_equal. apply tab_ext, H. Qed.

Lemma performs_weaken lens T T2 n m A a f : performs lens T2 n m A a f -> incl T2 T -> performs lens T n m A a f.
Proof.
  intros P Hi x y xs ys h Ar. destruct (P x y xs ys h (args_weaken _ _ _ _ _ _ _ _ _ _ _ Ar Hi)) as (h' & E & C & O).
  exists h'. split; [auto|]. split; [auto|]. eapply only_weaken; [exact O|]. intros id k [H|H]; auto.
Qed.
Lemma performs_ext lens T n m A B a f g : performs lens T n m A a f ->
  (forall i j, (i < n)%nat -> (j < m)%nat -> A i j = B i j) ->
  (forall x y h, v_len x = m -> v_len y = n -> f x y h = g x y h) -> performs lens T n m B a g.
Proof.
  intros P HA Hf x y xs ys h Ar. destruct (P x y xs ys h Ar) as (h' & E & C & O).
  exists h'. split; [|split; [|exact O]].
  - rewrite <- Hf; [exact E| |]; apply Ar.
  - rewrite C. apply some_tab. intros i Hi. f_equal. unfold mv. apply sumf_ext. intros j Hj. rewrite HA by auto. reflexivity.
Qed.

Lemma performs_leaf lens n m A a k :
  (forall xs (yb : buf Qc) ys, length xs = m -> length yb = n -> (a = true -> yb = map Some ys /\ length ys = n) ->
     k xs yb = Ok (map Some (tab n (fun i => (if a then vat ys i else 0) + mv m A (vat xs) i)))) ->
  performs lens [] n m A a (kernel k).
Proof.
  intros H x y xs ys h Ar. pose proof (args_inlen _ _ _ _ _ _ _ _ _ _ Ar) as Lx. pose proof Ar as Ar0.
  destruct Ar as (Hl & Hx & Hy & Ix & Iy & Cx & Cy & Nx & Ny & Nxy).
  assert (Ly : length (contents h y) = n) by (rewrite contents_length; auto).
  specialize (H xs (contents h y) ys Lx Ly).
  destruct (kernel_ok k x y xs h (map Some (tab n (fun i => (if a then vat ys i else 0) + mv m A (vat xs) i))) Nxy Ix Iy Cx) as (h' & E & C & O).
  - apply H. intros ->. split; [auto|]. eapply args_outlen; eauto.
  - rewrite map_length, tab_length. auto.
  - exists h'. split; [auto|]. split; [auto|]. eapply only_weaken; [exact O|auto].
Qed.

(** Nothing is added. *)
Lemma performs_skip lens T n m : performs lens T n m (fun _ _ => 0) true (fun _ _ h => Ok h).
Proof.
  intros x y xs ys h Ar. exists h. split; [reflexivity|]. split; [|apply only_refl].
  pose proof (args_outlen _ _ _ _ _ _ _ _ _ Ar) as L. destruct Ar as (Hl & Hx & Hy & Ix & Iy & Cx & Cy & Nx & Ny & Nxy). rewrite (Cy eq_refl). f_equal.
  apply vec_ext; [rewrite tab_length; auto|]. rewrite L. intros i Hi. rewrite vat_tab by auto.
  unfold mv. rewrite sumf_zero by (intros; ring). ring.
Qed.

Lemma mv_plus m A B x i : mv m (fun i j => A i j + B i j) x i = mv m A x i + mv m B x i.
Proof. unfold mv. rewrite <- sumf_plus. apply sumf_ext. intros. ring. Qed.
Lemma mv_scal m c A x i : mv m (fun i j => c * A i j) x i = c * mv m A x i.
Proof. unfold mv. rewrite <- sumf_scal. apply sumf_ext. intros. ring. Qed.

(** One product after the other. *)
Lemma performs_seq lens T n m A B a f g : performs lens T n m A a f -> performs lens T n m B true g ->
  performs lens T n m (fun i j => A i j + B i j) a (fun x y h => h <- f x y h ;; g x y h).
Proof.
  intros P Q x y xs ys h Ar. destruct (P x y xs ys h Ar) as (h1 & E1 & C1 & O1).
  pose proof (args_after _ _ _ _ _ _ _ _ _ _ _ _ Ar O1 C1) as Ar1. destruct (Q x y xs _ h1 Ar1) as (h2 & E2 & C2 & O2).
  exists h2. split; [rewrite E1, bind_Ok; exact E2|]. split; [|eapply only_trans; eauto].
  rewrite C2. apply some_tab. intros i Hi. rewrite vat_tab, mv_plus by auto. ring.
Qed.

(** A product, multiplied by a number. *)
Lemma performs_scale lens T n m A f c : performs lens T n m A false f ->
  performs lens T n m (fun i j => c * A i j) false (fun x y h => h <- f x y h ;; v_scale y c h).
Proof.
  intros P x y xs ys h Ar. destruct (P x y xs ys h Ar) as (h1 & E1 & C1 & O1).
  pose proof (args_after _ _ _ _ _ _ _ _ _ _ _ _ Ar O1 C1) as Ar1. destruct Ar1 as (Hl & Hx & Hy & Ix & Iy & _).
  destruct (v_scale_ok y c _ h1 Iy C1) as (h2 & E2 & C2 & O2).
  exists h2. split; [rewrite E1, bind_Ok; exact E2|]. split; [|eapply only_trans; [exact O1|eapply only_weaken; [exact O2|auto]]].
  rewrite C2, Hy. apply some_tab. intros i Hi. rewrite vat_tab, mv_scal by auto. ring.
Qed.
Lemma performs_scaled_add lens T n m A f c : c <> 0 -> performs lens T n m A true f ->
  performs lens T n m (fun i j => c * A i j) true (fun x y h => h <- v_scale y (/ c) h ;; h <- f x y h ;; v_scale y c h).
Proof.
  intros Hc P x y xs ys h Ar. pose proof Ar as (Hl & Hx & Hy & Ix & Iy & Cx & Cy & _).
  destruct (v_scale_ok y (/ c) _ h Iy (Cy eq_refl)) as (h0 & E0 & C0 & O0).
  assert (O0' : only h h0 (mutable T y)) by (eapply only_weaken; [exact O0|unfold mutable; auto]).
  pose proof (args_after _ _ _ _ _ _ _ _ _ _ _ _ Ar O0' C0) as Ar0.
  destruct (P x y xs _ h0 Ar0) as (h1 & E1 & C1 & O1).
  pose proof (args_after _ _ _ _ _ _ _ _ _ _ _ _ Ar0 O1 C1) as (_ & _ & _ & _ & Iy1 & _).
  destruct (v_scale_ok y c _ h1 Iy1 C1) as (h2 & E2 & C2 & O2).
  exists h2. split; [rewrite E0, bind_Ok, E1, bind_Ok; exact E2|]. split.
  - rewrite C2, Hy. apply some_tab. intros i Hi. rewrite !vat_tab, mv_scal by (rewrite ?Hy; auto). field. exact Hc.
  - eapply only_trans; [exact O0'|eapply only_trans; [exact O1|eapply only_weaken; [exact O2|unfold mutable; auto]]].
Qed.

(** A product via a scratch vector. *)
Section axpy.
  Context (lens : nat -> nat) (T T2 : list nat) (n m : nat) (A : mat) (f : view -> view -> heap -> res heap) (z : view).
  Hypothesis P : performs lens T2 n m A false f.
  Hypothesis Hz : In (v_buf z) T.
  Hypothesis Lz : (v_off z + v_len z <= lens (v_buf z))%nat.
  Hypothesis En : v_len z = n.
  Hypothesis Hi : incl T2 T.
  Hypothesis Nz : ~ In (v_buf z) T2.

  Lemma to_scratch a x y xs ys h : arguments lens T n m a x y xs ys h ->
    exists h', f x z h = Ok h' /\ contents h' z = map Some (tab n (mv m A (vat xs))) /\ only h h' (fun id _ => In id T).
  Proof using All.
    intros Ar. destruct (P x z xs [] h (args_scratch _ _ _ _ _ _ _ _ _ _ _ _ _ Ar Hz Lz En Hi Nz)) as (h' & E & C & O).
    exists h'. split; [exact E|]. split; [rewrite C; apply some_tab; intros; ring|]. eapply only_weaken; [exact O|].
    intros id k [H|(-> & _)]; auto.
  Qed.
  Lemma performs_via g : (forall y ys zs h, inside h y -> inside h z -> contents h y = map Some ys -> contents h z = map Some zs -> v_len z = v_len y ->
      exists h', g y h = Ok h' /\ contents h' y = map Some (tab (v_len y) (fun i => vat ys i + vat zs i)%Qc) /\ only h h' (touches y)) ->
    performs lens T n m A true (fun x y h => h <- f x z h ;; g y h).
  Proof using All.
    intros Hg x y xs ys h Ar. destruct (to_scratch true x y xs ys h Ar) as (h1 & E1 & C1 & O1).
    pose proof (args_keep _ _ _ _ _ _ _ _ _ _ Ar O1) as (Hl & Hx & Hy & Ix & Iy & Cx & Cy & _).
    destruct (Hg y ys _ h1 Iy ltac:(unfold inside; specialize (Hl _ Hz); lia) (Cy eq_refl) C1 ltac:(lia)) as (h2 & E2 & C2 & O2).
    exists h2. split; [rewrite E1, bind_Ok; exact E2|]. split.
    + rewrite C2, Hy. apply some_tab. intros i Hi'. rewrite vat_tab by auto. reflexivity.
    + eapply only_trans; [eapply only_weaken; [exact O1|auto]|eapply only_weaken; [exact O2|auto]].
  Qed.
  Lemma performs_axpy c : performs lens T n m (fun i j => c * A i j) true (fun x y h => h <- f x z h ;; v_assign3 y 1 z c h).
  Proof using All.
    intros x y xs ys h Ar. destruct (to_scratch true x y xs ys h Ar) as (h1 & E1 & C1 & O1).
    pose proof (args_keep _ _ _ _ _ _ _ _ _ _ Ar O1) as (Hl & Hx & Hy & Ix & Iy & Cx & Cy & _).
    destruct (v_assign3_ok y 1 z c ys _ h1 Iy ltac:(unfold inside; specialize (Hl _ Hz); lia) (Cy eq_refl) C1 ltac:(lia)) as (h2 & E2 & C2 & O2).
    exists h2. split; [rewrite E1, bind_Ok; exact E2|]. split.
    + rewrite C2, Hy. apply some_tab. intros i Hi'. rewrite vat_tab, mv_scal by auto. ring.
    + eapply only_trans; [eapply only_weaken; [exact O1|auto]|eapply only_weaken; [exact O2|auto]].
  Qed.
  (** A product of two operators *)
  Lemma performs_compose T3 p B a g : performs lens T3 p n B a g -> incl T3 T -> ~ In (v_buf z) T3 ->
    performs lens T p m (mm n B A) a (fun x y h => h <- f x z h ;; g z y h).
  Proof using All.
    intros Q Hi3 Nz3 x y xs ys h Ar.
    assert (Ar' : arguments lens T2 n m false x z xs [] h) by (eapply args_scratch; eauto).
    destruct (P x z xs [] h Ar') as (h1 & E1 & C1 & O1).
    assert (O1' : only h h1 (fun id _ => In id T)) by (eapply only_weaken; [exact O1|intros id k [H|(-> & _)]; auto]).
    assert (Ar1 : arguments lens T3 p n a z y (tab n (fun i => 0 + mv m A (vat xs) i)) ys h1).
    { destruct Ar as (Hl & Hx & Hy & Ix & Iy & Cx & Cy & Nx & Ny & Nxy).
      split; [intros id Hid; rewrite (proj1 O1'); auto|]. split; [auto|]. split; [auto|].
      split; [unfold inside; rewrite (proj1 O1'); specialize (Hl _ Hz); lia|]. split; [eapply only_inside; eauto|]. split; [exact C1|].
      split. { intros Ha. rewrite <- (Cy Ha). eapply only_contents; [exact O1'|]. auto. }
      split; [auto|]. split; [auto|]. intros E. rewrite <- E in Ny. auto. }
    destruct (Q z y _ ys h1 Ar1) as (h2 & E2 & C2 & O2).
    exists h2. split; [rewrite E1, bind_Ok; exact E2|]. split.
    - rewrite C2. apply some_tab. intros i Hi'. f_equal. unfold mv, mm.
      transitivity (sumf n (fun l => sumf m (fun j => B i l * A l j * vat xs j))).
      + apply sumf_ext. intros l Hl. rewrite vat_tab by auto. unfold mv. rewrite Qcplus_0_l, <- sumf_scal. apply sumf_ext. intros. ring.
      + rewrite sumf_swap. apply sumf_ext. intros j Hj. rewrite sumf_scal_r. reflexivity.
    - eapply only_trans; [eapply only_weaken; [exact O1'|auto]|eapply only_weaken; [exact O2|intros id k [H|H]; auto]].
  Qed.
End axpy.

(** Sums of products. *)
Lemma performs_loop lens T n m (A : nat -> mat) (f : nat -> view -> view -> heap -> res heap) k : forall lo,
  (forall j, (lo <= j < lo + k)%nat -> performs lens T n m (A j) true (f j)) ->
  performs lens T n m (fun r c => sumf k (fun j => A (lo + j)%nat r c)) true (fun x y h => for_n k lo (fun j h => f j x y h) h).
Proof.
  induction k as [|k IH]; intros lo H.
  - apply performs_skip.
  - eapply performs_ext with (A := fun r c => A lo r c + sumf k (fun j => A (S lo + j)%nat r c)).
    + apply performs_seq; [apply H; lia|]. apply IH. intros j Hj. apply H. lia.
    + intros i j _ _. rewrite sumf_first, Nat.add_0_r. f_equal. apply sumf_ext. intros l _. f_equal. lia.
    + reflexivity.
Qed.

(** Part of the input. *)
Lemma performs_part lens T n w m A a f o : performs lens T n w A a f -> (o + w <= m)%nat ->
  performs lens T n m (fun i j => if (o <=? j)%nat && (j <? o + w)%nat then A i (j - o)%nat else 0) a
    (fun x y h => f (View (v_buf x) (v_off x + o) w) y h).
Proof.
  intros P Ho x y xs ys h Ar. pose proof (args_inlen _ _ _ _ _ _ _ _ _ _ Ar) as Lx.
  set (x' := View (v_buf x) (v_off x + o) w).
  assert (Ar' : arguments lens T n w a x' y (tab w (fun j => vat xs (o + j))) ys h).
  { destruct Ar as (Hl & Hx & Hy & Ix & Iy & Cx & Cy & Nx & Ny & Nxy).
    split; [auto|]. split; [reflexivity|]. split; [auto|]. split; [unfold inside, x' in *; cbn; lia|]. split; [auto|]. split; [|auto].
    apply list_ext. intros r. rewrite nth_error_contents, nth_error_map. cbn [v_len v_off v_buf x']. destruct (Nat.ltb_spec r w) as [Hr|Hr].
    - rewrite nth_error_tab by auto. cbn [option_map].
      pose proof (nth_error_contents h x (o + r)) as E. rewrite Cx, nth_error_map, nth_error_vat in E by lia. cbn [option_map] in E.
      destruct (Nat.ltb_spec (o + r) (v_len x)) as [H|H]; [|lia]. rewrite E. f_equal. lia.
    - rewrite (proj2 (nth_error_None _ _)); [reflexivity|rewrite tab_length; auto]. }
  destruct (P x' y _ ys h Ar') as (h' & E & C & O). exists h'. split; [exact E|]. split; [|exact O].
  rewrite C. apply some_tab. intros i Hi. f_equal. unfold mv.
  replace m with (o + (w + (m - o - w)))%nat by lia. rewrite sumf_app, sumf_app.
  rewrite (sumf_zero o), (sumf_zero (m - o - w)).
  - rewrite Qcplus_0_l, Qcplus_0_r. apply sumf_ext. intros j Hj. rewrite vat_tab by auto.
    destruct (Nat.leb_spec o (o + j)) as [H|H]; [|lia]. destruct (Nat.ltb_spec (o + j) (o + w)) as [H'|H']; [|lia]. cbn [andb].
    replace (o + j - o)%nat with j by lia. reflexivity.
  - intros j Hj. destruct (Nat.ltb_spec (o + (w + j)) (o + w)) as [H'|H']; [lia|]. rewrite andb_false_r. ring.
  - intros j Hj. destruct (Nat.leb_spec o j) as [H'|H']; [lia|]. cbn [andb]. ring.
Qed.
