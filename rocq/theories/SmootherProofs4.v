(** Separable smoothers, Jacobi, Chebyshev. *)
From Coq Require Import Sorted.
From Verif Require Import Util Lin SparsitySpec CSRModel CSRSpec CSRProofs TriModel TriSpec TriProofs TriProofs2 TriProofs3
  SmootherModel SmootherSpec SmootherProofs SmootherProofs2 SmootherProofs3.
Set Default Proof Using "Type".

Lemma steps_impl {X} (R R' : X -> X -> Prop) (P : X -> Prop) : (forall x y, P x -> R x y -> R' x y /\ P y) ->
  forall k x y, P x -> steps R k x y -> steps R' k x y.
Proof.
  intros H k x y HP HS. induction HS as [x|k x y z H1 H2 IH]; [constructor|].
  destruct (H x y HP H1) as [H3 H4]. econstructor; eauto.
Qed.

Lemma resid_len n A b x : length (resid n A b x) = n.
Proof. apply tab_length. Qed.

Section Sep.
  Variables (n : nat) (A : csr) (b : list Qc).
  Hypothesis wf : wf_csr n n A.
  Hypothesis Hb : length b = n.

  Lemma sep_loop_ok prec B : computes n prec B -> forall k y simple, length y = n ->
    (simple = true -> forall i, i < n -> vat y i = 0%Qc) ->
    exists z, sep_loop n (csr_residual A) prec k b (map Some y) simple = Ok (map Some z) /\
      steps (correct_by n (matrix A) b B) k y z /\ length z = n.
  Proof using wf Hb.
    intros HB. induction k as [|k IH]; intros y simple Hy Hsim; cbn [sep_loop].
    - exists y. split; auto. split; auto. constructor.
    - rewrite all_init_some. cbn [bind].
      assert (LA : length (alloc (A := Qc) n) = n) by (unfold alloc; apply repeat_length).
      destruct (csr_kernels_ok n n A false y wf Hy) as (_ & _ & HR). destruct (HR b (alloc n) Hb LA) as [R1 R2].
      assert (ER : csr_residual A y b (alloc n) simple = Ok (map Some (resid n (matrix A) b y))).
      { destruct simple; [|exact R1]. rewrite R2. do 2 f_equal. apply eq_tab with (d := 0%Qc); auto.
        intros i Hi. fold (vat b i). unfold mv. rewrite sumf_zero; [ring|]. intros j Hj. rewrite Hsim by auto. ring. }
      rewrite ER. cbn [bind]. rewrite all_init_some. cbn [bind].
      destruct (HB (resid n (matrix A) b y) (alloc n)) as [EB LB]; auto; [apply resid_len|].
      rewrite EB. cbn [bind]. rewrite update_ok by lia. cbn [bind]. rewrite Hy.
      set (y' := tab n (fun i => vat y i + vat (B (resid n (matrix A) b y)) i)%Qc).
      destruct (IH y' false) as (z & Ez & Sz & Lz); [apply tab_length|discriminate|].
      exists z. split; auto. split; auto. econstructor; [|exact Sz]. reflexivity.
  Qed.

  Lemma sep_eval_ok prec B k y simple : computes n prec B -> length y = n ->
    (simple = true -> forall i, i < n -> vat y i = 0%Qc) ->
    exists z, sep_eval n (csr_residual A) prec k b y simple = Ok z /\
      steps (correct_by n (matrix A) b B) k y z /\ length z = n.
  Proof using wf Hb.
    intros HB Hy Hs. destruct (sep_loop_ok prec B HB k y simple Hy Hs) as (z & E & S & L).
    exists z. split; auto. unfold sep_eval. rewrite E. cbn [bind]. apply all_init_some.
  Qed.
End Sep.

Lemma resid_zero n A b x : (forall i, i < n -> mv n A (vat x) i = vat b i) -> resid n A b x = tab n (fun _ => 0%Qc).
Proof. intros H. apply tab_ext. intros i Hi. rewrite H by auto. ring. Qed.

Lemma correct_fixed n A b B : (forall i, i < n -> vat (B (tab n (fun _ => 0%Qc))) i = 0%Qc) ->
  forall k x z, steps (correct_by n A b B) k x z -> length x = n -> (forall i, i < n -> mv n A (vat x) i = vat b i) -> z = x.
Proof.
  intros HB k x z H. induction H as [x|k x y z H1 H2 IH]; intros L E; auto.
  assert (y = x).
  { rewrite H1, (resid_zero n A b x E). symmetry. apply eq_tab with (d := 0%Qc); auto. intros i Hi. rewrite HB by auto.
    fold (vat x i). ring. }
  subst y. auto.
Qed.

(** * Jacobi *)
Lemma jacobi_prec_ok n D omega : length D = n -> (forall i, i < n -> vat D i <> 0%Qc) ->
  computes n (jacobi_prec D omega) (fun x => tab n (fun i => omega / vat D i * vat x i)%Qc).
Proof.
  intros HD Hd x y Hx Hy. split; [|apply tab_length]. unfold jacobi_prec, jacobi_invD. rewrite HD.
  rewrite (fill_loop n _ _ (fun i => omega / vat D i)%Qc).
  - cbn [bind]. rewrite all_init_some. cbn [bind]. apply fill_loop; auto. intros i z Hi _ _.
    rewrite (aget_nth x i 0%Qc) by lia. cbn [bind]. rewrite (aget_nth _ i 0%Qc) by (rewrite tab_length; auto). cbn [bind].
    rewrite nth_tab by auto. fold (vat x i). f_equal. ring.
  - unfold alloc. apply repeat_length.
  - intros i z Hi _ _. rewrite (aget_nth D i 0%Qc) by lia. cbn [bind]. fold (vat D i). rewrite qdiv_ok by auto. reflexivity.
Qed.

(** * SSOR *)
Lemma the_solution_zero n M x : the_solution n M (tab n (fun _ => 0%Qc)) x -> x = tab n (fun _ => 0%Qc).
Proof.
  intros H. symmetry. apply (H (tab n (fun _ => 0%Qc))). split; [apply tab_length|]. intros i Hi.
  rewrite vat_tab by auto. unfold mv. apply sumf_zero. intros j Hj. rewrite vat_tab by auto. ring.
Qed.

(** * Chebyshev *)
Section Cheb.
  Local Open Scope Qc_scope.
  Variables (n : nat) (A : mat).

  (** sum of c_k A^(d-1-k) x by Horner's rule *)
  Definition horner (p : list Qc) (x : nat -> Qc) (y0 : nat -> Qc) : nat -> Qc :=
    fold_left (fun y c i => c * x i + mv n A y i) p y0.

  Lemma horner_cons c p x y0 : horner (c :: p) x y0 = horner p x (fun i => c * x i + mv n A y0 i).
  Proof. reflexivity. Qed.
  Lemma mv_lin x y a b i : mv n A (fun j => a * x j + b * y j) i = a * mv n A x i + b * mv n A y i.
  Proof. unfold mv. rewrite <- !sumf_scal, <- sumf_plus. apply sumf_ext. intros. ring. Qed.
  Lemma mv_0 i : mv n A (fun _ => 0) i = 0.
  Proof. unfold mv. apply sumf_zero. intros. ring. Qed.
  Lemma mv_pw x y i : (forall j, x j = y j) -> mv n A x i = mv n A y i.
  Proof. intros. apply mv_ext. auto. Qed.

  Lemma horner_ext p : forall x y0 y1, (forall i, y0 i = y1 i) -> forall i, horner p x y0 i = horner p x y1 i.
  Proof.
    induction p as [|c p IH]; intros x y0 y1 H i; rewrite ?horner_cons; auto.
    apply IH. intros j. f_equal. apply mv_pw. auto.
  Qed.
  Lemma horner_app p c x y0 i : horner (p ++ [c]) x y0 i = c * x i + mv n A (horner p x y0) i.
  Proof. unfold horner. rewrite fold_left_app. reflexivity. Qed.

  (** linear in the coefficients *)
  Lemma horner_comb a b : forall p q x y0 y1, length p = length q -> forall i,
    horner (map (fun pq => a * fst pq + b * snd pq) (combine p q)) x (fun j => a * y0 j + b * y1 j) i
    = a * horner p x y0 i + b * horner q x y1 i.
  Proof.
    induction p as [|c p IH]; intros [|d q] x y0 y1 L i; cbn [length] in L; try discriminate; cbn [combine map]; rewrite ?horner_cons; auto.
    injection L as L. rewrite <- (IH q x (fun j => c * x j + mv n A y0 j) (fun j => d * x j + mv n A y1 j) L i).
    apply horner_ext. intros j. cbn [fst snd]. rewrite mv_lin. ring.
  Qed.
  Lemma horner_scal a p x y0 i : horner (map (fun c => a * c) p) x (fun j => a * y0 j) i = a * horner p x y0 i.
  Proof.
    revert y0 i. induction p as [|c p IH]; intros y0 i; cbn [map]; rewrite ?horner_cons; auto.
    rewrite <- (IH (fun j => c * x j + mv n A y0 j)). apply horner_ext. intros j.
    rewrite (mv_pw (fun j => a * y0 j) (fun j => a * y0 j + 0 * y0 j)) by (intros; ring). rewrite mv_lin. ring.
  Qed.
  (** commutes with A *)
  Lemma horner_A p : forall x y0 i, horner p (mv n A x) (mv n A y0) i = mv n A (horner p x y0) i.
  Proof.
    induction p as [|c p IH]; intros x y0 i; rewrite ?horner_cons; auto.
    rewrite <- IH. apply horner_ext. intros j.
    rewrite (mv_pw (fun i0 => c * x i0 + mv n A y0 i0) (fun i0 => c * x i0 + 1 * mv n A y0 i0)) by (intros; ring).
    rewrite mv_lin. ring.
  Qed.
  Lemma horner_arg p : forall x y y0 i, (forall j, x j = y j) -> horner p x y0 i = horner p y y0 i.
  Proof.
    induction p as [|c p IH]; intros x y y0 i H; rewrite ?horner_cons; auto.
    rewrite (IH x y _ i H). apply horner_ext. intros j. rewrite H. reflexivity.
  Qed.

  (** one more root *)
  Lemma poly_step_zip p r :
    poly_step p r = map (fun pq => 1 * fst pq + (- r) * snd pq) (combine (p ++ [0]) (0 :: p)).
  Proof.
    symmetry. unfold poly_step. apply eq_tab with (d := 0).
    - rewrite map_length, combine_length, app_length. cbn [length]. lia.
    - intros k Hk. rewrite (nth_indep _ 0 (1 * fst (0, 0) + (- r) * snd (0, 0)))
        by (rewrite map_length, combine_length, app_length; cbn [length]; lia).
      rewrite (map_nth (fun pq => 1 * fst pq + (- r) * snd pq)), combine_nth by (rewrite app_length; cbn [length]; lia). cbn [fst snd].
      unfold vat. destruct k as [|k].
      + assert (nth 0 (p ++ [0]) 0 = nth 0 p 0) as -> by (destruct p; reflexivity). cbn [Nat.eqb nth]. ring.
      + cbn [Nat.eqb nth]. replace (S k - 1)%nat with k by lia.
        destruct (Nat.lt_ge_cases (S k) (length p)).
        * rewrite app_nth1 by auto. ring.
        * rewrite app_nth2 by auto. rewrite (nth_overflow p (n := S k)) by auto. replace (S k - length p)%nat with 0%nat by lia. cbn [nth]. ring.
  Qed.
  Lemma horner_step p r x i : horner (poly_step p r) x (fun _ => 0) i = mv n A (horner p x (fun _ => 0)) i - r * horner p x (fun _ => 0) i.
  Proof.
    rewrite poly_step_zip.
    rewrite (horner_ext _ x (fun _ => 0) (fun j => 1 * (fun _ => 0) j + - r * (fun _ => 0) j)) by (intros; ring).
    rewrite horner_comb by (rewrite app_length; cbn [length]; lia). rewrite horner_app.
    rewrite horner_cons.
    rewrite (horner_ext p x (fun i0 => 0 * x i0 + mv n A (fun _ => 0) i0) (fun _ => 0)) by (intros; rewrite mv_0; ring).
    ring.
  Qed.

  Fixpoint prodneg (roots : list Qc) : Qc := match roots with [] => 1 | r :: rs => - r * prodneg rs end.
  Fixpoint dampf (roots : list Qc) (e : nat -> Qc) : nat -> Qc :=
    match roots with [] => e | r :: rs => dampf rs (fun i => e i - mv n A e i / r) end.

  Lemma np_poly_snoc roots r : np_poly (roots ++ [r]) = poly_step (np_poly roots) r.
  Proof. unfold np_poly. rewrite fold_left_app. reflexivity. Qed.
  Lemma dampf_snoc roots r e i : dampf (roots ++ [r]) e i = dampf roots e i - mv n A (dampf roots e) i / r.
  Proof. revert e. induction roots as [|r0 rs IH]; intros e; cbn [app dampf]; auto. Qed.
  Lemma prodneg_snoc roots r : prodneg (roots ++ [r]) = - r * prodneg roots.
  Proof. induction roots as [|r0 rs IH]; cbn [app prodneg]; [ring|]. rewrite IH. ring. Qed.

  Lemma np_poly_horner roots x : (forall r, In r roots -> r <> 0) -> forall i,
    horner (np_poly roots) x (fun _ => 0) i = prodneg roots * dampf roots x i.
  Proof.
    induction roots as [|r rs IH] using rev_ind; intros Hr i.
    - cbn. rewrite mv_0. ring.
    - rewrite np_poly_snoc, horner_step, prodneg_snoc, dampf_snoc.
      assert (H : forall j, horner (np_poly rs) x (fun _ => 0) j = prodneg rs * dampf rs x j).
      { apply IH. intros q Hq. apply Hr, in_or_app; auto. }
      rewrite H, (mv_pw _ (fun j => prodneg rs * dampf rs x j + 0 * dampf rs x j)) by (intros j; rewrite H; ring).
      rewrite mv_lin. assert (r <> 0) by (apply Hr, in_or_app; right; left; auto). field. auto.
  Qed.

  Lemma poly_step_last p r : p <> [] -> last (poly_step p r) 0 = - r * last p 0.
  Proof.
    intros Hp. rewrite poly_step_zip. destruct (exists_last Hp) as (q & c & ->). rewrite last_last.
    change (0 :: q ++ [c]) with ((0 :: q) ++ [c]).
    assert (L : length (q ++ [c]) = length (0 :: q)) by (rewrite app_length; cbn; lia).
    assert (CA : forall (a b : list Qc) u v, length a = length b -> combine (a ++ [u]) (b ++ [v]) = combine a b ++ [(u, v)]).
    { induction a as [|h a IH]; intros [|g b] u v E; cbn in *; try discriminate; auto. f_equal. apply IH. lia. }
    rewrite CA by auto. rewrite map_app. cbn [map]. rewrite last_last. cbn [fst snd]. ring.
  Qed.
  Lemma poly_step_nonnil p r : poly_step p r <> [].
  Proof. unfold poly_step. rewrite Nat.add_1_r. cbn. discriminate. Qed.
  Lemma np_poly_nonnil roots : np_poly roots <> [].
  Proof.
    induction roots as [|r rs _] using rev_ind; [cbn; discriminate|]. rewrite np_poly_snoc. apply poly_step_nonnil.
  Qed.
  Lemma np_poly_last roots : last (np_poly roots) 0 = prodneg roots.
  Proof.
    induction roots as [|r rs IH] using rev_ind; [reflexivity|].
    rewrite np_poly_snoc, poly_step_last, prodneg_snoc, IH by apply np_poly_nonnil. reflexivity.
  Qed.
  Lemma np_poly_length roots : length (np_poly roots) = S (length roots).
  Proof.
    induction roots as [|r rs IH] using rev_ind; [reflexivity|]. rewrite np_poly_snoc. unfold poly_step.
    rewrite tab_length, app_length, IH. cbn. lia.
  Qed.
  Lemma prodneg_nz roots : (forall r, In r roots -> r <> 0) -> prodneg roots <> 0.
  Proof.
    induction roots as [|r rs IH]; intros H; cbn [prodneg]; [apply qc_1_0|].
    intros E. apply Qcmult_integral in E as [E|E].
    - apply (H r (or_introl eq_refl)). rewrite <- (Qcopp_involutive r), E. ring.
    - revert E. apply IH. intros q Hq. apply H. right; auto.
  Qed.

  Lemma coeffs_ok roots : (forall r, In r roots -> r <> 0) -> exists cs, cheb_coeffs roots = Ok cs /\ length cs = length roots /\
    forall x i, x i - mv n A (horner cs x (fun _ => 0)) i = dampf roots x i.
  Proof.
    intros Hr. unfold cheb_coeffs. rewrite np_poly_last.
    assert (Hc := prodneg_nz roots Hr). set (c := prodneg roots) in *.
    destruct (Qc_eq_bool c 0) eqn:E; [apply qc_eqb in E; contradiction|].
    eexists. split; [reflexivity|]. split.
    - rewrite map_length. pose proof (app_removelast_last 0 (np_poly_nonnil roots)) as Hl.
      apply (f_equal (@length Qc)) in Hl. rewrite app_length, np_poly_length in Hl. cbn in Hl. lia.
    - intros x i.
      assert (HH : forall j, horner (map (fun v => - (v / c)) (removelast (np_poly roots))) x (fun _ => 0) j
        = - (1 / c) * horner (removelast (np_poly roots)) x (fun _ => 0) j).
      { intros j. rewrite <- horner_scal.
        rewrite (map_ext (fun v => - (v / c)) (fun v => - (1 / c) * v)) by (intros; field; auto).
        apply horner_ext. intros; ring. }
      rewrite (mv_pw _ (fun j => - (1 / c) * horner (removelast (np_poly roots)) x (fun _ => 0) j +
         0 * horner (removelast (np_poly roots)) x (fun _ => 0) j)) by (intros j; rewrite HH; ring).
      rewrite mv_lin.
      pose proof (np_poly_horner roots x Hr i) as Hn.
      rewrite (app_removelast_last 0 (np_poly_nonnil roots)), np_poly_last, horner_app in Hn. fold c in Hn.
      assert (dampf roots x i = / c * (c * dampf roots x i)) as -> by (field; auto).
      rewrite <- Hn. field. auto.
  Qed.
End Cheb.

Lemma assignScaled_ok (y : buf Qc) x a : length y = length x -> assignScaled y x a = Ok (map Some (tab (length x) (fun i => a * vat x i)%Qc)).
Proof. intros H. unfold assignScaled. apply fill_loop; auto. intros i z Hi _ _. rewrite (aget_nth x i 0%Qc) by auto. reflexivity. Qed.
Lemma assign3_ok (z : buf Qc) x a y b : length z = length x -> length y = length x ->
  assign3 z x a (map Some y) b = Ok (map Some (tab (length x) (fun i => a * vat x i + b * vat y i)%Qc)).
Proof.
  intros H1 H2. unfold assign3. apply fill_loop; auto. intros i w Hi _ _. rewrite (aget_nth x i 0%Qc) by auto. cbn [bind].
  rewrite (rd_some _ _ 0%Qc) by lia. reflexivity.
Qed.

Lemma tab_vat_ext n f x i : i < n -> vat (tab n f) i = x -> f i = x.
Proof. intros Hi E. rewrite <- E, vat_tab; auto. Qed.

Section ChebApply.
  Variables (n : nat) (A : csr).
  Hypothesis wf : wf_csr n n A.

  Lemma cheb_loop_ok x : length x = n -> forall cs y y0, length y = n -> (forall i, i < n -> vat y i = y0 i) -> exists z,
    for_list cs (fun c y => yl <- all_init y ;; t <- csr_matvec false A yl (alloc (c_nrows A)) ;; assign3 y x c t 1) (map Some y) = Ok (map Some z) /\
    length z = n /\ forall i, i < n -> vat z i = horner n (matrix A) cs (vat x) y0 i.
  Proof using wf.
    intros Hx. induction cs as [|c cs IH]; intros y y0 Hy He; cbn [for_list].
    - exists y. split; auto.
    - rewrite all_init_some. cbn [bind].
      destruct (csr_kernels_ok n n A false y wf Hy) as (HM & _ & _). rewrite HM
        by (unfold alloc; rewrite repeat_length; apply (csr_nrows n n A wf)). cbn [bind].
      rewrite assign3_ok by (rewrite ?map_length, ?tab_length; lia). cbn [bind]. rewrite Hx.
      destruct (IH (tab n (fun i => c * vat x i + 1 * vat (tab n (mv n (matrix A) (vat y))) i)%Qc) (fun i => c * vat x i + mv n (matrix A) y0 i)%Qc)
        as (z & Ez & Lz & Hz); [apply tab_length| |].
      + intros i Hi. rewrite !vat_tab by auto. rewrite (mv_ext n (matrix A) (vat y) y0) by auto. ring.
      + exists z. split; auto.
  Qed.

  Lemma cheb_matvec_ok cs : cs <> [] -> exists B, computes n (cheb_matvec A cs) B /\
    forall x i, length x = n -> i < n -> vat (B x) i = horner n (matrix A) cs (vat x) (fun _ => 0%Qc) i.
  Proof using wf.
    intros Hcs. exists (fun x => tab n (horner n (matrix A) cs (vat x) (fun _ => 0%Qc))). split.
    - intros x y Hx Hy. split; [|apply tab_length]. unfold cheb_matvec. destruct cs as [|c cs]; [congruence|].
      cbn [aget nth_error bind tl]. rewrite assignScaled_ok by lia. cbn [bind]. rewrite Hx.
      destruct (cheb_loop_ok x Hx cs (tab n (fun i => c * vat x i)%Qc) (fun i => c * vat x i + mv n (matrix A) (fun _ => 0) i)%Qc) as (z & Ez & Lz & Hz).
      { apply tab_length. }
      { intros i Hi. rewrite vat_tab by auto. rewrite mv_0. ring. }
      rewrite Ez. do 2 f_equal. apply eq_tab with (d := 0%Qc); auto.
    - intros x i Hx Hi. rewrite vat_tab by auto. reflexivity.
  Qed.

  Lemma dampf_damp roots : forall e f, (forall i, i < n -> vat e i = f i) -> length e = n ->
    damp n (matrix A) roots e = tab n (dampf n (matrix A) roots f).
  Proof using Type.
    induction roots as [|r rs IH]; intros e f H L; cbn [damp dampf].
    - apply eq_tab with (d := 0%Qc); auto.
    - apply IH; [|apply tab_length]. intros i Hi. rewrite vat_tab by auto. rewrite H by auto.
      rewrite (mv_ext n (matrix A) (vat e) f) by auto. reflexivity.
  Qed.

  Lemma cheb_error roots cs b B xs x y :
    (forall x i, (x i - mv n (matrix A) (horner n (matrix A) cs x (fun _ => 0%Qc)) i = dampf n (matrix A) roots x i)%Qc) ->
    (forall x i, length x = n -> i < n -> vat (B x) i = horner n (matrix A) cs (vat x) (fun _ => 0%Qc) i) ->
    length x = n -> length xs = n -> (forall i, i < n -> mv n (matrix A) (vat xs) i = vat b i) ->
    correct_by n (matrix A) b B x y ->
    vsub n y xs = damp n (matrix A) roots (vsub n x xs).
  Proof using Type.
    intros Hc HB Lx Lxs Hxs Hy.
    set (e := fun i => (vat x i - vat xs i)%Qc).
    rewrite (dampf_damp roots _ e); [|intros i Hi; unfold vsub; rewrite vat_tab by auto; reflexivity|apply tab_length].
    unfold vsub. apply tab_ext. intros i Hi. rewrite Hy, vat_tab by auto. rewrite HB by (auto; apply resid_len).
    rewrite <- Hc.
    assert (R : forall j, j < n -> vat (resid n (matrix A) b x) j = (- (1) * mv n (matrix A) e j)%Qc).
    { intros j Hj. unfold resid. rewrite vat_tab by auto. rewrite <- Hxs by auto. unfold e.
      rewrite (mv_pw n (matrix A) (fun i0 => vat x i0 - vat xs i0)%Qc (fun i0 => 1 * vat x i0 + (- (1)) * vat xs i0)%Qc) by (intros; ring).
      rewrite mv_lin. ring. }
    assert (G : forall cs y0 y1 i, i < n -> (forall j, j < n -> y0 j = y1 j) ->
       horner n (matrix A) cs (vat (resid n (matrix A) b x)) y0 i = horner n (matrix A) cs (fun j => - (1) * mv n (matrix A) e j)%Qc y1 i).
    { clear - R. induction cs as [|c cs IH]; intros y0 y1 i Hi H; rewrite ?horner_cons; auto.
      apply IH; auto. intros j Hj. rewrite R by auto. rewrite (mv_ext n (matrix A) y0 y1) by auto. reflexivity. }
    rewrite (G cs (fun _ => 0%Qc) (fun _ => 0%Qc) i Hi) by auto.
    assert (HS : forall cs x a y0 i, (horner n (matrix A) cs (fun j => a * x j) (fun j => a * y0 j) i = a * horner n (matrix A) cs x y0 i)%Qc).
    { clear. induction cs as [|c cs IH]; intros x a y0 i; rewrite ?horner_cons; auto.
      rewrite <- (IH x a (fun i => c * x i + mv n (matrix A) y0 i)%Qc i). apply horner_ext. intros j.
      rewrite (mv_pw n (matrix A) (fun j => a * y0 j)%Qc (fun j => a * y0 j + 0 * y0 j)%Qc) by (intros; ring). rewrite mv_lin. ring. }
    rewrite (horner_ext n (matrix A) cs _ (fun _ => 0%Qc) (fun _ => - (1) * 0)%Qc) by (intros; ring). rewrite HS.
    rewrite (horner_ext n (matrix A) cs _ (fun _ => 0%Qc) (mv n (matrix A) (fun _ => 0%Qc))) by (intros; rewrite mv_0; ring).
    rewrite horner_A. unfold e. ring.
  Qed.
End ChebApply.
