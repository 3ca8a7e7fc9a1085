(** Diagonals, operators of Python, dense copies. *)
From Verif Require Import Util Lin CSRModel CSRSpec CSRProofs DenseModel DenseSpec DenseProofs OpsProofs SmootherModel CompModel CompSpec CompProofs CompProofs2 CompProofs3 CompProofs4 CompProofs5 CompProofs6 CompProofs7.
Local Open Scope Qc_scope.

Lemma np_lincomb_ok a u b v n : length u = n -> length v = n -> np_lincomb a u b v = Ok (tab n (fun i => a * vat u i + b * vat v i)).
Proof.
  intros Hu Hv. unfold np_lincomb. rewrite Hu, Hv, Nat.eqb_refl. f_equal. apply vec_ext; rewrite map_length, combine_length, Hu, Hv, Nat.min_id; [rewrite tab_length; reflexivity|].
  intros i Hi. rewrite vat_tab by auto. apply vat_nth_error. rewrite nth_error_map.
  assert (E : nth_error (combine u v) i = Some (vat u i, vat v i)).
  { rewrite (nth_error_nth' _ (0, 0)) by (rewrite combine_length; lia). f_equal. rewrite combine_nth by lia. reflexivity. }
  rewrite E. reflexivity.
Qed.
Lemma repeat_tab (c : Qc) n : repeat c n = tab n (fun _ => c).
Proof. unfold tab. generalize 0%nat. induction n as [|n IH]; intros k; [reflexivity|]. cbn [repeat seq map]. rewrite <- IH. reflexivity. Qed.
Lemma map_tab {A B} (f : A -> B) n g : map f (tab n g) = tab n (fun i => f (g i)).
Proof. unfold tab. rewrite map_map. reflexivity. Qed.

Lemma dense_diagonal_ok n A : wf_dense n n A -> dense_diagonal A = Ok (tab n (fun i => dmat A i i)).
Proof.
  intros (Hn & Hm & Hl). unfold dense_diagonal. rewrite Hn, Hm, Nat.min_id.
  rewrite (fill_loop n _ (alloc n) (fun i => dmat A i i)).
  - cbn [bind]. apply all_init_some.
  - unfold alloc. apply repeat_length.
  - intros i y Hi Hy _. rewrite (dget_ok n n) by (auto; split; auto). reflexivity.
Qed.

Lemma sss_diagonal n A : wf_sss n A -> s_diag A = tab n (fun i => sym_matrix A i i).
Proof.
  intros (wfr & Hd & Hlow). apply (eq_tab _ n _ 0 Hd). intros i Hi. unfold sym_matrix. rewrite Nat.eqb_refl. 
  assert (Z : lower A i i = 0).
  { unfold lower, ent. assert (G : forall l : list (nat * Qc), (forall p, In p l -> (fst p < i)%nat) -> filter (fun p => (fst p =? i)%nat) l = []).
    { clear. induction l as [|p l IH]; intros H; [reflexivity|]. cbn [filter]. pose proof (H p (or_introl eq_refl)) as Hp. destruct (Nat.eqb_spec (fst p) i); [lia|]. apply IH. intros q Hq. apply H. right; auto. }
    rewrite G; [reflexivity|]. intros p Hp. apply (Hlow i p Hi Hp). }
  rewrite Z. change (nth i (s_diag A) 0) with (vat (s_diag A) i). ring.
Qed.

Lemma timestepper_diag M K fS fM z o : new_timestepper M K fS fM z = Ok o -> l_diag o = (dM <- l_diag M ;; dK <- l_diag K ;; np_lincomb fM dM fS dK).
Proof.
  unfold new_timestepper. destruct (_ =? _)%nat; [|discriminate]. cbn [guard]. rewrite bind_Ok. destruct (_ =? _)%nat; [|discriminate].
  cbn [guard]. rewrite bind_Ok. intros E. injection E as <-. reflexivity.
Qed.
Lemma sum_diag ops cs z o : new_sum ops cs z = Ok o -> l_diag o =
  (s <- for_list (combine cs ops) (fun p s => d <- l_diag (snd p) ;;
      match s with
      | None => Ok (Some (map (fun v => fst p * v) d))
      | Some s => s <- np_lincomb 1 s (fst p) d ;; Ok (Some s)
      end) None ;;
   match s with Some s => Ok s | None => unsupported end).
Proof.
  unfold new_sum. destruct ops as [|o0 rest]; [discriminate|]. destruct (_ =? _)%nat; [|discriminate]. cbn [guard]. rewrite bind_Ok.
  destruct (for_list _ _ _) as [?|]; [|discriminate]. rewrite bind_Ok. intros E. injection E as <-. reflexivity.
Qed.
Lemma sum_diag_loop n es os cs : Forall2 (fun e o => l_diag o = Ok (tab n (fun i => meaning e i i))) es os -> length cs = length es -> forall g,
  for_list (combine cs os) (fun p s => d <- l_diag (snd p) ;;
      match s with
      | None => Ok (Some (map (fun v => fst p * v) d))
      | Some s => s <- np_lincomb 1 s (fst p) d ;; Ok (Some s)
      end) (Some (tab n g)) = Ok (Some (tab n (fun i => g i + suml (map (fun p => fst p * snd p i i) (combine cs (map meaning es)))))).
Proof.
  intros F. revert cs. induction F as [|e o es os H F IH]; intros cs Hl g.
  - destruct cs; [|discriminate]. cbn [combine for_list map suml]. do 2 f_equal. apply tab_ext. intros; ring.
  - destruct cs as [|c cs]; [discriminate|]. injection Hl as Hl. cbn [combine for_list map suml fst snd]. rewrite H, bind_Ok.
    rewrite (np_lincomb_ok _ _ _ _ n) by apply tab_length. rewrite !bind_Ok. rewrite IH by auto. do 2 f_equal. apply tab_ext. intros i Hi. cbv beta. rewrite !vat_tab by auto. ring.
Qed.

Lemma diag_sound lens e : ok lens e -> fst (dims e) = snd (dims e) -> offers_diagonal e ->
  exists o, build e = Ok o /\ l_diag o = Ok (tab (fst (dims e)) (fun i => meaning e i i)).
Proof.
  induction e as [A|A|A|d|n m|n a|M K fS fM z IHM IHK|A f IH|A B t IHA IHB|A IH|rows t IH|ops cs z IH] using expr_all; intros Hok Hsq Hd; pose proof (build_sound lens _ Hok) as (o & Eo & _); cbn [ok offers_diagonal] in *.
  - exists (csr_op A). split; [reflexivity|]. apply (csr_get_diagonal_ok _ _ A Hok Hd).
  - exists (sss_op A). split; [reflexivity|]. cbn [l_diag sss_op plain]. f_equal. apply sss_diagonal, Hok.
  - exists (dense_op A). split; [reflexivity|]. cbn [dims fst snd] in *. apply dense_diagonal_ok. rewrite Hsq at 1. rewrite <- Hsq in *. destruct Hok as (H1 & H2 & H3). split; [auto|]. split; [auto|]. rewrite H3. reflexivity.
  - exists (diag_op d). split; [reflexivity|]. cbn [l_diag diag_op plain dims fst meaning]. f_equal. rewrite (as_tab d _ eq_refl) at 1. apply tab_ext. intros i Hi. rewrite Nat.eqb_refl. reflexivity.
  - exists (null_op n m). split; [reflexivity|]. cbn [dims fst snd] in *. subst m. cbn [l_diag null_op plain meaning]. rewrite Nat.min_id, repeat_tab. reflexivity.
  - exists (identity_op n a). split; [reflexivity|]. subst a. cbn [l_diag identity_op plain meaning dims fst]. rewrite repeat_tab. f_equal. apply tab_ext. intros i _. rewrite Nat.eqb_refl. reflexivity.
  - destruct Hok as (HM & HK & Hdim & Lz & Nz). destruct Hd as (DM & DK). cbn [dims] in Hsq.
    destruct (IHM HM Hsq DM) as (oM & EM & dM). destruct (IHK HK ltac:(rewrite Hdim; auto) DK) as (oK & EK & dK). rewrite Hdim in dK.
    cbn [build] in Eo. rewrite EM, bind_Ok, EK, bind_Ok in Eo. exists o. split; [cbn [build]; rewrite EM, bind_Ok, EK, bind_Ok; exact Eo|].
    rewrite (timestepper_diag _ _ _ _ _ _ Eo), dM, dK, !bind_Ok. cbn [dims meaning]. rewrite (np_lincomb_ok _ _ _ _ (fst (dims M))) by apply tab_length.
    f_equal. apply tab_ext. intros i Hi. rewrite !vat_tab by auto. reflexivity.
  - destruct (IH Hok Hsq Hd) as (oA & EA & dA). exists (multiply_op oA f). split; [cbn [build]; rewrite EA; reflexivity|].
    cbn [l_diag multiply_op plain dims meaning]. rewrite dA, bind_Ok, map_tab. reflexivity.
  - destruct Hd.
  - cbn [dims fst snd] in Hsq. destruct (IH Hok (eq_sym Hsq) Hd) as (oA & EA & dA). exists (transpose_op oA). split; [cbn [build]; rewrite EA; reflexivity|].
    cbn [l_diag transpose_op plain dims meaning fst]. rewrite dA, Hsq. reflexivity.
  - destruct Hd.
  - destruct Hok as (Hall & Hne & Hc & Hdim & Lz & Nz). remember (fst (dims (ESum ops cs z))) as n eqn:En.
    destruct (sequence_ok build (fun e o => l_diag o = Ok (tab n (fun i => meaning e i i))) ops) as (os & E & F).
    { intros e He. rewrite Forall_forall in IH. destruct (IH e He) as (o' & Eo' & D').
      - apply (all_In _ _ Hall), in_map, He.
      - rewrite (Hdim e He), <- En. exact Hsq.
      - apply (all_In _ _ Hd), in_map, He.
      - exists o'. split; [exact Eo'|]. rewrite (Hdim e He), <- En in D'. exact D'. }
    cbn [build] in Eo. rewrite E, bind_Ok in Eo. exists o. split; [cbn [build]; rewrite E, bind_Ok; exact Eo|].
    rewrite (sum_diag _ _ _ _ Eo). destruct F as [|e o1 es os D F]; [congruence|]. destruct cs as [|c cs]; [discriminate|]. injection Hc as Hc.
    cbn [combine for_list snd fst]. rewrite D, !bind_Ok, map_tab. rewrite (sum_diag_loop n es os cs F Hc), bind_Ok. f_equal.
Qed.

(** ** Operators of Python *)
Definition scaled (a : expr) (A : expr) (f : Qc) : Prop := a = EMultiply A f \/ A = a /\ f = 1.
Lemma add_cases a b z :
  (exists n m, b = ENull n m /\ add a b z = a) \/ (exists n m, a = ENull n m /\ add a b z = b) \/
  exists A f B g, scaled a A f /\ scaled b B g /\ add a b z = EStep A B g f z.
Proof.
  destruct b; try (left; eexists _, _; split; reflexivity); destruct a; try (right; left; eexists _, _; split; reflexivity); right; right;
    repeat eexists; try (left; reflexivity); right; split; reflexivity.
Qed.
Lemma scaled_ok lens a A f : scaled a A f -> ok lens a -> ok lens A /\ dims A = dims a /\ scratch A = scratch a /\
  (forall i j, meaning a i j = f * meaning A i j) /\ (algebraic a = true -> algebraic A = true).
Proof.
  intros [-> |(-> & ->)] H.
  - cbn [ok dims scratch meaning algebraic] in *. auto.
  - split; [auto|]. split; [auto|]. split; [auto|]. split; [|auto]. intros. ring.
Qed.
Lemma add_ok lens a b z : ok lens a -> ok lens b -> dims b = dims a -> (fst (dims a) <= lens z)%nat -> ~ In z (scratch a ++ scratch b) ->
  ok lens (add a b z) /\ dims (add a b z) = dims a /\ incl (scratch (add a b z)) (z :: scratch a ++ scratch b) /\
  (forall i j, meaning (add a b z) i j = meaning a i j + meaning b i j) /\ (algebraic a = true -> algebraic b = true -> algebraic (add a b z) = true).
Proof.
  intros Ha Hb Hd Lz Nz. destruct (add_cases a b z) as [(n & m & -> & ->)|[(n & m & -> & ->)|(A & f & B & g & Sa & Sb & ->)]].
  - split; [auto|]. split; [auto|]. split; [intros u Hu; right; apply in_or_app; auto|]. split; [|auto]. intros. cbn [meaning]. ring.
  - split; [auto|]. split; [auto|]. split; [intros u Hu; right; apply in_or_app; auto|]. split; [|auto]. intros. cbn [meaning]. ring.
  - destruct (scaled_ok lens a A f Sa Ha) as (HA & DA & TA & MA & AA). destruct (scaled_ok lens b B g Sb Hb) as (HB & DB & TB & MB & AB).
    split; [cbn [ok]; rewrite DB, DA, TA, TB; auto|]. split; [exact DA|]. split; [cbn [scratch]; rewrite TA, TB; apply incl_refl|]. split.
    + intros i j. cbn [meaning]. rewrite MA, MB. reflexivity.
    + intros H1 H2. cbn [algebraic]. rewrite AA, AB by auto. reflexivity.
Qed.
Lemma rmul_ok lens x a z : ok lens a -> (fst (dims a) <= lens z)%nat -> ~ In z (scratch a) ->
  ok lens (rmul x a z) /\ dims (rmul x a z) = dims a /\ incl (scratch (rmul x a z)) (z :: scratch a) /\
  (forall i j, meaning (rmul x a z) i j = x * meaning a i j) /\ (algebraic a = true -> algebraic (rmul x a z) = true).
Proof.
  intros Ha Lz Nz.
  assert (G : (exists M K fS fM z', a = EStep M K fS fM z' /\ rmul x a z = EStep M K (fS * x) (fM * x) z) \/
    rmul x a z = if Qc_eq_bool x 0 then ENull (fst (shape_of a)) (snd (shape_of a)) else EMultiply a x).
  { destruct a; try (right; reflexivity). left. do 5 eexists. split; reflexivity. }
  destruct G as [(M & K & fS & fM & z' & -> & ->)|E].
  - cbn [ok scratch dims algebraic] in *. destruct Ha as (HM & HK & Hd & _ & _).
    assert (Nz' : ~ In z (scratch M ++ scratch K)) by (intros H; apply Nz; right; exact H).
    split; [auto|]. split; [auto|]. split; [intros u [-> |Hu]; [left; auto|right; right; auto]|]. split; [|auto]. intros i j. cbn [meaning]. ring.
  - fold (is x 0) in E. destruct (is x 0) eqn:E0.
    + apply is_true in E0. subst x. destruct (build_sound lens a Ha) as (o & Eo & (Rn & Rm & _) & _). unfold shape_of in E. rewrite Eo in E. cbn [fst snd] in E. rewrite E.
      split; [exact Logic.I|]. split; [cbn [dims]; rewrite Rn, Rm; symmetry; apply surjective_pairing|]. split; [intros u []|]. split; [|auto]. intros i j. cbn [meaning]. ring.
    + rewrite E. split; [auto|]. split; [auto|]. split; [intros u Hu; right; auto|]. split; [|auto]. reflexivity.
Qed.
Lemma mul_ok lens x a z : ok lens a -> (fst (dims a) <= lens z)%nat -> ~ In z (scratch a) ->
  ok lens (mul a x z) /\ dims (mul a x z) = dims a /\ incl (scratch (mul a x z)) (z :: scratch a) /\
  (forall i j, meaning (mul a x z) i j = x * meaning a i j) /\ (algebraic a = true -> algebraic (mul a x z) = true).
Proof.
  intros Ha Lz Nz. destruct a; try (apply rmul_ok; auto). cbn [mul]. cbn [ok dims scratch meaning algebraic] in *.
  split; [auto|]. split; [auto|]. split; [intros u Hu; right; auto|]. split; [|auto]. intros. ring.
Qed.
Lemma sub_ok lens a b z z' : ok lens a -> ok lens b -> dims b = dims a -> (fst (dims a) <= lens z)%nat -> (fst (dims a) <= lens z')%nat ->
  ~ In z (scratch a ++ scratch b) -> ~ In z' (z :: scratch a ++ scratch b) ->
  ok lens (sub a b z z') /\ dims (sub a b z z') = dims a /\
  (forall i j, meaning (sub a b z z') i j = meaning a i j - meaning b i j) /\ (algebraic a = true -> algebraic b = true -> algebraic (sub a b z z') = true).
Proof.
  intros Ha Hb Hd Lz Lz' Nz Nz'. unfold sub.
  destruct (rmul_ok lens (-(1)) b z Hb) as (H1 & H2 & H3 & H4 & H5).
  { rewrite Hd. auto. } { intros H. apply Nz, in_or_app. auto. }
  destruct (add_ok lens a (rmul (-(1)) b z) z' Ha H1) as (K1 & K2 & _ & K4 & K5); auto.
  { congruence. }
  { intros H. apply Nz'. apply in_app_or in H. destruct H as [H|H]; [right; apply in_or_app; auto|]. apply H3 in H. destruct H as [H|H]; [left; auto|right; apply in_or_app; auto]. }
  split; [auto|]. split; [auto|]. split; [|auto]. intros i j. rewrite K4, H4. ring.
Qed.
Lemma algebraic_offers e : algebraic e = true -> forall a, offers e false a = true.
Proof.
  induction e as [A|A|A|d|n m|n c|M K fS fM z IHM IHK|A f IH|A B t IHA IHB|A IH|rows t IH|ops cs z IH] using expr_all; cbn [algebraic]; intros H a; try discriminate; try reflexivity.
  - apply andb_prop in H. destruct H as (HM & HK). cbn [offers negb orb andb]. rewrite !(IHM HM), !(IHK HK).
    destruct a, (is fS 1), (is fS 0), (is fM 1), (is fM 0); reflexivity.
  - cbn [offers]. rewrite (IH H). destruct (a && is f 0); reflexivity.
  - apply andb_prop in H. destruct H as (HA & HB). cbn [offers]. rewrite (IHA HA), (IHB HB). reflexivity.
Qed.
