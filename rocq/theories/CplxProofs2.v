From Verif Require Import Util Lin CSRModel CSRSpec DenseModel SmootherModel CompModel CompSpec CompProofs CompProofs7 CompProofs10 CplxModel CplxSpec CplxProofs.
Local Open Scope nat_scope.

Lemma put_part_ok (part : cplx -> Qc) x v h : inside h v -> length x = v_len v -> part (of_real 0%Qc) = 0%Qc ->
  exists h', put_part part x v h = Ok h' /\ contents h' v = map Some (map part x) /\ only h h' (touches v).
Proof.
  intros Hi Hx Hp. unfold put_part. rewrite (vread_ok h v Hi). cbn [bind].
  rewrite (fill_loop (v_len v) _ (contents h v) (fun i => part (cvat x i))).
  - cbn [bind]. assert (E : tab (v_len v) (fun i => part (cvat x i)) = map part x).
    { apply nth_ext with (d := 0%Qc) (d' := 0%Qc); [rewrite tab_length, map_length; auto|]. intros i H. rewrite tab_length in H. rewrite nth_tab by auto. symmetry. apply (cvat_vat part x i Hp). }
    rewrite E. apply vwrite_ok; [exact Hi|]. rewrite !map_length. exact Hx.
  - apply contents_length, Hi.
  - intros i y Hi' Hl _. rewrite (aget_nth _ _ (of_real 0%Qc)) by (rewrite Hx; auto). reflexivity.
Qed.

(** The scratch vectors are long enough. *)
Lemma long_only h h' W (lens : nat -> nat) T : only h h' W -> (forall id, In id T -> lens id <= length (nth id h [])) -> forall id, In id T -> lens id <= length (nth id h' []).
Proof. intros (L & _) H id Hid. rewrite L. auto. Qed.

Lemma wrap_ok lens e t t2 : ok lens e -> offers e false false = true -> ~ In t (scratch e) -> ~ In t2 (scratch e) -> t <> t2 ->
  let n := fst (dims e) in let m := snd (dims e) in
  exists o, build e = Ok o /\ l_rows o = n /\ l_cols o = m /\ forall x y h, length x = m -> length y = n ->
  m <= length (nth t h []) -> n <= length (nth t2 h []) -> (forall id, In id (scratch e) -> lens id <= length (nth id h [])) ->
  exists h', wrap_matvec o t t2 x y h = Ok (map Some (tab n (cmv m (real_mat (meaning e)) (cvat x))), h') /\
    only h h' (fun id k => In id (t :: t2 :: scratch e)).
Proof.
  intros Ho Hv N1 N2 N n m. destruct (products_ok lens e Ho) as (o & B & Rn & Rm & P). specialize (P false false Hv). cbv iota in P. fold n m in P, Rn, Rm.
  exists o. split; [exact B|]. split; [exact Rn|]. split; [exact Rm|]. intros x y h Hx Hy L1 L2 LT. unfold wrap_matvec. rewrite Rn, Rm. cbv zeta.
  set (v := View t 0 m). set (v2 := View t2 0 n).
  assert (W : forall h0, (forall id, length (nth id h0 []) = length (nth id h [])) -> forall part, part (of_real 0%Qc) = 0%Qc ->
    exists h1 h2, put_part part x v h0 = Ok h1 /\ call o false false v v2 h1 = Ok h2 /\ vread h2 v2 = Ok (map Some (tab n (mv m (meaning e) (fun j => part (cvat x j))))) /\
      only h0 h2 (fun id k => In id (t :: t2 :: scratch e))).
  { intros h0 L0 part Hp.
    assert (I1 : inside h0 v) by (unfold inside, v; cbn; rewrite L0; exact L1).
    destruct (put_part_ok part x v h0 I1 Hx Hp) as (h1 & E1 & C1 & O1). exists h1.
    assert (AR : arguments lens (scratch e) n m false v v2 (map part x) [] h1).
    { repeat split; cbn; auto.
      - apply (long_only h0 h1 _ lens _ O1). intros id Hid. rewrite L0. auto.
      - apply (only_inside _ _ _ _ O1 I1).
      - apply (only_inside _ _ _ _ O1). unfold inside, v2. cbn. rewrite L0. exact L2.
      - discriminate. }
    destruct (P v v2 _ _ h1 AR) as (h2 & E2 & C2 & O2). exists h2. split; [exact E1|]. split; [exact E2|]. split.
    - rewrite vread_ok; [|apply (only_inside _ _ _ _ O2), (only_inside _ _ _ _ O1); unfold inside, v2; cbn; rewrite L0; exact L2].
      rewrite C2. f_equal. f_equal. apply tab_ext. intros i _. etransitivity; [apply Qcplus_0_l|]. unfold mv. apply sumf_ext. intros j _. now rewrite (cvat_vat part x j Hp).
    - apply only_trans with h1; [eapply only_weaken; [exact O1|]|eapply only_weaken; [exact O2|]].
      + intros id k (-> & _). left. reflexivity.
      + intros id k [Hid|(-> & _)]; [right; right; exact Hid|right; left; reflexivity]. }
  destruct (W h (fun _ => eq_refl) fst eq_refl) as (h1 & h2 & E1 & E2 & E3 & O2).
  rewrite E1. cbn [bind]. rewrite E2. cbn [bind]. rewrite E3. cbn [bind].
  rewrite (fill_loop n _ y (fun i => of_real (mv m (meaning e) (fun j => fst (cvat x j)) i)) Hy).
  2: { intros i y0 Hi _ _. rewrite (rd_some _ i 0%Qc) by (rewrite tab_length; auto). rewrite nth_tab by auto. reflexivity. }
  cbn [bind]. destruct (W h2 (proj1 O2) snd eq_refl) as (h3 & h4 & E4 & E5 & E6 & O4).
  rewrite E4. cbn [bind]. rewrite E5. cbn [bind]. rewrite E6. cbn [bind].
  rewrite (fill_loop n _ _ (cmv m (real_mat (meaning e)) (cvat x))).
  - exists h4. split; [reflexivity|]. apply only_trans with h2; assumption.
  - rewrite map_length, tab_length. reflexivity.
  - intros i y0 Hi _ E. rewrite (rd_ok _ _ (of_real (mv m (meaning e) (fun j => fst (cvat x j)) i))) by (rewrite E; apply map_nth_error; rewrite nth_error_tab by auto; reflexivity).
    cbn [bind]. rewrite (rd_some _ i 0%Qc) by (rewrite tab_length; auto). cbn [bind]. rewrite nth_tab by auto. apply (f_equal (wr y0 i)). rewrite real_product.
    unfold cplus, cmult, c_I, of_real. apply cplx_eq; cbn [fst snd]; ring.
Qed.

Lemma triple_ok lens A B C t t2 : ok lens A -> ok lens B -> ok lens C -> snd (dims A) = fst (dims B) -> snd (dims B) = fst (dims C) ->
  offers A false false = true -> offers B false false = true -> offers C false false = true ->
  ~ In t (scratch B ++ scratch C) -> ~ In t2 (scratch A ++ scratch B) -> t <> t2 -> snd (dims B) <= lens t -> snd (dims A) <= lens t2 ->
  exists a b c f, build A = Ok a /\ build B = Ok b /\ build C = Ok c /\ triple_product a b c t t2 = Ok f /\
  performs lens (t :: t2 :: scratch A ++ scratch B ++ scratch C) (fst (dims A)) (snd (dims C))
    (mm (snd (dims A)) (meaning A) (mm (snd (dims B)) (meaning B) (meaning C))) false f.
Proof.
  intros OA OB OC DA DB VA VB VC Nt Nt2 N L1 L2.
  destruct (products_ok lens A OA) as (a & BA & Ra & Ca & PA). destruct (products_ok lens B OB) as (b & BB & Rb & Cb & PB). destruct (products_ok lens C OC) as (c & BC & Rc & Cc & PC).
  specialize (PA false false VA). specialize (PB false false VB). specialize (PC false false VC). cbv iota in PA, PB, PC.
  rewrite in_app_iff in Nt, Nt2. exists a, b, c. eexists. split; [exact BA|]. split; [exact BB|]. split; [exact BC|]. unfold triple_product.
  rewrite Rb, Rc, Ca, Cb, (proj2 (Nat.eqb_eq _ _) DA), (proj2 (Nat.eqb_eq _ _) DB). cbn [guard bind]. split; [reflexivity|].
  rewrite <- DB in PC. rewrite <- DA in PB.
  intros x y xs ys h (LT & Lx & Ly & Ix & Iy & Cx & _ & Nx & Ny & Nxy).
  cbv beta zeta. set (v := View t 0 (snd (dims B))). set (v2 := View t2 0 (snd (dims A))).
  assert (T : forall id, In id (scratch A) \/ In id (scratch B) \/ In id (scratch C) -> In id (t :: t2 :: scratch A ++ scratch B ++ scratch C)) by (intros id H; right; right; rewrite !in_app_iff; tauto).
  assert (Iv : inside h v) by (unfold inside, v; cbn; specialize (LT t (or_introl eq_refl)); lia).
  assert (Iv2 : inside h v2) by (unfold inside, v2; cbn; specialize (LT t2 (or_intror (or_introl eq_refl))); lia).
  destruct (PC x v xs [] h) as (h1 & E1 & C1 & O1).
  { repeat split; cbn; auto; try discriminate; try (intros H; now apply Nx, T; auto); try (intros ->; apply Nx; left; reflexivity); try (intros <-; apply Nx; left; reflexivity); tauto. }
  rewrite E1. cbn [bind].
  destruct (PB v v2 (tab (snd (dims B)) (fun i => 0 + mv (snd (dims C)) (meaning C) (vat xs) i)%Qc) [] h1) as (h2 & E2 & C2 & O2).
  { split; [apply (long_only h h1 _ lens _ O1); auto|]. split; [reflexivity|]. split; [reflexivity|]. split; [apply (only_inside _ _ _ _ O1 Iv)|]. split; [apply (only_inside _ _ _ _ O1 Iv2)|].
    split; [exact C1|]. split; [discriminate|]. cbn. tauto. }
  rewrite E2. cbn [bind].
  destruct (PA v2 y (tab (snd (dims A)) (fun i => 0 + mv (snd (dims B)) (meaning B) (vat (tab (snd (dims B)) (fun i => 0 + mv (snd (dims C)) (meaning C) (vat xs) i))) i)%Qc) [] h2) as (h3 & E3 & C3 & O3).
  { split; [apply (long_only h1 h2 _ lens _ O2), (long_only h h1 _ lens _ O1); auto|]. split; [reflexivity|]. split; [exact Ly|].
    split; [apply (only_inside _ _ _ _ O2), (only_inside _ _ _ _ O1 Iv2)|]. split; [apply (only_inside _ _ _ _ O2), (only_inside _ _ _ _ O1 Iy)|].
    split; [exact C2|]. split; [discriminate|]. split; [cbn; tauto|]. split; [intros H; apply Ny, T; auto|]. cbn. intros H. apply Ny. right. left. exact H. }
  exists h3. split; [exact E3|]. split.
  - rewrite C3. f_equal. apply tab_ext. intros i Hi. f_equal.
    transitivity (mv (snd (dims A)) (meaning A) (mv (snd (dims B)) (meaning B) (mv (snd (dims C)) (meaning C) (vat xs))) i).
    + unfold mv at 1 2. apply sumf_ext. intros j Hj. f_equal. rewrite vat_tab by auto. etransitivity; [apply Qcplus_0_l|].
      unfold mv at 1 3. apply sumf_ext. intros l Hl. f_equal. rewrite vat_tab by auto. apply Qcplus_0_l.
    + rewrite !mv_mm. unfold mv at 1 4. apply sumf_ext. intros j _. now rewrite mv_mm.
  - apply only_trans with h1; [|apply only_trans with h2].
    + eapply only_weaken; [exact O1|]. intros id k [H|(-> & _)]; left; [apply T; auto|left; reflexivity].
    + eapply only_weaken; [exact O2|]. intros id k [H|(-> & _)]; left; [apply T; auto|right; left; reflexivity].
    + eapply only_weaken; [exact O3|]. intros id k [H|H]; [left; apply T; auto|right; exact H].
Qed.
Lemma split_call_ok n A1 A2 x y : wf_csr n n A1 -> wf_csr n n A2 -> length x = n -> length y = n ->
  split_call A1 A2 x y = Ok (map Some (tab n (mv n (fun i j => matrix A1 i j + matrix A2 i j)%Qc (vat x)))).
Proof. intros w1 w2 Hx Hy. unfold split_call. rewrite (CSRProofs.csr_nrows n n A1 w1), Hx, Hy, Nat.eqb_refl. cbn [guard bind]. apply split_ok; auto. Qed.
Lemma split_rectangular n m A1 A2 x y : wf_csr n m A1 -> length x = m -> n <> m -> split_call A1 A2 x y = Err EAssert.
Proof. intros w1 Hx N. unfold split_call. rewrite (CSRProofs.csr_nrows n m A1 w1), Hx. apply Nat.eqb_neq in N. rewrite N. reflexivity. Qed.
Lemma helmholtz_new n S M s x y : wf_csr n n S -> wf_csr n n M -> nodup_csr n S -> nodup_csr n M -> length x = n -> length y = n ->
  exists H, new_helmholtz S M s = Ok H /\ h_diagonal H = map Some (tab n (fun i => shifted (matrix S) (matrix M) s i i)) /\
    helmholtz_matvec H x y = Ok (map Some (tab n (cmv n (shifted (matrix S) (matrix M) s) (cvat x)))) /\
    forall s', exists H', setShift H s' = Ok H' /\ h_diagonal H' = map Some (tab n (fun i => shifted (matrix S) (matrix M) s' i i)) /\
    helmholtz_matvec H' x y = Ok (map Some (tab n (cmv n (shifted (matrix S) (matrix M) s') (cvat x)))).
Proof.
  intros wS wM nS nM Hx Hy. unfold new_helmholtz. rewrite (CSRProofs.csr_nrows n n S wS). rewrite (setShift_ok n) by (auto; unfold alloc; apply repeat_length).
  eexists. split; [reflexivity|]. split; [reflexivity|]. split; [apply helmholtz_ok; auto|]. intros s'. rewrite (setShift_ok n) by (auto; rewrite map_length, tab_length; auto).
  eexists. split; [reflexivity|]. split; [reflexivity|]. apply helmholtz_ok; auto.
Qed.
