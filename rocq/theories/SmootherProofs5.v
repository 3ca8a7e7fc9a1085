(** The statements of C18 and C19 put together. *)
From Coq Require Import Sorted.
From Verif Require Import Util Lin SparsitySpec CSRModel CSRSpec CSRProofs TriModel TriSpec TriProofs TriProofs2 TriProofs3
  SmootherModel SmootherSpec SmootherProofs SmootherProofs2 SmootherProofs3 SmootherProofs4.

Lemma sor_thm n A D omega pre post x y0 : wf_csr n n A -> sorted_csr n A -> length D = n -> (forall i, i < n -> vat D i <> 0%Qc) ->
  omega <> 0%Qc -> length x = n -> length y0 = n ->
  exists P r1 r2, sor_init (OpCSR A) D omega pre post = Ok P /\
    sor_matvec (sor_setPre P) x y0 = Ok (map Some r1) /\ the_solution n (split_of pre (matrix A) D omega) x r1 /\
    sor_matvec (sor_setPost P) x y0 = Ok (map Some r2) /\ the_solution n (split_of post (matrix A) D omega) x r2.
Proof.
  intros wf Hs HD Hd Ho Hx Hy.
  destruct (sor_csr_ok n D omega HD Hd Ho A x y0 pre post pre wf Hs Hx Hy) as (r1 & E1 & H1).
  destruct (sor_csr_ok n D omega HD Hd Ho A x y0 pre post post wf Hs Hx Hy) as (r2 & E2 & H2).
  exists (SOR (OpCSR A) D None omega pre post false), r1, r2. auto.
Qed.

Lemma sor_ts_thm n T D omega pre post x y0 : wf_csr n n (ts_S T) -> wf_csr n n (ts_M T) ->
  c_indptr (ts_M T) = c_indptr (ts_S T) -> c_indices (ts_M T) = c_indices (ts_S T) -> sorted_csr n (ts_S T) ->
  length D = n -> (forall i, i < n -> vat D i <> 0%Qc) ->
  omega <> 0%Qc -> length x = n -> length y0 = n ->
  let TM := mlin (ts_facS T) (matrix (ts_S T)) (ts_facM T) (matrix (ts_M T)) in
  exists P r1 r2, sor_init (OpTS T) D omega pre post = Ok P /\
    sor_matvec (sor_setPre P) x y0 = Ok (map Some r1) /\ the_solution n (split_of pre TM D omega) x r1 /\
    sor_matvec (sor_setPost P) x y0 = Ok (map Some r2) /\ the_solution n (split_of post TM D omega) x r2.
Proof.
  intros wfS wfM E1 E2 Hs HD Hd Ho Hx Hy TM.
  destruct (sor_ts_ok n D omega HD Hd Ho T x y0 pre post pre wfS wfM E1 E2 Hs Hx Hy) as (r1 & F1 & H1).
  destruct (sor_ts_ok n D omega HD Hd Ho T x y0 pre post post wfS wfM E1 E2 Hs Hx Hy) as (r2 & F2 & H2).
  exists (SOR (OpTS T) D None omega pre post false), r1, r2. split; auto.
  unfold sor_init. rewrite (csr_nrows n n _ wfM), (csr_nrows n n _ wfS), E1, Nat.eqb_refl. reflexivity.
Qed.

Lemma ssor_thm n A D omega x y0 : wf_csr n n A -> sorted_csr n A -> length D = n -> (forall i, i < n -> vat D i <> 0%Qc) ->
  omega <> 0%Qc -> length x = n -> length y0 = n ->
  exists u v r, ssor_matvec A D omega x y0 = Ok (map Some r) /\
    the_solution n (lower_split (matrix A) D omega) x u /\
    the_solution n (upper_split (matrix A) D omega) (tab n (fun i => vat D i / omega * vat u i)%Qc) v /\
    r = tab n (fun i => ((1 + 1) - omega) * vat v i)%Qc.
Proof.
  intros wf Hs HD Hd Ho Hx Hy. destruct (ssor_ok n D omega HD Hd Ho A x y0 wf Hs Hx Hy) as (u & v & E & H1 & H2).
  exists u, v. eexists. eauto.
Qed.

Lemma ssor_sym_thm n A D omega x1 x2 y1 y2 : wf_csr n n A -> sorted_csr n A -> symmetric n (matrix A) ->
  length D = n -> (forall i, i < n -> vat D i <> 0%Qc) ->
  omega <> 0%Qc -> length x1 = n -> length x2 = n -> length y1 = n -> length y2 = n ->
  exists r1 r2, ssor_matvec A D omega x1 y1 = Ok (map Some r1) /\ ssor_matvec A D omega x2 y2 = Ok (map Some r2) /\
    dotf n (vat x2) (vat r1) = dotf n (vat r2) (vat x1).
Proof.
  intros wf Hs HA HD Hd Ho Hx1 Hx2 Hy1 Hy2.
  destruct (ssor_ok n D omega HD Hd Ho A x1 y1 wf Hs Hx1 Hy1) as (u1 & v1 & E1 & S1 & T1).
  destruct (ssor_ok n D omega HD Hd Ho A x2 y2 wf Hs Hx2 Hy2) as (u2 & v2 & E2 & S2 & T2).
  eexists. eexists. split; [exact E1|]. split; [exact E2|].
  assert (F : forall w v, dotf n w (vat (tab n (fun i => ((1 + 1) - omega) * vat v i)%Qc)) = (((1 + 1) - omega) * dotf n w (vat v))%Qc).
  { intros w v. unfold dotf. rewrite <- sumf_scal. apply sumf_ext. intros i Hi. rewrite vat_tab by auto. ring. }
  rewrite F, (dotf_comm n _ (vat x1)), F, (dotf_comm n (vat x1)). f_equal.
  apply (ssor_sym n D omega HD Hd Ho (matrix A) x1 u1 v1 x2 u2 v2); auto.
Qed.

Lemma gs_thm n A b y preS postS pre post p : wf_csr n n A -> (forall i, i < n -> matrix A i i <> 0%Qc) ->
  length b = n -> length y = n ->
  exists G z, gs_init (OpCSR A) (tab n (fun i => matrix A i i)) preS postS pre post = Ok G /\ gs_eval G b y p = Ok z /\
    steps (gs_sweep (if p then post else pre) n (matrix A) b) (if p then postS else preS) y z /\
    ((forall i, i < n -> mv n (matrix A) (vat y) i = vat b i) -> z = y).
Proof.
  intros wf Hd Hb Hy.
  destruct (gs_csr_ok n A _ b wf eq_refl Hd Hb y preS postS pre post p Hy) as (G & z & E1 & E2 & HS).
  exists G, z. split; auto. split; auto. split; auto. intros H. eapply gs_fixed; eauto.
Qed.

Section TS.
  Variables (n : nat) (T : tstep).
  Let TM := mlin (ts_facS T) (matrix (ts_S T)) (ts_facM T) (matrix (ts_M T)).
  Lemma gs_ts_thm b y preS postS pre post p :
    wf_csr n n (ts_S T) -> wf_csr n n (ts_M T) ->
    c_indptr (ts_M T) = c_indptr (ts_S T) -> c_indices (ts_M T) = c_indices (ts_S T) -> sorted_csr n (ts_S T) ->
    (forall i, i < n -> TM i i <> 0%Qc) -> length b = n -> length y = n ->
    exists G z, gs_init (OpTS T) (tab n (fun i => TM i i)) preS postS pre post = Ok G /\ gs_eval G b y p = Ok z /\
      ((pre = true -> post = true) -> steps (gs_sweep (if p then post else pre) n TM b) (if p then postS else preS) y z) /\
      ((pre = true /\ post = false) -> steps (gs_sweep (if p then pre else post) n TM b) (if p then postS else preS) y z) /\
      ((forall i, i < n -> mv n TM (vat y) i = vat b i) -> z = y).
  Proof.
    intros wfS wfM E1 E2 Hs Hd Hb Hy.
    destruct (gs_ts_ok n T wfS wfM (tab n (fun i => TM i i)) b eq_refl Hd Hb E1 E2 Hs y preS postS pre post p Hy) as (G & z & F1 & F2 & HS).
    exists G, z. split; auto. split; auto. split; [|split].
    - intros H. replace (if p then post else pre) with (if (if p then post else pre) then post else pre); auto.
      destruct p, pre, post; auto. specialize (H eq_refl). discriminate.
    - intros [-> ->]. destruct p; exact HS.
    - intros H. eapply gs_fixed; [|exact HS|auto|auto]. auto.
  Qed.
End TS.

Lemma sep_thm n A b prec B k y simple : wf_csr n n A -> computes n prec B -> length b = n -> length y = n ->
  (simple = true -> forall i, i < n -> vat y i = 0%Qc) ->
  exists z, sep_eval n (csr_residual A) prec k b y simple = Ok z /\
    steps (correct_by n (matrix A) b B) k y z /\
    ((forall i, i < n -> vat (B (tab n (fun _ => 0%Qc))) i = 0%Qc) ->
     (forall i, i < n -> mv n (matrix A) (vat y) i = vat b i) -> z = y).
Proof.
  intros wf HB Hb Hy Hs. destruct (sep_eval_ok n A b wf Hb prec B k y simple HB Hy Hs) as (z & E & HS & L).
  exists z. split; auto. split; auto. intros H0 He. eapply correct_fixed; eauto.
Qed.

Lemma jacobi_thm n A b D omega k y simple : wf_csr n n A -> length D = n -> (forall i, i < n -> vat D i <> 0%Qc) ->
  length b = n -> length y = n -> (simple = true -> forall i, i < n -> vat y i = 0%Qc) ->
  exists z, sep_eval n (csr_residual A) (jacobi_prec D omega) k b y simple = Ok z /\
    steps (fun x x' => x' = tab n (fun i => vat x i + omega / vat D i * (vat b i - mv n (matrix A) (vat x) i))%Qc) k y z /\
    ((forall i, i < n -> mv n (matrix A) (vat y) i = vat b i) -> z = y).
Proof.
  intros wf HD Hd Hb Hy Hs.
  destruct (sep_thm n A b _ _ k y simple wf (jacobi_prec_ok n D omega HD Hd) Hb Hy Hs) as (z & E & HS & Hf).
  exists z. split; auto. split.
  - revert HS. apply (steps_impl _ _ (fun _ => True)); auto. intros x x' _ ->. split; auto.
    apply tab_ext. intros i Hi. rewrite vat_tab by auto. unfold resid. rewrite vat_tab by auto. reflexivity.
  - apply Hf. intros i Hi. rewrite !vat_tab by auto. ring.
Qed.

Lemma cheb_thm n A b roots k y simple : wf_csr n n A -> roots <> [] -> (forall r, In r roots -> r <> 0%Qc) ->
  length b = n -> length y = n -> (simple = true -> forall i, i < n -> vat y i = 0%Qc) ->
  exists cs z, cheb_coeffs roots = Ok cs /\ sep_eval n (csr_residual A) (cheb_matvec A cs) k b y simple = Ok z /\
    (forall xs, length xs = n -> (forall i, i < n -> mv n (matrix A) (vat xs) i = vat b i) ->
       steps (fun x x' => vsub n x' xs = damp n (matrix A) roots (vsub n x xs)) k y z) /\
    ((forall i, i < n -> mv n (matrix A) (vat y) i = vat b i) -> z = y).
Proof.
  intros wf Hne Hr Hb Hy Hs.
  destruct (coeffs_ok n (matrix A) roots Hr) as (cs & Ec & Lc & Hc).
  assert (cs <> []) by (destruct cs; [destruct roots; [congruence|discriminate]|discriminate]).
  destruct (cheb_matvec_ok n A wf cs H) as (B & HB & HBv).
  destruct (sep_thm n A b _ B k y simple wf HB Hb Hy Hs) as (z & E & HS & Hf).
  exists cs, z. split; auto. split; auto. split.
  - intros xs Lxs Hxs. revert HS. apply (steps_impl _ _ (fun x => length x = n)); auto.
    intros x x' Lx Hx. split.
    + eapply cheb_error; eauto.
    + rewrite Hx. apply tab_length.
  - apply Hf. intros i Hi. rewrite HBv by (auto; apply tab_length).
    assert (G : forall cs, forall y0, (forall j, j < n -> y0 j = 0%Qc) -> forall j, j < n -> horner n (matrix A) cs (vat (tab n (fun _ => 0%Qc))) y0 j = 0%Qc).
    { clear. induction cs as [|c cs IH]; intros y0 H j Hj; auto. rewrite horner_cons. apply IH; auto. intros l Hl.
      rewrite vat_tab by auto. rewrite (mv_ext n (matrix A) y0 (fun _ => 0%Qc)) by auto. rewrite mv_0. ring. }
    apply G; auto.
Qed.

Lemma ssor_smoother_thm n A b D omega k y simple : wf_csr n n A -> sorted_csr n A ->
  length D = n -> (forall i, i < n -> vat D i <> 0%Qc) -> omega <> 0%Qc ->
  length b = n -> length y = n -> (simple = true -> forall i, i < n -> vat y i = 0%Qc) ->
  exists z, sep_eval n (csr_residual A) (ssor_matvec A D omega) k b y simple = Ok z /\
    steps (fun x x' => exists u v,
      the_solution n (lower_split (matrix A) D omega) (resid n (matrix A) b x) u /\
      the_solution n (upper_split (matrix A) D omega) (tab n (fun i => vat D i / omega * vat u i)%Qc) v /\
      x' = tab n (fun i => vat x i + ((1 + 1) - omega) * vat v i)%Qc) k y z /\
    ((forall i, i < n -> mv n (matrix A) (vat y) i = vat b i) -> z = y).
Proof.
  intros wf Hso HD Hd Ho Hb Hy Hs.
  set (B := fun x => match ssor_matvec A D omega x (alloc n) with Ok r => match all_init r with Ok l => l | Err _ => [] end | Err _ => [] end).
  assert (LA : length (alloc (A := Qc) n) = n) by (unfold alloc; apply repeat_length).
  assert (HB : computes n (ssor_matvec A D omega) B).
  { intros x y0 Hx Hy0.
    destruct (ssor_ok n D omega HD Hd Ho A x y0 wf Hso Hx Hy0) as (u & v & E & S1 & T1).
    destruct (ssor_ok n D omega HD Hd Ho A x (alloc n) wf Hso Hx LA) as (u' & v' & E' & S1' & T1').
    assert (u' = u) by (symmetry; apply S1', S1; auto). subst u'.
    assert (v' = v) by (symmetry; apply T1', T1; auto). subst v'.
    unfold B. rewrite E', all_init_some, E. split; auto. apply tab_length. }
  destruct (sep_thm n A b _ B k y simple wf HB Hb Hy Hs) as (z & E & HS & Hf).
  exists z. split; auto. split.
  - revert HS. apply (steps_impl _ _ (fun x => length x = n)); auto. intros x x' Lx ->. split; [|apply tab_length].
    destruct (ssor_ok n D omega HD Hd Ho A (resid n (matrix A) b x) (alloc n) wf Hso ltac:(apply resid_len) LA) as (u & v & E' & S1 & T1).
    exists u, v. split; auto. split; auto. unfold B. rewrite E', all_init_some. apply tab_ext. intros i Hi. rewrite vat_tab by auto. reflexivity.
  - apply Hf. intros i Hi. unfold B.
    destruct (ssor_ok n D omega HD Hd Ho A (tab n (fun _ => 0%Qc)) (alloc n) wf Hso ltac:(apply tab_length) LA) as (u & v & E' & S1 & T1).
    rewrite E', all_init_some, vat_tab by auto. apply the_solution_zero in S1. subst u.
    rewrite (tab_ext n _ (fun _ => 0%Qc)) in T1 by (intros j Hj; rewrite vat_tab by auto; ring).
    apply the_solution_zero in T1. subst v. rewrite vat_tab by auto. ring.
Qed.

(** * Counterexamples *)
Definition ex_S : csr := CSR 2 [0; 2; 4] [0; 1; 0; 1] [qz 2; qz 1; qz 1; qz 2].
Definition ex_Z : csr := CSR 2 [0; 2; 4] [0; 1; 0; 1] [qz 0; qz 0; qz 0; qz 0].
Definition ex_T : tstep := TStep ex_Z ex_S 1 1.

Lemma ts_sweep_wrong : exists T b y G z,
  let TM := mlin (ts_facS T) (matrix (ts_S T)) (ts_facM T) (matrix (ts_M T)) in
  wf_csr 2 2 (ts_S T) /\ wf_csr 2 2 (ts_M T) /\ sorted_csr 2 (ts_S T) /\
  gs_init (OpTS T) (tab 2 (fun i => TM i i)) 1 1 true false = Ok G /\
  gs_eval G b y false = Ok z /\ ~ steps (gs_sweep true 2 TM b) 1 y z /\ steps (gs_sweep false 2 TM b) 1 y z.
Proof.
  assert (W : wf_csr 2 2 ex_S).
  { repeat split; cbn; try lia. intros i Hi. destruct i as [|[|i]]; cbn; lia. }
  assert (W' : wf_csr 2 2 ex_Z).
  { repeat split; cbn; try lia. intros i Hi. destruct i as [|[|i]]; cbn; lia. }
  assert (Ss : sorted_csr 2 ex_S).
  { intros i Hi. destruct i as [|[|i]]; [| |lia]; cbn; repeat constructor. }
  destruct (gs_ts_thm 2 ex_T [qz 1; qz 0] [qz 0; qz 0] 1 1 true false false) as (G & z & E1 & E2 & _ & H & _); auto.
  { intros i Hi E. apply (f_equal this) in E. destruct i as [|[|i]]; [| |lia]; vm_compute in E; discriminate. }
  specialize (H (conj eq_refl eq_refl)). cbn iota in H.
  exists ex_T, [qz 1; qz 0], [qz 0; qz 0], G, z. cbv zeta.
  split; auto. split; auto. split; auto. split; auto. split; auto. split; auto.
  assert (EG : G = GS (OpTS ex_T) (tab 2 (fun i => mlin (ts_facS ex_T) (matrix (ts_S ex_T)) (ts_facM ex_T) (matrix (ts_M ex_T)) i i))
     (Some (SOR (OpTS ex_T) (tab 2 (fun i => mlin (ts_facS ex_T) (matrix (ts_S ex_T)) (ts_facM ex_T) (matrix (ts_M ex_T)) i i)) None 1 true false false)) 1 1 true false).
  { unfold gs_init, sor_init in E1. cbn [guard bind] in E1. injection E1 as <-. reflexivity. }
  assert (Ez : gs_eval G [qz 1; qz 0] [qz 0; qz 0] false = Ok [Q2Qc (1 # 2); Q2Qc 0]).
  { rewrite EG. apply show_list_eq. vm_compute. reflexivity. }
  rewrite E2 in Ez. injection Ez as ->. clear.
  intros HS. inversion HS as [|k0 ? y' ? HR HT]; subst. inversion HT; subst. clear HS HT. destruct HR as [_ HR].
  specialize (HR 1 ltac:(lia)). apply (f_equal this) in HR. vm_compute in HR. discriminate.
Qed.

Definition ex_S2 : csr := CSR 2 [0; 2; 3] [0; 1; 1] [qz 1; qz 1; qz 1].
Definition ex_M2 : csr := CSR 2 [0; 1; 3] [0; 0; 1] [qz 1; qz 1; qz 1].
Definition ex_T2 : tstep := TStep ex_M2 ex_S2 1 1.

Lemma ts_pattern_wrong : exists T D x P r,
  let TM := mlin (ts_facS T) (matrix (ts_S T)) (ts_facM T) (matrix (ts_M T)) in
  wf_csr 2 2 (ts_S T) /\ wf_csr 2 2 (ts_M T) /\ sorted_csr 2 (ts_S T) /\ sorted_csr 2 (ts_M T) /\
  D = tab 2 (fun i => TM i i) /\ (forall i, i < 2 -> vat D i <> 0%Qc) /\
  sor_init (OpTS T) D 1 true true = Ok P /\ sor_matvec (sor_setPre P) x (alloc 2) = Ok (map Some r) /\
  ~ is_solution 2 (lower_split TM D 1) x r.
Proof.
  exists ex_T2, (tab 2 (fun i => mlin (ts_facS ex_T2) (matrix (ts_S ex_T2)) (ts_facM ex_T2) (matrix (ts_M ex_T2)) i i)), [qz 1; qz 1].
  eexists. exists [Q2Qc (1 # 2); Q2Qc (1 # 2)]. cbv zeta.
  split. { repeat split; cbn; try lia. intros i Hi. destruct i as [|[|i]]; cbn; lia. }
  split. { repeat split; cbn; try lia. intros i Hi. destruct i as [|[|i]]; cbn; lia. }
  split. { intros i Hi. destruct i as [|[|i]]; [| |lia]; cbn; repeat constructor. }
  split. { intros i Hi. destruct i as [|[|i]]; [| |lia]; cbn; repeat constructor. }
  split; [reflexivity|].
  split. { intros i Hi E. apply (f_equal this) in E. destruct i as [|[|i]]; [| |lia]; vm_compute in E; discriminate. }
  split; [reflexivity|]. split.
  - apply show_buf_eq. vm_compute. reflexivity.
  - intros [_ HS]. specialize (HS 1 ltac:(lia)). apply (f_equal this) in HS. vm_compute in HS. discriminate.
Qed.
