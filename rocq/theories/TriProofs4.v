(** C11 and C12 assembled, and the data of their examples. *)
From Coq Require Import Permutation Sorted.
From Verif Require Import Util Lin SparsitySpec CSRModel CSRSpec CSRProofs TriModel TriSpec TriProofs TriProofs2 TriProofs3.

Lemma kernels_thm :
  forall n (ip ind : list nat) (dat b : list Qc), length b = n ->
    (lower_cols n ip ind dat -> forall y0 : list Qc, length y0 = n ->
       exists y, forward_solve_csc ip ind dat b (map Some y0) false = Ok (map Some y) /\
         the_solution n (colmat ip ind dat) (tab n (fun i => vat b i - vat y0 i)%Qc) y) /\
    (lower_cols n ip ind dat -> forall y0 : list Qc, length y0 = n ->
       exists y, forward_solve_csc ip ind dat b (map Some y0) true = Ok (map Some y) /\
         the_solution n (with_diag (colmat ip ind dat) (fun _ => 1%Qc)) (tab n (fun i => vat b i - vat y0 i)%Qc) y) /\
    (upper_cols n ip ind dat -> forall y0 : list Qc, length y0 = n ->
       exists y, backward_solve_csc ip ind dat b (map Some y0) = Ok (map Some y) /\
         the_solution n (colmat ip ind dat) (tab n (fun i => vat b i - vat y0 i)%Qc) y) /\
    (diag_rows n ip ind dat -> forall y0 : buf Qc, length y0 = n ->
       exists y, backward_solve_csr ip ind dat b y0 = Ok (map Some y) /\
         the_solution n (upper_part (rowmat ip ind dat)) b y) /\
    (strict_above n ip ind dat -> forall diag : list Qc, length diag = n -> (forall i, i < n -> vat diag i <> 0%Qc) ->
       (forall y0 : list Qc, length y0 = n -> exists y, forward_solve_sss ip ind dat diag b (map Some y0) false = Ok (map Some y) /\
          the_solution n (with_diag (colmat ip ind dat) (vat diag)) (tab n (fun i => vat b i - vat y0 i)%Qc) y) /\
       (forall y0 : buf Qc, length y0 = n -> exists y, backward_solve_sss ip ind dat diag b y0 = Ok (map Some y) /\
          the_solution n (with_diag (rowmat ip ind dat) (vat diag)) b y)).
Proof.
  intros n ip ind dat b Hb. repeat split; intros.
  - apply (forward_solve_csc_ok n ip ind dat false); auto.
  - apply (forward_solve_csc_ok n ip ind dat true); auto.
  - apply backward_solve_csc_ok; auto.
  - apply backward_solve_csr_ok; auto.
  - apply (forward_solve_sss_ok n ip ind dat false false); auto.
  - apply (backward_solve_sss_ok n ip ind dat false); auto.
Qed.

Lemma lu_thm :
  forall n (Lip Lind : list nat) (Ldat : list Qc) (Uip Uind : list nat) (Udat : list Qc) (perm_r perm_c : list nat) (A : mat) (b : list Qc),
    lower_cols n Lip Lind Ldat -> upper_cols n Uip Uind Udat ->
    (forall i, i < n -> colmat Lip Lind Ldat i i = 1%Qc) ->
    is_perm n perm_r -> is_perm n perm_c ->
    (forall i j, i < n -> j < n ->
       A i j = mm n (colmat Lip Lind Ldat) (colmat Uip Uind Udat) (nth i perm_r 0) (nth j perm_c 0)) ->
    length b = n ->
    exists x, the_solution n A b x /\
      solve_LU Lip Lind Ldat Uip Uind Udat perm_r perm_c b = Ok (map Some x) /\
      forall x0 temp1 temp2 : buf Qc, length x0 = n -> length temp1 = n -> length temp2 = n ->
        lu_solver_solve Lip Lind Ldat Uip Uind Udat perm_r perm_c b x0 temp1 = Ok (map Some x) /\
        ilu_solver_solve Lip Lind Ldat Uip Uind Udat perm_r perm_c b x0 temp1 temp2 = Ok (map Some x).
Proof.
  intros n Lip Lind Ldat Uip Uind Udat pr pc A b HL HU H1 Hr Hc HA Hb.
  destruct (solve_LU_ok n Lip Lind Ldat Uip Uind Udat pr pc A HL HU H1 Hr Hc HA b Hb) as (x & E & S).
  exists x. split; auto. split; auto. intros x0 t1 t2 Hx Ht1 Ht2.
  destruct (lu_solver_solve_ok n Lip Lind Ldat Uip Uind Udat pr pc A HL HU H1 Hr Hc HA b x0 t1 Hb Hx Ht1) as (x1 & -> & S1).
  destruct (ilu_solver_solve_ok n Lip Lind Ldat Uip Uind Udat pr pc A HL HU H1 Hr Hc HA b x0 t1 t2 Hb Hx Ht1 Ht2) as (x2 & -> & S2).
  assert (x1 = x) as -> by (apply S, S1; auto). assert (x2 = x) as -> by (apply S, S2; auto). auto.
Qed.

Lemma cholesky_thm :
  forall n (ip ind : list nat) (dat b : list Qc), length b = n ->
    (lower_cols n ip ind dat ->
       exists x, solve_cholesky ip ind dat b = Ok (map Some x) /\
         the_solution n (mm n (colmat ip ind dat) (mt (colmat ip ind dat))) b x) /\
    (strict_above n ip ind dat -> forall idiag : list Qc, length idiag = n -> (forall i, i < n -> vat idiag i <> 0%Qc) ->
       forall x0 temp : buf Qc, length x0 = n -> length temp = n ->
       exists x, ichol_solver_solve ip ind dat idiag b x0 temp = Ok (map Some x) /\
         let L := with_diag (colmat ip ind dat) (fun i => / vat idiag i)%Qc in
         the_solution n (mm n L (mt L)) b x).
Proof.
  intros n ip ind dat b Hb. split; intros.
  - apply solve_cholesky_ok; auto.
  - apply ichol_solver_solve_ok; auto.
Qed.

Definition ichol_A : csr :=
  CSR 3 [0; 3; 6; 9] [0; 1; 2; 0; 1; 2; 0; 1; 2] [qz 4; qz 2; qz 2; qz 2; qz 5; qz 3; qz 2; qz 3; qz 6].
Definition ichol_L0 : mat := fun i j =>
  nth j (nth i [[qz 2; qz 0; qz 0]; [qz 1; qz 2; qz 0]; [qz 1; qz 1; qz 2]] []) 0%Qc.

Lemma qc_eq (a b : Qc) : this a = this b -> a = b.
Proof. intros H. apply Qc_is_canon. rewrite H. reflexivity. Qed.

Lemma ichol_wrong :
  exists (A : csr) (L0 : mat) (ind ip : list nat) (dat : list Qc) (diag : list Qc),
    wf_csr 3 3 A /\ sorted_csr 3 A /\
    (forall i j, i < 3 -> j < 3 -> matrix A i j = mm 3 L0 (mt L0) i j) /\
    (forall i j, i < 3 -> i < j < 3 -> L0 i j = 0%Qc) /\ (forall i, i < 3 -> (0 < L0 i i)%Qc) /\
    ichol_csr rat_sqrt A = Ok (ind, ip, dat, map Some diag) /\
    let L := with_diag (colmat ip ind dat) (vat diag) in
    L 2 1 <> L0 2 1 /\ mm 3 L (mt L) 2 1 <> matrix A 2 1.
Proof.
  destruct (ichol_csr rat_sqrt ichol_A) as [[[[ind ip] dat] diag]|] eqn:E; [|exfalso; vm_compute in E; discriminate].
  exists ichol_A, ichol_L0, ind, ip, dat, (map (fun o => match o with Some v => v | None => 0%Qc end) diag).
  split; [|split; [|split; [|split; [|split; [|split]]]]].
  - split; [reflexivity|]. split; [reflexivity|]. split; [intros [|[|[|i]]] H; cbn; lia|].
    split; [cbn; lia|]. split; [reflexivity|]. intros j Hj. cbn in Hj. lia.
  - intros [|[|[|i]]] H; try lia; vm_compute; repeat constructor.
  - intros [|[|[|i]]] [|[|[|j]]] H H'; try lia; apply qc_eq; vm_compute; reflexivity.
  - intros [|[|[|i]]] [|[|[|j]]] H H'; try lia; apply qc_eq; vm_compute; reflexivity.
  - intros [|[|[|i]]] H; try lia; vm_compute; reflexivity.
  - do 2 f_equal. vm_compute in E. inversion E. reflexivity.
  - vm_compute in E. inversion E. split; intros Hx; apply (f_equal this) in Hx; vm_compute in Hx; discriminate.
Qed.

Lemma lu_example_factors :
  lower_cols 3 [0; 2; 4; 5] [0; 1; 1; 2; 2] [qz 1; qz 2; qz 1; qz 3; qz 1] /\
  upper_cols 3 [0; 1; 2; 5] [0; 1; 0; 1; 2] [qz 2; qz 3; qz 1; qz 4; qz 5] /\
  (forall i, i < 3 -> colmat [0; 2; 4; 5] [0; 1; 1; 2; 2] [qz 1; qz 2; qz 1; qz 3; qz 1] i i = 1%Qc) /\
  is_perm 3 [1; 2; 0] /\ is_perm 3 [2; 0; 1].
Proof.
  split; [|split; [|split; [|split]]].
  - split.
    + split; [reflexivity|]. split; [intros [|[|[|i]]] H; cbn; lia|]. split; [cbn; lia|]. split; [reflexivity|].
      intros j Hj. cbn in Hj. lia.
    + intros [|[|[|j]]] H; try lia; do 2 eexists; (split; [reflexivity|]);
        (split; [intros Hx; discriminate Hx|]); cbn; intros p Hp; firstorder; subst; cbn; lia.
  - split.
    + split; [reflexivity|]. split; [intros [|[|[|i]]] H; cbn; lia|]. split; [cbn; lia|]. split; [reflexivity|].
      intros j Hj. cbn in Hj. lia.
    + intros [|[|[|j]]] H; try lia.
      * exists (qz 2), []. split; [reflexivity|]. split; [intros Hx; discriminate Hx|]. intros p [].
      * exists (qz 3), []. split; [reflexivity|]. split; [intros Hx; discriminate Hx|]. intros p [].
      * exists (qz 5), [(0, qz 1); (1, qz 4)]. split; [reflexivity|]. split; [intros Hx; discriminate Hx|].
        intros p [<-|[<-|[]]]; cbn; lia.
  - intros [|[|[|i]]] H; try lia; apply qc_eq; vm_compute; reflexivity.
  - apply NoDup_Permutation; [apply seq_NoDup|repeat constructor; cbn; lia|]. intros x. rewrite in_seq. cbn. lia.
  - apply NoDup_Permutation; [apply seq_NoDup|repeat constructor; cbn; lia|]. intros x. rewrite in_seq. cbn. lia.
Qed.
