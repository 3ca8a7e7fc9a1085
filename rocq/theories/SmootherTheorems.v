(** SOR, SSOR and smoothers: C18 and C19. *)
From Verif Require Import Util Lin CSRModel CSRSpec TriModel TriSpec SmootherModel SmootherSpec SmootherProofs5.

(** C18. Applying the SOR preconditioner of a matrix with ordered columns after
    setPre / setPost returns the only r with (D/omega + L) r = x or
    (D/omega + U) r = x, as the sweep options say. *)
Theorem C18_sor : forall n A D omega pre post x y0, wf_csr n n A -> sorted_csr n A -> length D = n ->
  (forall i, i < n -> vat D i <> 0%Qc) -> omega <> 0%Qc -> length x = n -> length y0 = n ->
  exists P r1 r2, sor_init (OpCSR A) D omega pre post = Ok P /\
    sor_matvec (sor_setPre P) x y0 = Ok (map Some r1) /\ the_solution n (split_of pre (matrix A) D omega) x r1 /\
    sor_matvec (sor_setPost P) x y0 = Ok (map Some r2) /\ the_solution n (split_of post (matrix A) D omega) x r2.
Proof. exact sor_thm. Qed.
Print Assumptions C18_sor.

(** The same for a TimeStepper operator facS*S + facM*M. Missing: matrices S and M
    stored with different patterns, see [C18_timestepper_patterns_refuted]. *)
Theorem C18_sor_timestepper_partial : forall n T D omega pre post x y0, wf_csr n n (ts_S T) -> wf_csr n n (ts_M T) ->
  c_indptr (ts_M T) = c_indptr (ts_S T) -> c_indices (ts_M T) = c_indices (ts_S T) -> sorted_csr n (ts_S T) ->
  length D = n -> (forall i, i < n -> vat D i <> 0%Qc) ->
  omega <> 0%Qc -> length x = n -> length y0 = n ->
  let TM := mlin (ts_facS T) (matrix (ts_S T)) (ts_facM T) (matrix (ts_M T)) in
  exists P r1 r2, sor_init (OpTS T) D omega pre post = Ok P /\
    sor_matvec (sor_setPre P) x y0 = Ok (map Some r1) /\ the_solution n (split_of pre TM D omega) x r1 /\
    sor_matvec (sor_setPost P) x y0 = Ok (map Some r2) /\ the_solution n (split_of post TM D omega) x r2.
Proof. exact sor_ts_thm. Qed.
Print Assumptions C18_sor_timestepper_partial.

(** The constructor only compares the numbers of entries of S and M. *)
Theorem C18_timestepper_patterns_refuted : exists T D x P r,
  let TM := mlin (ts_facS T) (matrix (ts_S T)) (ts_facM T) (matrix (ts_M T)) in
  wf_csr 2 2 (ts_S T) /\ wf_csr 2 2 (ts_M T) /\ sorted_csr 2 (ts_S T) /\ sorted_csr 2 (ts_M T) /\
  D = tab 2 (fun i => TM i i) /\ (forall i, i < 2 -> vat D i <> 0%Qc) /\
  sor_init (OpTS T) D 1 true true = Ok P /\ sor_matvec (sor_setPre P) x (alloc 2) = Ok (map Some r) /\
  ~ is_solution 2 (lower_split TM D 1) x r.
Proof. exact ts_pattern_wrong. Qed.
Print Assumptions C18_timestepper_patterns_refuted.

(** For symmetric storage the preconditioner never works: its diagonal array is
    not set by the constructor. *)
Theorem C18_sor_symmetric_storage_refuted : forall A D omega pre post x y0,
  wf_sss (length D) A -> 0 < length D -> length x = length D -> length y0 = length D ->
  exists P, sor_init (OpSSS A) D omega pre post = Ok P /\
    sor_matvec (sor_setPre P) x y0 = Err EUninit /\ sor_matvec (sor_setPost P) x y0 = Err EUninit.
Proof. exact SmootherProofs2.sor_sss_fails. Qed.
Print Assumptions C18_sor_symmetric_storage_refuted.

(** SSOR applies (2-omega) (D/omega+U)^-1 (D/omega) (D/omega+L)^-1. *)
Theorem C18_ssor : forall n A D omega x y0, wf_csr n n A -> sorted_csr n A -> length D = n ->
  (forall i, i < n -> vat D i <> 0%Qc) -> omega <> 0%Qc -> length x = n -> length y0 = n ->
  exists u v r, ssor_matvec A D omega x y0 = Ok (map Some r) /\
    the_solution n (lower_split (matrix A) D omega) x u /\
    the_solution n (upper_split (matrix A) D omega) (tab n (fun i => vat D i / omega * vat u i)%Qc) v /\
    r = tab n (fun i => ((1 + 1) - omega) * vat v i)%Qc.
Proof. exact ssor_thm. Qed.
Print Assumptions C18_ssor.

(** SSOR of a symmetric matrix is a symmetric operator. *)
Theorem C18_ssor_symmetric : forall n A D omega x1 x2 y1 y2, wf_csr n n A -> sorted_csr n A -> symmetric n (matrix A) ->
  length D = n -> (forall i, i < n -> vat D i <> 0%Qc) ->
  omega <> 0%Qc -> length x1 = n -> length x2 = n -> length y1 = n -> length y2 = n ->
  exists r1 r2, ssor_matvec A D omega x1 y1 = Ok (map Some r1) /\ ssor_matvec A D omega x2 y2 = Ok (map Some r2) /\
    dotf n (vat x2) (vat r1) = dotf n (vat r2) (vat x1).
Proof. exact ssor_sym_thm. Qed.
Print Assumptions C18_ssor_symmetric.

(** 1D Laplacian with 3 unknowns. *)
Definition ex_lap : csr := CSR 3 [0; 2; 5; 7] [0; 1; 0; 1; 2; 1; 2] (map qz [2; -1; -1; 2; -1; -1; 2]%Z).
Example C18_example :
  wf_csr 3 3 ex_lap /\ sorted_csr 3 ex_lap /\ symmetric 3 (matrix ex_lap) /\
  show_buf (P <- sor_init (OpCSR ex_lap) (map qz [2; 2; 2]%Z) 1 true false ;;
            sor_matvec (sor_setPre P) (map qz [4; 2; 5]%Z) (alloc 3)) = Ok [Some 2%Q; Some 2%Q; Some (7 # 2)%Q] /\
  show_buf (P <- sor_init (OpCSR ex_lap) (map qz [2; 2; 2]%Z) 1 true false ;;
            sor_matvec (sor_setPost P) (map qz [4; 2; 6]%Z) (alloc 3)) = Ok [Some (13 # 4)%Q; Some (5 # 2)%Q; Some 3%Q] /\
  show_buf (ssor_matvec ex_lap (map qz [2; 2; 2]%Z) 1 (map qz [4; 2; 6]%Z) (alloc 3)) = Ok [Some 4%Q; Some 4%Q; Some 4%Q].
Proof.
  split. { repeat split; cbn; try lia. intros i Hi. destruct i as [|[|[|i]]]; cbn; lia. }
  split. { intros i Hi. destruct i as [|[|[|i]]]; [| | |lia]; cbn; repeat constructor. }
  split. { intros i j Hi Hj. destruct i as [|[|[|i]]], j as [|[|[|j]]]; try lia; vm_compute; reflexivity. }
  repeat split; vm_compute; reflexivity.
Qed.

(** C19, Gauss-Seidel on CSR matrices: any number of sweeps of any order, each
    satisfying the equation of a row when that row is updated; a solution of the
    system is not changed. D is the diagonal of A. *)
Theorem C19_gauss_seidel : forall n A b y preS postS pre post p, wf_csr n n A ->
  (forall i, i < n -> matrix A i i <> 0%Qc) -> length b = n -> length y = n ->
  exists G z, gs_init (OpCSR A) (tab n (fun i => matrix A i i)) preS postS pre post = Ok G /\ gs_eval G b y p = Ok z /\
    steps (gs_sweep (if p then post else pre) n (matrix A) b) (if p then postS else preS) y z /\
    ((forall i, i < n -> mv n (matrix A) (vat y) i = vat b i) -> z = y).
Proof. exact gs_thm. Qed.
Print Assumptions C19_gauss_seidel.

(** C19, Gauss-Seidel on TimeStepper operators. Full claim: as for CSR matrices.
    Missing: with forward presmoothing and backward postsmoothing, which is the
    default, the two directions are exchanged (stated as the second implication),
    see [C19_default_sweeps_refuted]; different patterns of S and M. *)
Theorem C19_gauss_seidel_timestepper_partial : forall n T b y preS postS pre post p,
  let TM := mlin (ts_facS T) (matrix (ts_S T)) (ts_facM T) (matrix (ts_M T)) in
  wf_csr n n (ts_S T) -> wf_csr n n (ts_M T) ->
  c_indptr (ts_M T) = c_indptr (ts_S T) -> c_indices (ts_M T) = c_indices (ts_S T) -> sorted_csr n (ts_S T) ->
  (forall i, i < n -> TM i i <> 0%Qc) -> length b = n -> length y = n ->
  exists G z, gs_init (OpTS T) (tab n (fun i => TM i i)) preS postS pre post = Ok G /\ gs_eval G b y p = Ok z /\
    ((pre = true -> post = true) -> steps (gs_sweep (if p then post else pre) n TM b) (if p then postS else preS) y z) /\
    ((pre = true /\ post = false) -> steps (gs_sweep (if p then pre else post) n TM b) (if p then postS else preS) y z) /\
    ((forall i, i < n -> mv n TM (vat y) i = vat b i) -> z = y).
Proof. exact gs_ts_thm. Qed.
Print Assumptions C19_gauss_seidel_timestepper_partial.

(** With the default sweep options the presmoother of a TimeStepper operator does
    a backward sweep although a forward sweep was asked for. *)
Theorem C19_default_sweeps_refuted : exists T b y G z,
  let TM := mlin (ts_facS T) (matrix (ts_S T)) (ts_facM T) (matrix (ts_M T)) in
  wf_csr 2 2 (ts_S T) /\ wf_csr 2 2 (ts_M T) /\ sorted_csr 2 (ts_S T) /\
  gs_init (OpTS T) (tab 2 (fun i => TM i i)) 1 1 true false = Ok G /\
  gs_eval G b y false = Ok z /\ ~ steps (gs_sweep true 2 TM b) 1 y z /\ steps (gs_sweep false 2 TM b) 1 y z.
Proof. exact ts_sweep_wrong. Qed.
Print Assumptions C19_default_sweeps_refuted.

(** C19, smoothers built from a preconditioner B: each step adds B (b - A x); the
    simplified residual may be asked for when the start vector is zero; a solution
    of the system is not changed if B 0 = 0. *)
Theorem C19_separable : forall n A b prec B k y simple, wf_csr n n A -> computes n prec B -> length b = n -> length y = n ->
  (simple = true -> forall i, i < n -> vat y i = 0%Qc) ->
  exists z, sep_eval n (csr_residual A) prec k b y simple = Ok z /\
    steps (correct_by n (matrix A) b B) k y z /\
    ((forall i, i < n -> vat (B (tab n (fun _ => 0%Qc))) i = 0%Qc) ->
     (forall i, i < n -> mv n (matrix A) (vat y) i = vat b i) -> z = y).
Proof. exact sep_thm. Qed.
Print Assumptions C19_separable.

(** Jacobi smoothing: x + omega D^-1 (b - A x). *)
Theorem C19_jacobi : forall n A b D omega k y simple, wf_csr n n A -> length D = n -> (forall i, i < n -> vat D i <> 0%Qc) ->
  length b = n -> length y = n -> (simple = true -> forall i, i < n -> vat y i = 0%Qc) ->
  exists z, sep_eval n (csr_residual A) (jacobi_prec D omega) k b y simple = Ok z /\
    steps (fun x x' => x' = tab n (fun i => vat x i + omega / vat D i * (vat b i - mv n (matrix A) (vat x) i))%Qc) k y z /\
    ((forall i, i < n -> mv n (matrix A) (vat y) i = vat b i) -> z = y).
Proof. exact jacobi_thm. Qed.
Print Assumptions C19_jacobi.

(** Chebyshev smoothing: each step multiplies the error by the product of the
    factors I - A/r over the roots r. *)
Theorem C19_chebyshev : forall n A b roots k y simple, wf_csr n n A -> roots <> [] -> (forall r, In r roots -> r <> 0%Qc) ->
  length b = n -> length y = n -> (simple = true -> forall i, i < n -> vat y i = 0%Qc) ->
  exists cs z, cheb_coeffs roots = Ok cs /\ sep_eval n (csr_residual A) (cheb_matvec A cs) k b y simple = Ok z /\
    (forall xs, length xs = n -> (forall i, i < n -> mv n (matrix A) (vat xs) i = vat b i) ->
       steps (fun x x' => vsub n x' xs = damp n (matrix A) roots (vsub n x xs)) k y z) /\
    ((forall i, i < n -> mv n (matrix A) (vat y) i = vat b i) -> z = y).
Proof. exact cheb_thm. Qed.
Print Assumptions C19_chebyshev.

(** SSOR smoothing. *)
Theorem C19_ssor : forall n A b D omega k y simple, wf_csr n n A -> sorted_csr n A ->
  length D = n -> (forall i, i < n -> vat D i <> 0%Qc) -> omega <> 0%Qc ->
  length b = n -> length y = n -> (simple = true -> forall i, i < n -> vat y i = 0%Qc) ->
  exists z, sep_eval n (csr_residual A) (ssor_matvec A D omega) k b y simple = Ok z /\
    steps (fun x x' => exists u v,
      the_solution n (lower_split (matrix A) D omega) (resid n (matrix A) b x) u /\
      the_solution n (upper_split (matrix A) D omega) (tab n (fun i => vat D i / omega * vat u i)%Qc) v /\
      x' = tab n (fun i => vat x i + ((1 + 1) - omega) * vat v i)%Qc) k y z /\
    ((forall i, i < n -> mv n (matrix A) (vat y) i = vat b i) -> z = y).
Proof. exact ssor_smoother_thm. Qed.
Print Assumptions C19_ssor.

(** The same Laplacian: two forward Gauss-Seidel sweeps, one Jacobi step, a
    Chebyshev step with the roots 2 and 4 (A maps (1,-1,0) to (3,-3,1)), a fixed
    point. *)
Example C19_example :
  wf_csr 3 3 ex_lap /\ (forall i, i < 3 -> matrix ex_lap i i <> 0%Qc) /\
  show_list (G <- gs_init (OpCSR ex_lap) (map qz [2; 2; 2]%Z) 2 1 true false ;;
             gs_eval G (map qz [4; 2; 5]%Z) (map qz [0; 0; 0]%Z) false) = Ok [3%Q; (17 # 4)%Q; (37 # 8)%Q] /\
  show_list (G <- gs_init (OpCSR ex_lap) (map qz [2; 2; 2]%Z) 2 1 true false ;;
             gs_eval G (map qz [3; -3; 1]%Z) (map qz [1; -1; 0]%Z) false) = Ok [1%Q; (-1)%Q; 0%Q] /\
  show_list (sep_eval 3 (csr_residual ex_lap) (jacobi_prec (map qz [2; 2; 2]%Z) 1) 1 (map qz [4; 2; 6]%Z) (map qz [1; 1; 1]%Z) false)
    = Ok [(5 # 2)%Q; 2%Q; (7 # 2)%Q] /\
  show_list (cs <- cheb_coeffs (map qz [2; 4]%Z) ;;
             sep_eval 3 (csr_residual ex_lap) (cheb_matvec ex_lap cs) 1 (map qz [3; -3; 1]%Z) (map qz [0; 0; 0]%Z) true)
    = Ok [(9 # 8)%Q; (-1)%Q; (1 # 8)%Q] /\
  map this (damp 3 (matrix ex_lap) (map qz [2; 4]%Z) (map qz [-1; 1; 0]%Z)) = [(1 # 8)%Q; 0%Q; (1 # 8)%Q].
Proof.
  split. { repeat split; cbn; try lia. intros i Hi. destruct i as [|[|[|i]]]; cbn; lia. }
  split. { intros i Hi E. apply (f_equal this) in E. destruct i as [|[|[|i]]]; [| | |lia]; vm_compute in E; discriminate. }
  split; [vm_compute; reflexivity|]. split; [vm_compute; reflexivity|]. split; [vm_compute; reflexivity|].
  split; [vm_compute; reflexivity|]. vm_compute. reflexivity.
Qed.
