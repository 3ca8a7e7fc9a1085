(** Multigrid: C20 and C21. *)
From Verif Require Import Util Lin CSRModel CSRSpec TriModel TriSpec SmootherModel SmootherSpec MGModel MGSpec MGProofs4.

(** C20. A call of solveOnLevel computes the mathematical multigrid cycle,
    whatever the scratch vectors of the levels contain, and changes neither the
    right-hand side nor the vectors of finer levels. *)
Theorem C20_cycle : forall H top levels coarse cyc l mem simple b x,
  realises H top levels coarse -> mem_ok (dim H) top mem -> 0 < l <= top ->
  nth_error mem l = Some (map Some b, map Some x) -> (simple = true -> forall i, i < dim H l -> vat x i = 0%Qc) ->
  exists mem', solveOnLevel levels coarse cyc l mem simple = Ok mem' /\
    nth_error mem' l = Some (map Some b, map Some (mg H cyc l b x)) /\
    forall k, l < k -> nth_error mem' k = nth_error mem k.
Proof. exact cycle_thm. Qed.
Print Assumptions C20_cycle.

(** A solution is left unchanged by a cycle with any number of recursive calls. *)
Theorem C20_fixed_point : forall H top levels coarse cyc l mem simple b x,
  realises H top levels coarse -> consistent H top -> mem_ok (dim H) top mem -> 0 < l <= top ->
  nth_error mem l = Some (map Some b, map Some x) -> (simple = true -> forall i, i < dim H l -> vat x i = 0%Qc) ->
  solves (dim H l) (hA H l) b x ->
  exists mem', solveOnLevel levels coarse cyc l mem simple = Ok mem' /\ nth_error mem' l = nth_error mem l.
Proof. exact fixed_thm. Qed.
Print Assumptions C20_fixed_point.

(** With an exact coarse solver and the Galerkin matrix on level 0, the vector z
    to which the postsmoother is applied on level 1 has a residual that restricts
    to zero. *)
Theorem C20_coarse_correction : forall H top levels coarse cyc mem simple b x,
  realises H top levels coarse -> mem_ok (dim H) top mem -> 0 < top -> 0 < cyc ->
  nth_error mem 1 = Some (map Some b, map Some x) -> (simple = true -> forall i, i < dim H 1 -> vat x i = 0%Qc) ->
  (forall i j, i < dim H 0 -> j < dim H 0 -> mm (dim H 1) (mm (dim H 1) (hR H 1) (hA H 1)) (hP H 1) i j = hA H 0 i j) ->
  (forall d, length d = dim H 0 -> solves (dim H 0) (hA H 0) d (hC H d)) ->
  exists mem' z, solveOnLevel levels coarse cyc 1 mem simple = Ok mem' /\
    nth_error mem' 1 = Some (map Some b, map Some (hS H 1 true b z)) /\
    forall i, i < dim H 0 -> mv (dim H 1) (hR H 1) (vat (resid (dim H 1) (hA H 1) b z)) i = 0%Qc.
Proof. exact correction_thm. Qed.
Print Assumptions C20_coarse_correction.

(** The solver performs k cycles after its start vector (zero, the initial guess,
    or the nested iteration of full multigrid, which counts as the first
    iteration), reports the norms of all residuals, goes on only while the norm is
    above the tolerance, and stops early only when it is not. *)
Theorem C20_solve : forall H top levels coarse (N : Type) (norm : list Qc -> N) gt cycle maxIter tol x0 mem b x,
  realises H top levels coarse -> 0 < top -> mem_ok (dim H) top mem -> length b = dim H top -> length x = dim H top ->
  (forall v, x0 = Some v -> length v = dim H top) ->
  let cyc := match cycle with V | FMG_V => 1 | W | FMG_W => 2 end in
  let first := match cycle with V | W => 0 | FMG_V | FMG_W => 1 end in
  let x_start := match cycle with
                 | V | W => match x0 with None => tab (dim H top) (fun _ => 0%Qc) | Some v => v end
                 | FMG_V | FMG_W => hS H top true b (nested H cyc top top b [])
                 end in
  let it := fun k => Nat.iter k (mg H cyc top b) x_start in
  let r := fun k => norm (resid (dim H top) (hA H top) b (it k)) in
  exists k, mg_solve levels coarse norm gt cycle top maxIter tol x0 mem b x = Ok (first + k, it k, tab (S k) r) /\
    (forall j, j < k -> gt (r j) tol = true) /\ (k = 0 \/ first + k <= maxIter) /\
    (first + k < maxIter -> gt (r k) tol = false).
Proof. exact @solve_thm. Qed.
Print Assumptions C20_solve.

(** Full multigrid does not use the initial guess: with an exact solution as
    initial guess, Galerkin matrices and an exact coarse solver, the returned
    vector is not a solution. *)
Theorem C20_full_multigrid_refuted : exists H levels coarse mem b x0 out rs,
  realises H 1 levels coarse /\ consistent H 1 /\ mem_ok (dim H) 1 mem /\
  (forall i j, i < dim H 0 -> j < dim H 0 -> mm (dim H 1) (mm (dim H 1) (hR H 1) (hA H 1)) (hP H 1) i j = hA H 0 i j) /\
  (forall d, length d = dim H 0 -> solves (dim H 0) (hA H 0) d (hC H d)) /\
  solves (dim H 1) (hA H 1) b x0 /\
  mg_solve levels coarse (fun r : list Qc => r) (fun _ _ => true) FMG_V 1 1 [] (Some x0) mem b (alloc (dim H 1)) = Ok (1, out, rs) /\
  ~ solves (dim H 1) (hA H 1) b out.
Proof. exact fmg_wrong. Qed.
Print Assumptions C20_full_multigrid_refuted.

(** C21. If the smoothers are of the form x + N (b - A x) and the coarse solver
    applies a matrix, the multigrid preconditioner applies a matrix, for every
    number of levels, recursive calls and iterations; the matrix is symmetric if
    the level matrices and the coarse solver are symmetric, R is the transpose of
    P and the postsmoother is the adjoint of the presmoother. *)
Theorem C21_linear_symmetric : forall H top levels coarse cyc C N,
  realises H top levels coarse -> 0 < top -> 0 < cyc ->
  (forall b, length b = dim H 0 -> hC H b = tab (dim H 0) (mv (dim H 0) C (vat b))) ->
  (forall l post, 0 < l <= top -> smooths_by (dim H l) (hA H l) (N l post) (hS H l post)) ->
  forall maxIter, exists B,
    (forall mem b y, mem_ok (dim H) top mem -> length b = dim H top -> length y = dim H top ->
       mg_prec levels coarse cyc top maxIter mem b y = Ok (tab (dim H top) (mv (dim H top) B (vat b)))) /\
    (symmetric (dim H 0) C ->
     (forall l, 0 < l <= top -> symmetric (dim H l) (hA H l) /\
        adjoint (dim H (l - 1)) (dim H l) (hR H l) (hP H l) /\ adjoint (dim H l) (dim H l) (N l false) (N l true)) ->
     symmetric (dim H top) B).
Proof. exact linear_thm. Qed.
Print Assumptions C21_linear_symmetric.

(** In particular with k forward Gauss-Seidel sweeps before and k backward sweeps
    after the coarse grid correction. *)
Theorem C21_gauss_seidel : forall dims A R P top coarse C k cyc maxIter,
  (forall l, 0 < l <= top -> wf_csr (dims l) (dims l) (A l) /\ wf_csr (dims (l - 1)) (dims l) (R l) /\ wf_csr (dims l) (dims (l - 1)) (P l) /\
     (forall i, i < dims l -> matrix (A l) i i <> 0%Qc) /\ symmetric (dims l) (matrix (A l)) /\
     adjoint (dims (l - 1)) (dims l) (matrix (R l)) (matrix (P l))) ->
  acts_as (dims 0) (dims 0) coarse C -> symmetric (dims 0) C -> 0 < top -> 0 < cyc ->
  exists B, symmetric (dims top) B /\
    forall mem b y, mem_ok dims top mem -> length b = dims top -> length y = dims top ->
      mg_prec (csr_levels dims A R P (fun l => gs_smoother (dims l) (A l) k) top) coarse cyc top maxIter mem b y
      = Ok (tab (dims top) (mv (dims top) B (vat b))).
Proof. exact gs_mg_thm. Qed.
Print Assumptions C21_gauss_seidel.

(** And with k steps of a smoother with a symmetric preconditioner before and
    after, for example damped Jacobi. *)
Theorem C21_separable : forall dims A R P prec M top coarse C k cyc maxIter,
  (forall l, 0 < l <= top -> wf_csr (dims l) (dims l) (A l) /\ wf_csr (dims (l - 1)) (dims l) (R l) /\ wf_csr (dims l) (dims (l - 1)) (P l) /\
     acts_as (dims l) (dims l) (prec l) (M l) /\ symmetric (dims l) (M l) /\ symmetric (dims l) (matrix (A l)) /\
     adjoint (dims (l - 1)) (dims l) (matrix (R l)) (matrix (P l))) ->
  acts_as (dims 0) (dims 0) coarse C -> symmetric (dims 0) C -> 0 < top -> 0 < cyc ->
  exists B, symmetric (dims top) B /\
    forall mem b y, mem_ok dims top mem -> length b = dims top -> length y = dims top ->
      mg_prec (csr_levels dims A R P (fun l => sep_smoother (dims l) (A l) (prec l) k) top) coarse cyc top maxIter mem b y
      = Ok (tab (dims top) (mv (dims top) B (vat b))).
Proof. exact sep_mg_thm. Qed.
Print Assumptions C21_separable.

Theorem C21_jacobi_is_symmetric : forall n D omega, length D = n -> (forall i, i < n -> vat D i <> 0%Qc) ->
  acts_as n n (jacobi_prec D omega) (fun i j => if i =? j then (omega / vat D i)%Qc else 0%Qc) /\
  symmetric n (fun i j => if i =? j then (omega / vat D i)%Qc else 0%Qc).
Proof. exact jacobi_acts. Qed.
Print Assumptions C21_jacobi_is_symmetric.

(** Three levels of the 1D Laplacian with 1, 3 and 7 unknowns, linear
    interpolation and its transpose, one Gauss-Seidel sweep. *)
Definition ex_dims (l : nat) : nat := match l with 0 => 1 | 1 => 3 | _ => 7 end.
Definition ex_A (l : nat) : csr :=
  match l with
  | 1 => CSR 3 [0; 2; 5; 7] [0; 1; 0; 1; 2; 1; 2] (map qz [4; -2; -2; 4; -2; -2; 4]%Z)
  | _ => CSR 7 [0; 2; 5; 8; 11; 14; 17; 19] [0; 1; 0; 1; 2; 1; 2; 3; 2; 3; 4; 3; 4; 5; 4; 5; 6; 5; 6]
             (map qz [8; -4; -4; 8; -4; -4; 8; -4; -4; 8; -4; -4; 8; -4; -4; 8; -4; -4; 8]%Z)
  end.
Definition half : Qc := Q2Qc (1 # 2).
Definition ex_R (l : nat) : csr :=
  match l with
  | 1 => CSR 3 [0; 3] [0; 1; 2] [half; 1%Qc; half]
  | _ => CSR 7 [0; 3; 6; 9] [0; 1; 2; 2; 3; 4; 4; 5; 6] [half; 1%Qc; half; half; 1%Qc; half; half; 1%Qc; half]
  end.
Definition ex_P (l : nat) : csr :=
  match l with
  | 1 => CSR 1 [0; 1; 2; 3] [0; 0; 0] [half; 1%Qc; half]
  | _ => CSR 3 [0; 1; 2; 4; 5; 7; 8; 9] [0; 0; 0; 1; 1; 1; 2; 2; 2] [half; 1%Qc; half; half; 1%Qc; half; half; 1%Qc; half]
  end.
Definition ex_coarse (b : list Qc) (x : buf Qc) : res (buf Qc) := v <- aget b 0 ;; wr x 0 (v * half)%Qc.
Definition ex_levels := csr_levels ex_dims ex_A ex_R ex_P (fun l => gs_smoother (ex_dims l) (ex_A l) 1) 2.
Definition ex_mem : memory := map (fun n => (alloc n, alloc n)) [1; 3; 7].

Lemma small (P : nat -> Prop) k : (forall i, i < k -> P i) <-> Forall P (seq 0 k).
Proof.
  rewrite Forall_forall. split; intros H i Hi; apply H; [apply in_seq in Hi|apply in_seq]; lia.
Qed.
Ltac all_small := apply small; cbn [seq]; repeat constructor.

Example C21_example_hypotheses :
  (forall l, 0 < l <= 2 -> wf_csr (ex_dims l) (ex_dims l) (ex_A l) /\ wf_csr (ex_dims (l - 1)) (ex_dims l) (ex_R l) /\
     wf_csr (ex_dims l) (ex_dims (l - 1)) (ex_P l) /\
     (forall i, i < ex_dims l -> matrix (ex_A l) i i <> 0%Qc) /\ symmetric (ex_dims l) (matrix (ex_A l)) /\
     adjoint (ex_dims (l - 1)) (ex_dims l) (matrix (ex_R l)) (matrix (ex_P l))) /\
  acts_as 1 1 ex_coarse (fun _ _ => half).
Proof.
  assert (Hall : forall n m (Q : nat -> nat -> bool), forallb (fun i => forallb (Q i) (seq 0 m)) (seq 0 n) = true ->
            forall i j, i < n -> j < m -> Q i j = true).
  { intros n m Q HQ i j Hi Hj. rewrite forallb_forall in HQ. specialize (HQ i). rewrite forallb_forall in HQ.
    apply HQ; apply in_seq; lia. }
  assert (Hq : forall n m (f g : nat -> nat -> Qc), forallb (fun i => forallb (fun j => Qc_eq_bool (f i j) (g i j)) (seq 0 m)) (seq 0 n) = true ->
            forall i j, i < n -> j < m -> f i j = g i j).
  { intros n m f g HQ i j Hi Hj. apply Qc_eq_bool_correct. apply (Hall n m (fun i j => Qc_eq_bool (f i j) (g i j)) HQ); auto. }
  split.
  - intros l Hl. assert (l = 1 \/ l = 2) as [-> | ->] by lia; cbn [ex_dims Nat.sub].
    all: split; [repeat split; cbn; try lia; all_small; lia|].
    all: split; [repeat split; cbn; try lia; all_small; lia|].
    all: split; [repeat split; cbn; try lia; all_small; lia|].
    all: split; [intros i Hi E; apply (f_equal this) in E; do 7 (destruct i as [|i]; [vm_compute in E; first [discriminate E | lia]|]); lia|].
    all: split.
    + refine (Hq 3 3 (matrix (ex_A 1)) (fun i j => matrix (ex_A 1) j i) _). vm_compute. reflexivity.
    + refine (Hq 1 3 (matrix (ex_R 1)) (fun i j => matrix (ex_P 1) j i) _). vm_compute. reflexivity.
    + refine (Hq 7 7 (matrix (ex_A 2)) (fun i j => matrix (ex_A 2) j i) _). vm_compute. reflexivity.
    + refine (Hq 3 7 (matrix (ex_R 2)) (fun i j => matrix (ex_P 2) j i) _). vm_compute. reflexivity.
  - intros x y Hx Hy. destruct x as [|v [|? ?]]; try discriminate. destruct y as [|w [|? ?]]; try discriminate. cbn.
    do 3 f_equal. unfold mv. cbn [sumf vat nth]. ring.
Qed.

(** The entries (0, 6) and (6, 0), and (2, 3) and (3, 2), of the preconditioner
    agree, and a V-cycle does not change a solution. *)
Definition column (j : nat) : res (list Q) :=
  show_list (mg_prec ex_levels ex_coarse 1 2 1 ex_mem (tab 7 (fun i => if i =? j then 1%Qc else 0%Qc)) (alloc 7)).
Definition entry (i j : nat) : res Q := c <- column j ;; aget c i.
Example C21_example : exists q r, entry 0 6 = Ok q /\ entry 6 0 = Ok q /\ entry 2 3 = Ok r /\ entry 3 2 = Ok r /\ ~ (r == 0)%Q.
Proof.
  eexists. eexists. split; [vm_compute; reflexivity|]. split; [vm_compute; reflexivity|]. split; [vm_compute; reflexivity|].
  split; [vm_compute; reflexivity|]. vm_compute. discriminate.
Qed.

(** (1, 2, 3, 4, 3, 2, 1) solves the system with right-hand side 8 e_3. *)
Example C20_example :
  show_list (o <- mg_solve ex_levels ex_coarse (fun r => r) (fun _ _ => true) V 2 3 [] (Some (map qz [1; 2; 3; 4; 3; 2; 1]%Z)) ex_mem
               (map qz [0; 0; 0; 8; 0; 0; 0]%Z) (alloc 7) ;; Ok (snd (fst o))) = Ok [1; 2; 3; 4; 3; 2; 1]%Q /\
  show_list (o <- mg_solve ex_levels ex_coarse (fun r => r) (fun _ _ => true) W 2 3 [] (Some (map qz [1; 2; 3; 4; 3; 2; 1]%Z)) ex_mem
               (map qz [0; 0; 0; 8; 0; 0; 0]%Z) (alloc 7) ;; Ok (snd (fst o))) = Ok [1; 2; 3; 4; 3; 2; 1]%Q.
Proof. split; vm_compute; reflexivity. Qed.
