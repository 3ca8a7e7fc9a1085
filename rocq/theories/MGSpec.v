(** Vocabulary for multigrid: C20, C21. *)
From Verif Require Import Util Lin TriSpec SmootherModel SmootherSpec MGModel.

(** The mathematical data of a hierarchy; level 0 is the coarsest one. The
    operators R and P of level l connect it with level l-1. *)
Record hierarchy := Hier {
  dim : nat -> nat;
  hA : nat -> mat;
  hR : nat -> mat;
  hP : nat -> mat;
  hS : nat -> bool -> list Qc -> list Qc -> list Qc;   (* level, post?, b, x: the smoothed x *)
  hC : list Qc -> list Qc                              (* coarse solve *)
}.

(** The multigrid cycle: smooth, restrict the residual, [cyc] times the cycle of
    the next coarser level starting from zero, prolong, add, smooth. *)
Fixpoint mg (H : hierarchy) (cyc l : nat) (b x : list Qc) : list Qc :=
  match l with
  | O => hC H b
  | S k =>
      let n := dim H l in
      let m := dim H k in
      let y := hS H l false b x in
      let d := tab m (mv n (hR H l) (vat (resid n (hA H l) b y))) in
      let c := Nat.iter cyc (mg H cyc k d) (tab m (fun _ => 0%Qc)) in
      hS H l true b (tab n (fun i => vat y i + mv m (hP H l) (vat c) i)%Qc)
  end.

(** The right-hand side restricted from level [top] to level [top]-k. *)
Fixpoint restricted (H : hierarchy) (top k : nat) (b : list Qc) : list Qc :=
  match k with
  | O => b
  | S k' => tab (dim H (top - k)) (mv (dim H (top - k')) (hR H (top - k')) (vat (restricted H top k' b)))
  end.
(** Full multigrid: the start vector for level l+1 is the prolongation of a cycle
    on level l; on the coarsest level the coarse solve. *)
Fixpoint nested (H : hierarchy) (cyc top l : nat) (b : list Qc) (x0 : list Qc) : list Qc :=
  match l with
  | O => x0
  | S k => tab (dim H l) (mv (dim H k) (hP H l)
             (vat (mg H cyc k (restricted H top (top - k) b) (nested H cyc top k b x0))))
  end.

(** A function that applies a matrix with n rows and m columns. *)
Definition acts_as (n m : nat) (op : list Qc -> buf Qc -> res (buf Qc)) (A : mat) : Prop :=
  forall x y, length x = m -> length y = n -> op x y = Ok (map Some (tab n (mv m A (vat x)))).

(** The code objects of the levels 1..top and the coarse solver realise the
    hierarchy: residual, restriction and prolongation are those of the matrices,
    the smoother computes [hS], where the simplified residual may only be asked
    for when the iterate is zero. *)
Definition realises (H : hierarchy) (top : nat) (levels : list level) (coarse : list Qc -> buf Qc -> res (buf Qc)) : Prop :=
  length levels = top /\ computes (dim H 0) coarse (hC H) /\
  forall l lvl, nth_error levels l = Some lvl ->
    let n := dim H (S l) in
    l_n lvl = n /\
    (forall x b y, length x = n -> length b = n -> length y = n ->
       l_residual lvl x b y false = Ok (map Some (resid n (hA H (S l)) b x)) /\
       l_residual lvl x b y true = Ok (map Some b)) /\
    acts_as (dim H l) n (l_R lvl) (hR H (S l)) /\
    acts_as n (dim H l) (l_P lvl) (hP H (S l)) /\
    (forall post simple b x, length x = n -> length b = n ->
       (simple = true -> forall i, i < n -> vat x i = 0%Qc) ->
       l_smooth lvl post simple b x = Ok (hS H (S l) post b x) /\ length (hS H (S l) post b x) = n).

(** Level memory of the right sizes, with any content. *)
Definition mem_ok (dims : nat -> nat) (top : nat) (mem : memory) : Prop :=
  length mem = S top /\ forall l s, nth_error mem l = Some s -> length (fst s) = dims l /\ length (snd s) = dims l.

(** x solves A x = b. *)
Definition solves (n : nat) (A : mat) (b x : list Qc) : Prop :=
  length x = n /\ length b = n /\ forall i, i < n -> mv n A (vat x) i = vat b i.

(** Smoothers that keep solutions, coarse solvers that map 0 to 0. *)
Definition consistent (H : hierarchy) (top : nat) : Prop :=
  hC H (tab (dim H 0) (fun _ => 0%Qc)) = tab (dim H 0) (fun _ => 0%Qc) /\
  forall l post b x, 0 < l <= top -> solves (dim H l) (hA H l) b x -> hS H l post b x = x.

(** Smoothers of the form x + N (b - A x). *)
Definition smooths_by (n : nat) (A N : mat) (S : list Qc -> list Qc -> list Qc) : Prop :=
  forall b x, length b = n -> length x = n ->
    S b x = tab n (fun i => vat x i + mv n N (vat (resid n A b x)) i)%Qc.

Definition adjoint (n m : nat) (A B : mat) : Prop := forall i j, i < n -> j < m -> A i j = B j i.

(** Levels with CSR matrices and given smoothers. *)
Definition csr_levels (dims : nat -> nat) (A R P : nat -> CSRModel.csr) (sm : nat -> bool -> bool -> list Qc -> list Qc -> res (list Qc))
    (top : nat) : list level :=
  tab top (fun l => Level (dims (S l)) (CSRModel.csr_residual (A (S l))) (CSRModel.csr_matvec false (R (S l)))
                          (CSRModel.csr_matvec false (P (S l))) (sm (S l))).
(** k forward Gauss-Seidel sweeps before and k backward sweeps after the coarse
    grid correction (the default of gaussSeidelSmoother). *)
Definition gs_smoother (n : nat) (A : CSRModel.csr) (k : nat) (post simple : bool) (b x : list Qc) : res (list Qc) :=
  G <- gs_init (OpCSR A) (tab n (fun i => CSRSpec.matrix A i i)) k k true false ;; gs_eval G b x post.
(** k steps with a preconditioner before and after. *)
Definition sep_smoother (n : nat) (A : CSRModel.csr) (prec : list Qc -> buf Qc -> res (buf Qc)) (k : nat)
    (post simple : bool) (b x : list Qc) : res (list Qc) :=
  sep_eval n (CSRModel.csr_residual A) prec k b x simple.
