(** Model of the multigrid solver
    (multilevelSolver/PyNucleus_multilevelSolver/multigrid_{SCALAR}.pxi).

    Operators, smoothers and the coarse solver are called through virtual methods
    in the code; here they are functions, to be instantiated with the models of
    CSRModel and SmootherModel. Vectors passed by reference live in a memory with
    one slot per level: slot l holds the right-hand side and the iterate of the
    calls of solveOnLevel on level l, i.e. levels[l].rhs and levels[l].sol, and
    for the finest level the vectors b and x of the caller (the finest level has
    no rhs and sol, lines 62-63). The scratch vector temp is written before it is
    read in every use and is a fresh buffer each time.
    Simplifications: exact rationals; sequential code (no overlaps, one
    hierarchy); the values of the norm are of any type with a comparison; the
    tolerance is absolute (solvers.pyx:299-302 computes it from the first
    residual if it is relative); logging is left out. *)
From Verif Require Import Util Lin CSRModel TriModel SmootherModel.

(** multigrid_{SCALAR}.pxi:29-54: one level above the coarsest *)
Record level := Level {
  l_n : nat;                                                    (* size *)
  l_residual : list Qc -> list Qc -> buf Qc -> bool -> res (buf Qc);  (* A.residual(x, b, res, simpleResidual) *)
  l_R : list Qc -> buf Qc -> res (buf Qc);                      (* R.matvec *)
  l_P : list Qc -> buf Qc -> res (buf Qc);                      (* P.matvec *)
  l_smooth : bool -> bool -> list Qc -> list Qc -> res (list Qc) (* smoother.eval(b, x, postsmoother, simpleResidual) *)
}.

(** rhs and sol of each level *)
Definition memory := list (buf Qc * buf Qc).

Section Multigrid.
  (** the levels above the coarsest, level l being [nth (l-1)], and
      coarse_solver.solve *)
  Variable levels : list level.
  Variable coarse : list Qc -> buf Qc -> res (buf Qc).

  Definition get_rhs (mem : memory) (l : nat) : res (list Qc) := s <- aget mem l ;; all_init (fst s).
  Definition get_sol (mem : memory) (l : nat) : res (list Qc) := s <- aget mem l ;; all_init (snd s).
  Definition set_rhs (mem : memory) (l : nat) (v : buf Qc) : res memory := s <- aget mem l ;; aset mem l (v, snd s).
  Definition set_sol (mem : memory) (l : nat) (v : buf Qc) : res memory := s <- aget mem l ;; aset mem l (fst s, v).
  (** [f] writes into rhs resp. sol of level l *)
  Definition into_rhs (mem : memory) (l : nat) (f : buf Qc -> res (buf Qc)) : res memory :=
    s <- aget mem l ;; v <- f (fst s) ;; set_rhs mem l v.
  Definition into_sol (mem : memory) (l : nat) (f : buf Qc -> res (buf Qc)) : res memory :=
    s <- aget mem l ;; v <- f (snd s) ;; set_sol mem l v.
  (** levels[lvlNo].smoother.eval(b, x, ...) *)
  Definition smooth (mem : memory) (l : nat) (post simple : bool) : res memory :=
    lvl <- aget levels (l - 1) ;;
    b <- get_rhs mem l ;; x <- get_sol mem l ;;
    x <- l_smooth lvl post simple b x ;;
    set_sol mem l (map Some x).

  (** multigrid_{SCALAR}.pxi:237-291; [cycle] is the number of recursive calls
      (multigrid.pxd:8-12: V = 1, W = 2) *)
  Fixpoint solveOnLevel (cycle lvlNo : nat) (mem : memory) (simpleResidual : bool) {struct lvlNo} : res memory :=
    match lvlNo with
    | O => b <- get_rhs mem 0 ;; into_sol mem 0 (coarse b)
    | S l =>
        lvl <- aget levels l ;;
        mem <- smooth mem lvlNo false simpleResidual ;;
        x <- get_sol mem lvlNo ;; b <- get_rhs mem lvlNo ;;
        r <- l_residual lvl x b (alloc (l_n lvl)) false ;;
        r <- all_init r ;;
        mem <- into_rhs mem l (l_R lvl r) ;;
        mem <- into_sol mem l set0 ;;
        mem <- for_range 0 cycle (fun i mem => solveOnLevel cycle l mem (i =? 0)) mem ;;
        solcg <- get_sol mem l ;;
        correction <- l_P lvl solcg (alloc (l_n lvl)) ;;
        mem <- into_sol mem lvlNo (fun x => update x correction) ;;
        smooth mem lvlNo true false
    end.

  (** multigrid.pxd:8-12 *)
  Inductive cycleType := V | W | FMG_V | FMG_W.

  (** multigrid_{SCALAR}.pxi:337-365: full multigrid, [top] = numLevels-1 *)
  Definition fmg (cycle top : nat) (mem : memory) : res memory :=
    mem <- for_back top (fun lvlNo mem =>
             lvl <- aget levels lvlNo ;;
             b <- get_rhs mem (lvlNo + 1) ;;
             into_rhs mem lvlNo (l_R lvl b)) mem ;;
    mem <- for_range 0 top (fun lvlNo mem =>
             mem <- solveOnLevel cycle lvlNo mem false ;;
             lvl <- aget levels lvlNo ;;
             x <- get_sol mem lvlNo ;;
             into_sol mem (lvlNo + 1) (l_P lvl x)) mem ;;
    smooth mem top true false.

  (** multigrid_{SCALAR}.pxi:378-385: the loop; the residual norms are returned
      newest first *)
  Context {N : Type}.
  Variable norm : list Qc -> N.
  Variable gt : N -> N -> bool.
  Fixpoint mg_loop (fuel cycle top maxIter : nat) (tol : N) (iterNo : nat) (mem : memory) (simple : bool)
      (n : N) (residuals : list N) : res (nat * memory * list N) :=
    if gt n tol && (iterNo <? maxIter) then
      match fuel with
      | O => Err EFuel
      | S fuel =>
          mem <- solveOnLevel cycle top mem simple ;;
          lvl <- aget levels (top - 1) ;;
          x <- get_sol mem top ;; b <- get_rhs mem top ;;
          r <- l_residual lvl x b (alloc (l_n lvl)) false ;;
          r <- all_init r ;;
          mg_loop fuel cycle top maxIter tol (iterNo + 1) mem false (norm r) (norm r :: residuals)
      end
    else Ok (iterNo, mem, residuals).

  (** multigrid_{SCALAR}.pxi:296-389 with solvers.pyx:284-304: returns the number
      of iterations, x and the list residuals; [mem] is the level memory before
      the call, whose last slot is overwritten by the arguments *)
  Definition mg_solve (cycle : cycleType) (top maxIter : nat) (tol : N) (x0 : option (list Qc)) (mem : memory)
      (b : list Qc) (x : buf Qc) : res (nat * list Qc * list N) :=
    x <- match x0 with
         | None => set0 x
         | Some x0 => assign x x0
         end ;;
    mem <- aset mem top (map Some b, x) ;;
    let k := match cycle with V | FMG_V => 1 | W | FMG_W => 2 end in
    let doFMG := match cycle with V | W => false | FMG_V | FMG_W => true end in
    mem <- (if doFMG then fmg k top mem else Ok mem) ;;
    let iterNo := if doFMG then 1 else 0 in
    let simple := if doFMG then false else match x0 with None => true | Some _ => false end in
    lvl <- aget levels (top - 1) ;;
    x <- get_sol mem top ;;
    r <- l_residual lvl x b (alloc (l_n lvl)) simple ;;
    r <- all_init r ;;
    o <- mg_loop maxIter k top maxIter tol iterNo mem simple (norm r) [norm r] ;;
    x <- get_sol (snd (fst o)) top ;;
    Ok (fst (fst o), x, rev (snd o)).

  (** multigrid_{SCALAR}.pxi:483-496: applying the multigrid preconditioner *)
  Definition mg_prec (cycle top maxIter : nat) (mem : memory) (x : list Qc) (y : buf Qc) : res (list Qc) :=
    y <- set0 y ;;
    mem <- aset mem top (map Some x, y) ;;
    mem <- for_range 0 maxIter (fun i mem => solveOnLevel cycle top mem (i =? 0)) mem ;;
    get_sol mem top.
End Multigrid.
