(** Model of the assembly of matrices from local element matrices
    (fem/PyNucleus_fem/femCy.pyx, DoFMaps.pyx).

    Simplifications: start_idx and end_idx are [None] for the default -1 and natural numbers
    otherwise; boundary data and other optional arrays are [None] or lists; a given matrix A is
    a CSR or an SSS matrix; the work space of the local matrix objects is not kept from
    one cell to the next (the theorems on local matrices hold for any contents of it), but
    their field [cell] is. *)
From Verif Require Import Util Lin SparsityModel CSRModel MeshModel BaryModel ReorderModel.

(** The fields of DoFMap that assembly uses; dofs_per_element is the width of dofs. *)
Record dofmap := DM { dm_dofs : list (list Z); dm_num : nat; dm_dpe : nat; dm_reordered : bool }.

(** femCy.pyx:43-66; [lm_eval] is eval, given self.cell, the simplex and contrib *)
Record local_matrix := LM {
  lm_dim : nat; lm_needsCellInfo : bool; lm_additive : bool;
  lm_eval : buf nat -> list (buf Qc) -> buf Qc -> res (buf Qc) }.
(** femCy.pyx:60-65 *)
Definition setCell (lm : local_matrix) (c : list nat) (cell : buf nat) : res (buf nat) :=
  for_range 0 (lm_dim lm + 1) (fun i cell => x <- aget c i ;; wr cell i x) cell.

(** ** Sparsity patterns *)

(** DoFMaps.pyx:392-399 *)
Definition dm_reorder (perm : list nat) (dofs : list (list Z)) : res (list (list Z)) :=
  for_range 0 (length dofs) (fun i dofs =>
    row <- aget dofs i ;;
    row <- for_range 0 (length row) (fun j row =>
      dof <- aget row j ;;
      if (0 <=? dof)%Z then p <- aget perm (Z.to_nat dof) ;; aset row j (Z.of_nat p) else Ok row) row ;;
    aset dofs i row) dofs.

(** DoFMaps.pyx:439-448, 425-437, 513-523: the pairs of degrees of freedom of a cell *)
Definition for_pairs {S} (dm dm' : dofmap) (i : nat) (f : nat -> nat -> S -> res S) (s : S) : res S :=
  for_range 0 (dm_dpe dm) (fun j s =>
    I <- get2 (dm_dofs dm) i j ;;
    if (I <? 0)%Z then Ok s
    else for_range 0 (dm_dpe dm') (fun k s =>
      J <- get2 (dm_dofs dm') i k ;;
      if (J <? 0)%Z then Ok s else f (Z.to_nat I) (Z.to_nat J) s) s) s.

Definition first_cell (start_idx : option nat) : nat := match start_idx with Some i => i | None => 0 end.
Definition last_cell (end_idx : option nat) (num_cells : nat) : nat := match end_idx with Some i => i | None => num_cells end.

(** A builder with its default initial length *)
Definition new_pattern (n : nat) : spat := sp_init n 9.
Definition add_pair (I J : nat) (s : spat) : res spat := sp_add (2 ^ 16) s I (Z.of_nat J).
Definition freeze (s : spat) : res (list nat * list nat) :=
  '(indptr, indices) <- sp_freeze s ;;
  indptr <- all_init indptr ;; indices <- all_init indices ;;
  Ok (indptr, map Z.to_nat indices).

(** DoFMaps.pyx:456-461: a permutation and its inverse *)
Definition inverse_perm (perm : list nat) : res (list nat) :=
  iperm <- for_range 0 (length perm) (fun i iperm => p <- aget perm i ;; wr iperm p i) (alloc (length perm)) ;;
  all_init iperm.

(** DoFMaps.pyx:463-479: the pattern of the renumbered graph *)
Definition permuted_pattern (symmetric : bool) (perm iperm indptr indices : list nat) (s : spat) : res spat :=
  for_range 0 (length perm) (fun i s =>
    I <- aget perm i ;;
    for_row indptr I (fun jj s =>
      J <- aget indices jj ;;
      j <- aget iperm J ;;
      if symmetric then
        if j <? i then add_pair i j s else if i <? j then add_pair j i s else Ok s
      else add_pair i j s) s) s.

(** DoFMaps.pyx:401-483: the arrays of the pattern; the map of degrees of freedom may
    be renumbered *)
Definition pattern_arrays (argsort : list nat -> list nat) (dm : dofmap) (num_cells : nat) (start_idx end_idx : option nat)
    (symmetric reorder : bool) : res (list nat * list nat * dofmap) :=
  let reorder := if dm_reordered dm then false else reorder in
  sPat <- for_range (first_cell start_idx) (last_cell end_idx num_cells) (fun i s =>
    for_pairs dm dm i (fun I J s =>
      if symmetric && negb reorder && (I <=? J) then Ok s else add_pair I J s) s) (new_pattern (dm_num dm)) ;;
  '(indptr, indices) <- freeze sPat ;;
  if reorder then
    perm <- cuthill_mckee argsort indices indptr (length indptr - 1) (alloc (length indptr - 1)) false ;;
    perm <- all_init perm ;;
    iperm <- inverse_perm perm ;;
    sPat <- permuted_pattern symmetric perm iperm indptr indices (new_pattern (dm_num dm)) ;;
    '(indptr, indices) <- freeze sPat ;;
    dofs <- dm_reorder iperm (dm_dofs dm) ;;
    Ok (indptr, indices, DM dofs (dm_num dm) (dm_dpe dm) true)
  else Ok (indptr, indices, dm).

(** DoFMaps.pyx:401-491, symmetric=False *)
Definition buildSparsityPattern (argsort : list nat -> list nat) (dm : dofmap) (num_cells : nat) (start_idx end_idx : option nat)
    (reorder : bool) : res (csr * dofmap) :=
  '(indptr, indices, dm) <- pattern_arrays argsort dm num_cells start_idx end_idx false reorder ;;
  nnz <- aget indptr (dm_num dm) ;;
  A <- csr_sort_indices (CSR (length indptr - 1) indptr indices (repeat 0%Qc nnz)) ;;
  Ok (A, dm).
(** DoFMaps.pyx:401-491, symmetric=True; SSS_LinearOperator_{SCALAR}.pxi:311-313 sorts with the
    function that sorts the arrays of a CSR matrix *)
Definition buildSymmetricSparsityPattern (argsort : list nat -> list nat) (dm : dofmap) (num_cells : nat) (start_idx end_idx : option nat)
    (reorder : bool) : res (sss * dofmap) :=
  '(indptr, indices, dm) <- pattern_arrays argsort dm num_cells start_idx end_idx true reorder ;;
  nnz <- aget indptr (dm_num dm) ;;
  A <- csr_sort_indices (CSR (length indptr - 1) indptr indices (repeat 0%Qc nnz)) ;;
  Ok (SSS (c_indptr A) (c_indices A) (c_data A) (repeat 0%Qc (dm_num dm)), dm).
(** DoFMaps.pyx:493-532 *)
Definition buildNonSymmetricSparsityPattern (dm dmOther : dofmap) (num_cells : nat) (start_idx end_idx : option nat) : res csr :=
  sPat <- for_range (first_cell start_idx) (last_cell end_idx num_cells) (fun i s => for_pairs dm dmOther i add_pair s) (new_pattern (dm_num dm)) ;;
  '(indptr, indices) <- freeze sPat ;;
  nnz <- aget indptr (dm_num dm) ;;
  csr_sort_indices (CSR (dm_num dmOther) indptr indices (repeat 0%Qc nnz)).

(** ** Entering a local matrix *)
Section Scatter.
  Context {M : Type}.
  Variable addToEntry : M -> nat -> nat -> Qc -> res M.
  Definition add_at (A : M) (I J : Z) (v : Qc) : res M := addToEntry A (Z.to_nat I) (Z.to_nat J) v.

  (** femCy.pyx:2266-2283 and 2292-2309 *)
  Definition enter_csr (dm : dofmap) (i : nat) (contrib : buf Qc) (A : M) : res M :=
    '(_, A) <- for_range 0 (dm_dpe dm) (fun j '(s, A) =>
      I <- get2 (dm_dofs dm) i j ;;
      if (I <? 0)%Z then Ok (s + (dm_dpe dm - j), A)
      else for_range j (dm_dpe dm) (fun k '(s, A) =>
        J <- get2 (dm_dofs dm) i k ;;
        if (J <? 0)%Z then Ok (S s, A)
        else
          v <- rd contrib s ;;
          A <- (if (I =? J)%Z then add_at A I I v else A <- add_at A I J v ;; add_at A J I v) ;;
          Ok (S s, A)) (s, A)) (0, A) ;;
    Ok A.

  (** femCy.pyx:2331, 2335: rhs_contribution[I] -= local_contrib[s]*boundary_data[-J-1] *)
  Definition lift (rhs bd : list Qc) (I J : Z) (v : Qc) : res (list Qc) :=
    g <- aget bd (Z.to_nat (- J - 1)) ;;
    r <- aget rhs (Z.to_nat I) ;;
    aset rhs (Z.to_nat I) (r - v * g)%Qc.
  (** femCy.pyx:2318-2337 and 2405-2426; [add2] enters a value for I, J >= 0 *)
  Definition enter_bc (add2 : M -> Z -> Z -> Qc -> res M) (dm : dofmap) (bd : list Qc) (i : nat) (contrib : buf Qc) (st : M * list Qc) : res (M * list Qc) :=
    '(_, st) <- for_range 0 (dm_dpe dm) (fun j st =>
      I <- get2 (dm_dofs dm) i j ;;
      for_range j (dm_dpe dm) (fun k '(s, (A, rhs)) =>
        J <- get2 (dm_dofs dm) i k ;;
        st <- (if (0 <=? I)%Z then
                 if (0 <=? J)%Z then v <- rd contrib s ;; A <- add2 A I J v ;; Ok (A, rhs)
                 else v <- rd contrib s ;; rhs <- lift rhs bd I J v ;; Ok (A, rhs)
               else
                 if (0 <=? J)%Z then v <- rd contrib s ;; rhs <- lift rhs bd J I v ;; Ok (A, rhs)
                 else Ok (A, rhs)) ;;
        Ok (S s, st)) st) (0, st) ;;
    Ok st.
  (** femCy.pyx:2325-2329 *)
  Definition add2_csr (A : M) (I J : Z) (v : Qc) : res M :=
    if (I =? J)%Z then add_at A I I v else A <- add_at A I J v ;; add_at A J I v.
  (** femCy.pyx:2412-2418 *)
  Definition add2_sss (A : M) (I J : Z) (v : Qc) : res M :=
    if (I =? J)%Z then add_at A I I v else if (I <? J)%Z then add_at A J I v else add_at A I J v.

  (** femCy.pyx:2378-2396 *)
  Definition enter_sss (dm : dofmap) (i : nat) (contrib : buf Qc) (A : M) : res M :=
    '(_, A) <- for_range 0 (dm_dpe dm) (fun j '(s, A) =>
      I <- get2 (dm_dofs dm) i j ;;
      if (I <? 0)%Z then Ok (s + (dm_dpe dm - j), A)
      else
        v <- rd contrib s ;;
        A <- add_at A I I v ;;
        for_range (S j) (dm_dpe dm) (fun k '(s, A) =>
          J <- get2 (dm_dofs dm) i k ;;
          if (J <? 0)%Z then Ok (S s, A)
          else
            v <- rd contrib s ;;
            A <- (if (I <? J)%Z then add_at A J I v else add_at A I J v) ;;
            Ok (S s, A)) (S s, A)) (0, A) ;;
    Ok A.

  (** femCy.pyx:2485-2498 and the same lines of the other loops *)
  Definition enter_nonsym (dm dm' : dofmap) (i : nat) (contrib : buf Qc) (A : M) : res M :=
    '(_, A) <- for_range 0 (dm_dpe dm) (fun j '(s, A) =>
      I <- get2 (dm_dofs dm) i j ;;
      if (I <? 0)%Z then Ok (s + dm_dpe dm', A)
      else for_range 0 (dm_dpe dm') (fun k '(s, A) =>
        J <- get2 (dm_dofs dm') i k ;;
        if (J <? 0)%Z then Ok (S s, A)
        else v <- rd contrib s ;; A <- add_at A I J v ;; Ok (S s, A)) (s, A)) (0, A) ;;
    Ok A.
End Scatter.

(** ** The loops over the cells *)
Inductive operator := OpCSR (A : csr) | OpSSS (A : sss).

Section Loops.
  Variables (dim manifold_dim : nat) (vertices : list (list Qc)) (cells : list (list nat)).
  (** Buffers shared by the cells: the simplex, the local matrix and its field cell. *)
  Definition scratch := (list (buf Qc) * buf Qc * buf nat)%type.
  Definition new_scratch (n : nat) (cell : buf nat) : scratch := (repeat (alloc dim) (manifold_dim + 1), alloc n, cell).

  (** femCy.pyx:2257-2264, and with [set] = false 2286-2290, 2312-2316, 2372-2376, 2399-2403 *)
  Definition eval_cell (lm : local_matrix) (set : bool) (i : nat) (w : scratch) : res scratch :=
    let '(simplex, contrib, cell) := w in
    simplex <- getSimplex dim vertices cells i simplex ;;
    cell <- (if set && lm_needsCellInfo lm then c <- aget cells i ;; setCell lm c cell else Ok cell) ;;
    contrib <- lm_eval lm cell simplex contrib ;;
    Ok (simplex, contrib, cell).

  Definition assemble_step {S} (lm : local_matrix) (set : bool) (enter : nat -> buf Qc -> S -> res S) (i : nat) (st : scratch * S) : res (scratch * S) :=
    let '(w, s) := st in
    w <- eval_cell lm set i w ;;
    s <- enter i (snd (fst w)) s ;;
    Ok (w, s).

  (** femCy.pyx:2224-2338, after the pattern has been built: the three loops *)
  Definition fill_csr (lm : local_matrix) (dm : dofmap) (bd rhs : list Qc) (A : csr) (start_idx end_idx : option nat)
      (cellIndices : option (list nat)) (cell : buf nat) : res (csr * list Qc) :=
    let w := new_scratch (dm_dpe dm * (dm_dpe dm + 1) / 2) cell in
    let lo := first_cell start_idx in let hi := last_cell end_idx (length cells) in
    match bd with
    | [] =>
        '(_, A) <- (match cellIndices with
                    | None => for_range lo hi (assemble_step lm true (enter_csr csr_addToEntry dm)) (w, A)
                    | Some l => for_list l (assemble_step lm false (enter_csr csr_addToEntry dm)) (w, A)
                    end) ;;
        Ok (A, rhs)
    | _ =>
        '(_, st) <- for_range lo hi (assemble_step lm false (enter_bc (add2_csr csr_addToEntry) dm bd)) (w, (A, rhs)) ;;
        Ok st
    end.
  (** femCy.pyx:2341-2427, after the pattern has been built *)
  Definition fill_sss (lm : local_matrix) (dm : dofmap) (bd rhs : list Qc) (A : sss) (start_idx end_idx : option nat)
      (cell : buf nat) : res (sss * list Qc) :=
    let w := new_scratch (dm_dpe dm * (dm_dpe dm + 1) / 2) cell in
    let lo := first_cell start_idx in let hi := last_cell end_idx (length cells) in
    match bd with
    | [] =>
        '(_, A) <- for_range lo hi (assemble_step lm false (enter_sss sss_addToEntry dm)) (w, A) ;;
        Ok (A, rhs)
    | _ =>
        '(_, st) <- for_range lo hi (assemble_step lm false (enter_bc (add2_sss sss_addToEntry) dm bd)) (w, (A, rhs)) ;;
        Ok st
    end.

  (** femCy.pyx:2224-2338 *)
  Definition assembleSymMatrix_CSR (argsort : list nat -> list nat) (lm : local_matrix) (dm : dofmap) (bd rhs : list Qc) (A : option csr)
      (start_idx end_idx : option nat) (reorder : bool) (cellIndices : option (list nat)) (cell : buf nat) : res (csr * dofmap * list Qc) :=
    '(A, dm) <- (match A with
                 | Some A => Ok (A, dm)
                 | None => buildSparsityPattern argsort dm (length cells) start_idx end_idx reorder
                 end) ;;
    '(A, rhs) <- fill_csr lm dm bd rhs A start_idx end_idx cellIndices cell ;;
    Ok (A, dm, rhs).
  (** femCy.pyx:2341-2427 *)
  Definition assembleSymMatrix_SSS (argsort : list nat -> list nat) (lm : local_matrix) (dm : dofmap) (bd rhs : list Qc) (A : option sss)
      (start_idx end_idx : option nat) (reorder : bool) (cell : buf nat) : res (sss * dofmap * list Qc) :=
    '(A, dm) <- (match A with
                 | Some A => Ok (A, dm)
                 | None => buildSymmetricSparsityPattern argsort dm (length cells) start_idx end_idx reorder
                 end) ;;
    '(A, rhs) <- fill_sss lm dm bd rhs A start_idx end_idx cell ;;
    Ok (A, dm, rhs).

  (** femCy.pyx:2173-2221; the result is the matrix, the (possibly renumbered) map and the
      contribution to the right-hand side if there is one: a new vector if boundary data but no
      vector is given, the vector that was given otherwise. The local matrix is a new
      object, with an uninitialised field cell (femCy.pyx:47). *)
  Definition assembleMatrix (argsort : list nat -> list nat) (lm : local_matrix) (dm : dofmap) (bd rhs : option (list Qc)) (A : option operator)
      (start_idx end_idx : option nat) (sss_format reorder : bool) (cellIndices : option (list nat)) : res (operator * dofmap * option (list Qc)) :=
    let cell := alloc (lm_dim lm + 1) in
    let sss_format := match A with Some (OpSSS _) => true | Some (OpCSR _) => false | None => sss_format end in
    let reorder := match A with Some _ => false | None => reorder end in
    let rhs := match bd, rhs with Some _, None => Some (repeat 0%Qc (dm_num dm)) | _, _ => rhs end in
    let vec o := match o with Some v => v | None => [] end in
    '(A, dm, r) <-
      (if sss_format then
         '(A, dm, r) <- assembleSymMatrix_SSS argsort lm dm (vec bd) (vec rhs)
            (match A with Some (OpSSS A) => Some A | _ => None end) start_idx end_idx reorder cell ;;
         Ok (OpSSS A, dm, r)
       else
         '(A, dm, r) <- assembleSymMatrix_CSR argsort lm dm (vec bd) (vec rhs)
            (match A with Some (OpCSR A) => Some A | _ => None end) start_idx end_idx reorder cellIndices cell ;;
         Ok (OpCSR A, dm, r)) ;;
    Ok (A, dm, match rhs with Some _ => Some r | None => None end).

  (** femCy.pyx:2474-2481: a symmetric local matrix is unpacked *)
  Definition unpack (n n' : nat) (contribSym contrib : buf Qc) : res (buf Qc) :=
    '(_, contrib) <- for_range 0 n (fun j st =>
      for_range j n' (fun k '(s, contrib) =>
        v <- rd contribSym s ;;
        contrib <- wr contrib (j * n + k) v ;;
        contrib <- wr contrib (k * n + j) v ;;
        Ok (S s, contrib)) st) (0, contrib) ;;
    Ok contrib.

  (** femCy.pyx:2466-2484 and the same lines of the other loops; the first buffer of
      the scratch space is contrib, [cs] is contribSym *)
  Definition nonsym_step (lm : local_matrix) (dm dm' : dofmap) (symLocalMatrix : bool) (enter : nat -> buf Qc -> csr -> res csr)
      (i : nat) (st : scratch * buf Qc * csr) : res (scratch * buf Qc * csr) :=
    let '((simplex, contrib, cell), cs, A) := st in
    simplex <- getSimplex dim vertices cells i simplex ;;
    cell <- (if lm_needsCellInfo lm then c <- aget cells i ;; setCell lm c cell else Ok cell) ;;
    '(contrib, cs) <-
      (if symLocalMatrix then
         cs <- lm_eval lm cell simplex cs ;;
         contrib <- unpack (dm_dpe dm) (dm_dpe dm') cs contrib ;;
         Ok (contrib, cs)
       else contrib <- lm_eval lm cell simplex contrib ;; Ok (contrib, cs)) ;;
    A <- enter i contrib A ;;
    Ok ((simplex, contrib, cell), cs, A).

  (** femCy.pyx:2430-2602 *)
  Definition assembleNonSymMatrix_CSR (lm : local_matrix) (dm dm' : dofmap) (A : option csr) (start_idx end_idx : option nat)
      (cellIndices : option (list nat)) (symLocalMatrix : bool) : res csr :=
    let n := dm_dpe dm * dm_dpe dm' in
    A <- (match A with
          | Some A => Ok A
          | None => buildNonSymmetricSparsityPattern dm dm' (length cells) start_idx end_idx
          end) ;;
    let enter := enter_nonsym (if lm_additive lm then csr_addToEntry else csr_setEntry) dm dm' in
    let st := (new_scratch n (alloc (lm_dim lm + 1)), if symLocalMatrix then alloc n else [], A) in
    '(_, _, A) <- (match cellIndices with
                   | None => for_range (first_cell start_idx) (last_cell end_idx (length cells)) (nonsym_step lm dm dm' symLocalMatrix enter) st
                   | Some l => for_list l (nonsym_step lm dm dm' symLocalMatrix enter) st
                   end) ;;
    Ok A.
End Loops.
