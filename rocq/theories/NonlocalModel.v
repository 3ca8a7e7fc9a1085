(** Model of the assembly of nonlocal operators from pairs of cells
    (nl/PyNucleus_nl/nonlocalAssembly_{SCALAR}.pxi: IndexManager and nonlocalBuilder;
    nonlocalOperator_{SCALAR}.pxi: the cell pair of a double_local_matrix_t).

    Simplifications: kernels with valueSize = 1; a local matrix is given by its two flags and
    two functions, getPanelType of the pair of cells and eval of the pair, the panel, the mask and the
    buffer (permutations and parameters of the kernel that getPanelType leaves for eval are
    part of them); instead of simplices, centers and volumes the numbers of the cells that
    they belong to are kept; masks are numbers of [B] bits; logging is left out. *)
From Verif Require Import Util Lin SparsityModel CSRModel DenseModel MeshModel AssemblyModel.

(** panelTypes.pxi:15 *)
Definition IGNORED : Z := (-6)%Z.

(** nonlocalOperator_{SCALAR}.pxi:8-20: cellNo1, cellNo2 (with the simplices) and the cells that
    vol1, vol2 belong to; -1 for none *)
Record lmstate := LS { l_c1 : Z; l_c2 : Z; l_v1 : Z; l_v2 : Z }.
(** nonlocalOperator_{SCALAR}.pxi:16-19, 158-159, 178-179 *)
Definition fresh : lmstate := LS (-1) (-1) (-1) (-1).
(** nonlocalOperator_{SCALAR}.pxi:172-179 *)
Definition setMesh2 (s : lmstate) : lmstate := LS (-1) (-1) (l_v1 s) (l_v2 s).
(** nonlocalOperator_{SCALAR}.pxi:181-191 *)
Definition setCell1 (c : nat) (s : lmstate) : lmstate :=
  if (l_c1 s =? Z.of_nat c)%Z then s else LS (Z.of_nat c) (l_c2 s) (Z.of_nat c) (l_v2 s).
(** nonlocalOperator_{SCALAR}.pxi:193-203 *)
Definition setCell2 (c : nat) (s : lmstate) : lmstate :=
  if (l_c2 s =? Z.of_nat c)%Z then s else LS (l_c1 s) (Z.of_nat c) (l_v1 s) (Z.of_nat c).
(** nonlocalOperator_{SCALAR}.pxi:223-226; the volumes are not exchanged *)
Definition swapCells (s : lmstate) : lmstate := LS (l_c2 s) (l_c1 s) (l_v1 s) (l_v2 s).

(** symmetricLocalMatrix, symmetricCells, getPanelType, eval *)
Record double_local := DLM {
  dl_symLocal : bool; dl_symCells : bool;
  dl_panel : Z -> Z -> Z;
  dl_eval : lmstate -> Z -> N -> buf Qc -> res (buf Qc) }.
Definition getPanelType (L : double_local) (s : lmstate) : Z := dl_panel L (l_c1 s) (l_c2 s).

Section Masks.
  Variable B : nat.
  (** bitset.pxd.in: a set of B bits; [ALL] has all of them (nonlocalAssembly.pyx) *)
  Definition ALL : N := N.ones (N.of_nat B).
  Definition shl (k : N) (j : nat) : N := N.land (N.shiftl k (N.of_nat j)) ALL.

  (** nonlocalAssembly_{SCALAR}.pxi:442-457 *)
  Definition getElemSymMask (n : nat) (ld : buf Z) : res N :=
    '(mask, _) <- for_range 0 n (fun p '(mask, k) =>
      I <- rd ld p ;;
      if (0 <=? I)%Z then
        for_range p n (fun q '(mask, k) =>
          J <- rd ld q ;;
          Ok (if (0 <=? J)%Z then N.lor mask k else mask, shl k 1)) (mask, k)
      else Ok (mask, shl k (n - p))) (0%N, 1%N) ;;
    Ok mask.
End Masks.

(** ** IndexManager *)

(** nonlocalAssembly_{SCALAR}.pxi:127-136, myDofs = None or a set *)
Definition getDoFsElem (dm : dofmap) (myDofs : option (nat -> bool)) (c : nat) (ld : buf Z) : res (buf Z) :=
  ld <- for_range 0 (dm_dpe dm) (fun p ld => d <- get2 (dm_dofs dm) c p ;; wr ld p d) ld ;;
  match myDofs with
  | None => Ok ld
  | Some inSet => for_range 0 (dm_dpe dm) (fun p ld =>
      d <- rd ld p ;;
      if (0 <=? d)%Z && inSet (Z.to_nat d) then Ok ld else wr ld p (-1)%Z) ld
  end.

(** nonlocalAssembly_{SCALAR}.pxi:138-150 *)
Definition getDoFsElemElem (dm : dofmap) (c1 c2 : nat) (ld : buf Z) : res (buf Z * bool) :=
  st <- for_range 0 (dm_dpe dm) (fun p '(ld, skip) =>
    d <- get2 (dm_dofs dm) c1 p ;; ld <- wr ld p d ;; Ok (ld, skip && (d <? 0)%Z)) (ld, true) ;;
  for_range 0 (dm_dpe dm) (fun p '(ld, skip) =>
    d <- get2 (dm_dofs dm) c2 p ;; ld <- wr ld (dm_dpe dm + p) d ;; Ok (ld, skip && (d <? 0)%Z)) st.

Section Scatter.
  Context {M : Type}.
  Variable add : M -> nat -> nat -> Qc -> res M.
  Notation add_at := (AssemblyModel.add_at add).

  (** nonlocalAssembly_{SCALAR}.pxi:152-168 with n = dofs_per_element, 204-221 with
      n = 2*dofs_per_element *)
  Definition add_sym (n : nat) (ld : buf Z) (contrib : buf Qc) (fac : Qc) (A : M) : res M :=
    '(_, A) <- for_range 0 n (fun p '(k, A) =>
      I <- rd ld p ;;
      if (0 <=? I)%Z then
        v <- rd contrib k ;;
        A <- add_at A I I (fac * v)%Qc ;;
        for_range (p + 1) n (fun q '(k, A) =>
          J <- rd ld q ;;
          if (0 <=? J)%Z then
            v <- rd contrib k ;;
            A <- add_at A I J (fac * v)%Qc ;;
            A <- add_at A J I (fac * v)%Qc ;;
            Ok (k + 1, A)
          else Ok (k + 1, A)) (k + 1, A)
      else Ok (k + (n - p), A)) (0, A) ;;
    Ok A.

  (** nonlocalAssembly_{SCALAR}.pxi:170-184 and 239-253 *)
  Definition add_full (n : nat) (ld : buf Z) (contrib : buf Qc) (fac : Qc) (A : M) : res M :=
    '(_, A) <- for_range 0 n (fun p '(k, A) =>
      I <- rd ld p ;;
      if (0 <=? I)%Z then
        for_range 0 n (fun q '(k, A) =>
          J <- rd ld q ;;
          if (0 <=? J)%Z then
            v <- rd contrib k ;;
            A <- add_at A I J (fac * v)%Qc ;;
            Ok (k + 1, A)
          else Ok (k + 1, A)) (k, A)
      else Ok (k + n, A)) (0, A) ;;
    Ok A.

  (** nonlocalAssembly_{SCALAR}.pxi:503-519 and 535-549 *)
  Definition add_sym_masked (n : nat) (ld : buf Z) (contrib : buf Qc) (fac : Qc) (mask : N) (A : M) : res M :=
    '(_, A) <- for_range 0 n (fun p '(k, A) =>
      I <- rd ld p ;;
      A <- (if N.testbit_nat mask k then v <- rd contrib k ;; add_at A I I (fac * v)%Qc else Ok A) ;;
      for_range (p + 1) n (fun q '(k, A) =>
        A <- (if N.testbit_nat mask k then
                J <- rd ld q ;;
                v <- rd contrib k ;;
                A <- add_at A I J (fac * v)%Qc ;;
                add_at A J I (fac * v)%Qc
              else Ok A) ;;
        Ok (k + 1, A)) (k + 1, A)) (0, A) ;;
    Ok A.

  (** nonlocalAssembly_{SCALAR}.pxi:521-533 and 551-561 *)
  Definition add_full_masked (n : nat) (ld : buf Z) (contrib : buf Qc) (fac : Qc) (mask : N) (A : M) : res M :=
    '(_, A) <- for_range 0 n (fun p '(k, A) =>
      I <- rd ld p ;;
      for_range 0 n (fun q '(k, A) =>
        A <- (if N.testbit_nat mask k then
                J <- rd ld q ;;
                v <- rd contrib k ;;
                add_at A I J (fac * v)%Qc
              else Ok A) ;;
        Ok (k + 1, A)) (k, A)) (0, A) ;;
    Ok A.

  (** ** nonlocalBuilder *)
  Variable B : nat.
  Variable dm : dofmap.
  Variable nc : nat.

  (** The state of a loop over pairs of cells: the local matrix object, localDoFs, contrib and
      the matrix *)
  Record work := W { w_lm : lmstate; w_ld : buf Z; w_con : buf Qc; w_A : M }.

  Section Interior.
    Variable L : double_local.
    (** "if self.local_matrix.symmetricLocalMatrix: ... else: ...", as in
        nonlocalAssembly_{SCALAR}.pxi:1397-1400 *)
    Definition add_local (fac : Qc) (ld : buf Z) (con : buf Qc) (A : M) : res M :=
      if dl_symLocal L then add_sym (2 * dm_dpe dm) ld con fac A else add_full (2 * dm_dpe dm) ld con fac A.
    Definition eval_add (fac : Qc) (panel : Z) (w : work) : res work :=
      con <- dl_eval L (w_lm w) panel (ALL B) (w_con w) ;;
      A <- add_local fac (w_ld w) con (w_A w) ;;
      Ok (W (w_lm w) (w_ld w) con A).

    (** The body of the loops in getDense, nonlocalAssembly_{SCALAR}.pxi:1389-1428 (and in
        getSparse, 1195-1233) *)
    Definition pair_body (c1 c2 : nat) (w : work) : res work :=
      let w := W (setCell2 c2 (w_lm w)) (w_ld w) (w_con w) (w_A w) in
      '(ld, skip) <- getDoFsElemElem dm c1 c2 (w_ld w) ;;
      let w := W (w_lm w) ld (w_con w) (w_A w) in
      if skip then Ok w
      else
        let panel := getPanelType L (w_lm w) in
        if c1 =? c2 then
          if (panel =? IGNORED)%Z then Ok w else eval_add 1 panel w
        else if dl_symCells L then
          if (panel =? IGNORED)%Z then Ok w else eval_add (1 + 1) panel w
        else
          w <- (if (panel =? IGNORED)%Z then Ok w else eval_add 1 panel w) ;;
          let w := W (swapCells (w_lm w)) (w_ld w) (w_con w) (w_A w) in
          let panel := getPanelType L (w_lm w) in
          if (panel =? IGNORED)%Z then Ok (W (swapCells (w_lm w)) (w_ld w) (w_con w) (w_A w))
          else
            '(ld, skip) <- getDoFsElemElem dm c2 c1 (w_ld w) ;;
            let w := W (w_lm w) ld (w_con w) (w_A w) in
            if skip then Ok w
            else
              w <- eval_add 1 panel w ;;
              Ok (W (swapCells (w_lm w)) (w_ld w) (w_con w) (w_A w)).

    (** nonlocalAssembly_{SCALAR}.pxi:1386-1428 *)
    Definition interior (start stop : nat) (w : work) : res work :=
      for_range start stop (fun c1 w =>
        for_range c1 nc (pair_body c1) (W (setCell1 c1 (w_lm w)) (w_ld w) (w_con w) (w_A w))) w.
  End Interior.

  (** nonlocalAssembly_{SCALAR}.pxi:1431-1448; the surface mesh has ns cells *)
  Definition zero_exterior (E : double_local) (ns : nat) (start stop : nat) (w : work) : res work :=
    for_range start stop (fun c1 w =>
      ld <- getDoFsElem dm None c1 (w_ld w) ;;
      mask <- getElemSymMask B (dm_dpe dm) ld ;;
      for_range 0 ns (fun c2 w =>
        let lm := setCell2 c2 (w_lm w) in
        con <- dl_eval E lm (getPanelType E lm) mask (w_con w) ;;
        A <- add_sym (dm_dpe dm) (w_ld w) con 1 (w_A w) ;;
        Ok (W lm (w_ld w) con A)) (W (setCell1 c1 (w_lm w)) ld (w_con w) (w_A w))) w.

  (** nonlocalAssembly_{SCALAR}.pxi:1350-1448: what the process does that is given the cells from
      start to stop; [E] is the local matrix of the exterior with its state and buffer if
      zeroExterior is set *)
  Definition assemble_cells (L : double_local) (lm : lmstate) (con : buf Qc)
      (ext : option (double_local * nat * lmstate * buf Qc)) (start stop : nat) (A : M) : res M :=
    w <- interior L start stop (W lm (alloc (2 * dm_dpe dm)) con A) ;;
    match ext with
    | None => Ok (w_A w)
    | Some (E, ns, lmE, conE) =>
        w <- zero_exterior E ns start stop (W (setMesh2 lmE) (w_ld w) conE (w_A w)) ;;
        Ok (w_A w)
    end.
End Scatter.

(** DenseLinearOperator_{SCALAR}.pxi:83-84 *)
Definition dense_addToEntry (A : dense) (I J : nat) (v : Qc) : res dense :=
  p <- ix (d_n A) (d_m A) I J ;;
  x <- aget (d_data A) p ;;
  d <- aset (d_data A) p (x + v)%Qc ;;
  Ok (Dense (d_n A) (d_m A) d).
Definition dense_zeros (n m : nat) : dense := Dense n m (repeat 0%Qc (n * m)).

(** nonlocalAssembly_{SCALAR}.pxi:1280-1281: ceil(num_cells*rank/size) *)
Definition share (nc size rank : nat) : nat := (nc * rank + (size - 1)) / size.

(** Allreduce(MPI.IN_PLACE, A.data): the sum over the processes *)
Definition dense_plus (A C : dense) : res dense :=
  _ <- guard ((d_n A =? d_n C) && (d_m A =? d_m C) && (length (d_data A) =? length (d_data C))) EValue ;;
  Ok (Dense (d_n A) (d_m A) (map (fun p => (fst p + snd p)%Qc) (combine (d_data A) (d_data C)))).

(** nonlocalAssembly_{SCALAR}.pxi:1262-1473 with dm2 = None, trySparsification = False; [comm] is the
    number of processes, if any; all processes start with the same data *)
Definition getDense (B : nat) (dm : dofmap) (nc : nat) (L : double_local) (lm : lmstate) (con : buf Qc)
    (ext : option (double_local * nat * lmstate * buf Qc)) (comm : option nat) : res dense :=
  let local start stop := assemble_cells dense_addToEntry B dm nc L lm con ext start stop (dense_zeros (dm_num dm) (dm_num dm)) in
  match comm with
  | None => local 0 nc
  | Some size =>
      for_range 0 size (fun rank A => C <- local (share nc size rank) (share nc size (rank + 1)) ;; dense_plus A C)
        (dense_zeros (dm_num dm) (dm_num dm))
  end.

(** nonlocalAssembly.pyx:447-472 *)
Record submatrix {M} := Sub { sub_A : M; sub_I : nat -> option nat; sub_J : nat -> option nat }.
Arguments submatrix : clear implicits.
Definition sub_addToEntry {M} (add : M -> nat -> nat -> Qc -> res M) (S : submatrix M) (I J : nat) (v : Qc) : res (submatrix M) :=
  match sub_I S I, sub_J S J with
  | Some i, Some j => A <- add (sub_A S) i j v ;; Ok (Sub _ A (sub_I S) (sub_J S))
  | _, _ => Ok S
  end.
(** np.arange(lo, hi) as a lookup table *)
Definition arange_lookup (lo hi : nat) (i : nat) : option nat := if (lo <=? i) && (i <? hi) then Some (i - lo) else None.

(** DoFMaps.pyx:1563-1588; nb, nb' are the numbers of boundary degrees of freedom *)
Definition dm_combine (dm dm2 : dofmap) (nb nb2 nc : nat) : res dofmap :=
  _ <- guard (dm_num dm =? nb2) EAssert ;;
  _ <- guard (nb =? dm_num dm2) EAssert ;;
  dofs <- for_range 0 nc (fun c dofs =>
    for_range 0 (dm_dpe dm) (fun p dofs =>
      d1 <- get2 (dm_dofs dm) c p ;;
      d2 <- get2 (dm_dofs dm2) c p ;;
      row <- aget dofs c ;;
      row <- (if ((0 <=? d1) && (d2 <? 0))%Z then aset row p d1
              else if ((d1 <? 0) && (0 <=? d2))%Z then aset row p (Z.of_nat (dm_num dm) + d2)%Z
              else Err ENotImpl) ;;
      aset dofs c row) dofs) (dm_dofs dm) ;;
  Ok (DM dofs (dm_num dm + dm_num dm2) (dm_dpe dm) (dm_reordered dm)).

(** nonlocalAssembly_{SCALAR}.pxi:1262-1473 with a second map of degrees of freedom, one process *)
Definition getDense2 (B : nat) (dm dm2 : dofmap) (nb nb2 nc : nat) (L : double_local) (lm : lmstate) (con : buf Qc)
    (ext : option (double_local * nat * lmstate * buf Qc)) : res dense :=
  dmc <- dm_combine dm dm2 nb nb2 nc ;;
  S <- assemble_cells (sub_addToEntry dense_addToEntry) B dmc nc L lm con ext 0 nc
    (Sub _ (dense_zeros (dm_num dm) (dm_num dm2)) (arange_lookup 0 (dm_num dm)) (arange_lookup (dm_num dm) (dm_num dm + dm_num dm2))) ;;
  Ok (sub_A S).
