(** Model of the assembly of the near field of a hierarchical matrix from pairs of clusters
    (nl/PyNucleus_nl/nonlocalAssembly_{SCALAR}.pxi: assembleClusters, buildMasksForClusters and the masks of
    IndexManager, FilteredAssemblyOperator; nonlocalAssembly.pyx: nearFieldClusterPair).

    Simplifications: as in NonlocalModel; sets of cells and degrees of freedom are lists (index sets iterate in
    increasing order, their union and intersection are in IndexSetModel); std::map is a function that is 0 (the
    value of a new bitset) where nothing was entered; instead of startCluster the list of the clusters
    that remain is kept; the dictionary of masks is iterated before the pairs are assembled (it is not changed meanwhile);
    one process; kernels that are not variable; counters for the log are left out. *)
From Verif Require Import Util Lin TupleDictModel SparsityModel CSRModel DenseModel MeshModel AssemblyModel NonlocalModel NonlocalModel2.

(** nonlocalAssembly.pyx:375-392: the degrees of freedom and the cells of n1 and n2, cellsUnion and cellsInter *)
Record npair := NP { np_dofs1 : list nat; np_dofs2 : list nat; np_cells1 : list nat; np_cells2 : list nat;
  np_union : list nat; np_inter : list nat }.
Definition mem (l : list nat) (i : nat) : bool := existsb (Nat.eqb i) l.
(** "I >= 0 and I in dofs" *)
Definition zmem (l : list nat) (d : Z) : bool := (0 <=? d)%Z && mem l (Z.to_nat d).

Section Masks.
  Variable B : nat.
  (** nonlocalAssembly_{SCALAR}.pxi:408-423, n = 2*dofs_per_element; 463-479 is the same with n = dofs_per_element and
      membership of the degrees of freedom instead of bits *)
  Definition symMask (n : nat) (in1 in2 : nat -> bool) : N :=
    fst (fold_left (fun '(mask, k) p =>
      if in1 p then fold_left (fun '(mask, k) q => (if in2 q then N.lor mask k else mask, shl B k 1)) (seq p (n - p)) (mask, k)
      else (mask, shl B k (n - p))) (seq 0 n) (0%N, 1%N)).
  (** nonlocalAssembly_{SCALAR}.pxi:425-440 *)
  Definition fullMask (n : nat) (in1 in2 : nat -> bool) : N :=
    fst (fold_left (fun '(mask, k) p =>
      if in1 p then fold_left (fun '(mask, k) q => (if in2 q then N.lor mask k else mask, shl B k 1)) (seq 0 n) (mask, k)
      else (mask, shl B k n)) (seq 0 n) (0%N, 1%N)).
  Definition getElemElemSymMask (n : nat) (m1 m2 : N) : N := symMask n (N.testbit_nat m1) (N.testbit_nat m2).
  Definition getElemElemMask (n : nat) (m1 m2 : N) : N := fullMask n (N.testbit_nat m1) (N.testbit_nat m2).
  (** nonlocalAssembly_{SCALAR}.pxi:463-478 *)
  Definition getElemSymMaskCluster (n : nat) (dofs1 dofs2 : list nat) (ld : buf Z) : res N :=
    ds <- for_range 0 n (fun p ds => d <- rd ld p ;; Ok (ds ++ [d])) [] ;;
    Ok (symMask n (fun p => zmem dofs1 (nth p ds 0%Z)) (fun q => zmem dofs2 (nth q ds 0%Z))).

  Variable W : nat.                (* number of values of LENGTH_t, 65536 *)
  Variables (dm : dofmap) (nc : nat).
  Variables (symCells symLocal : bool).
  Notation dpe := (dm_dpe dm).
  Notation masks_t := (tdict N).

  (** nonlocalAssembly_{SCALAR}.pxi:288-304, one cell *)
  Definition cell_masks (np : npair) (c : nat) : res (N * N) :=
    '(m1, m2, _) <- for_range 0 dpe (fun p '(m1, m2, k) =>
      I <- get2 (dm_dofs dm) c p ;;
      Ok (if zmem (np_dofs1 np) I then N.lor m1 k else m1, if zmem (np_dofs2 np) I then N.lor m2 k else m2, shl B k 1)) (0%N, 0%N, 1%N) ;;
    Ok (m1, m2).
  Definition cmap := nat -> N.
  Definition cset (m : cmap) (c : nat) (v : N) : cmap := fun c' => if c' =? c then v else m c'.
  (** nonlocalAssembly_{SCALAR}.pxi:285-304 *)
  Definition record_cells (np : npair) (cm : cmap * cmap) : res (cmap * cmap) :=
    for_list (np_union np) (fun c '(cm1, cm2) =>
      '(m1, m2) <- cell_masks np c ;; Ok (cset cm1 c m1, cset cm2 c m2)) cm.
  (** nonlocalAssembly_{SCALAR}.pxi:327-343 and 364-384: the mask of the pair (c1, c2), from the masks of the cells *)
  Definition enter_masks (m11 m12 m21 m22 : N) (c1 c2 : nat) (masks : masks_t) : res masks_t :=
    let m1 := N.lor m11 (shl B m21 dpe) in
    let m2 := N.lor m12 (shl B m22 dpe) in
    if (m1 =? 0)%N || (m2 =? 0)%N then Ok masks
    else
      '(masks, _) <- enterValue N N.lor W masks c1 (Z.of_nat c2)
        (if symLocal then getElemElemSymMask (2 * dpe) m1 m2 else getElemElemMask (2 * dpe) m1 m2) ;;
      Ok masks.
  (** nonlocalAssembly_{SCALAR}.pxi:306-384 *)
  Definition enter_cluster (np : npair) (cm : cmap * cmap) (masks : masks_t) : res masks_t :=
    let '(cm1, cm2) := cm in
    if negb symCells then
      for_list (np_union np) (fun c1 masks => for_list (np_union np) (fun c2 masks =>
        enter_masks (cm1 c1) (cm2 c1) (cm1 c2) (cm2 c2) c1 c2 masks) masks) masks
    else
      for_list (np_cells1 np) (fun c1 masks => for_list (np_cells2 np) (fun c2 masks =>
        if c2 <? c1 then enter_masks (cm1 c2) (cm2 c2) (cm1 c1) (cm2 c1) c2 c1 masks
        else enter_masks (cm1 c1) (cm2 c1) (cm1 c2) (cm2 c2) c1 c2 masks) masks) masks.
  (** nonlocalAssembly_{SCALAR}.pxi:276-389: the loop over the clusters that remain *)
  Fixpoint build_loop (maxNNZ : Z) (Pnear : list npair) (cm : cmap * cmap) (masks : masks_t) : res (list npair * masks_t) :=
    match Pnear with
    | [] => Ok ([], masks)
    | np :: rest =>
        cm <- record_cells np cm ;;
        masks <- enter_cluster np cm masks ;;
        if (maxNNZ <? nnz masks)%Z then Ok (rest, masks) else build_loop maxNNZ rest cm masks
    end.
  (** nonlocalAssembly_{SCALAR}.pxi:260-389 *)
  Definition buildMasksForClusters (maxNNZ : Z) (Pnear : list npair) : res (list npair * masks_t) :=
    build_loop maxNNZ Pnear (fun _ => 0%N, fun _ => 0%N) (td_init N nc 0 20 false true).
End Masks.

Section Assemble.
  Context {M : Type}.
  Variable add : M -> nat -> nat -> Qc -> res M.
  Variables (B W : nat) (dm : dofmap) (nc : nat) (L : double_local).
  Notation dpe := (dm_dpe dm).
  (** "if self.local_matrix.symmetricCells and (cellNo1 != cellNo2): fac = 2. else: fac = 1." *)
  Definition pair_fac (c1 c2 : nat) : Qc := if dl_symCells L && negb (c1 =? c2) then (1 + 1)%Qc else 1%Qc.

  (** nonlocalAssembly_{SCALAR}.pxi:1814-1832, one pair of cells *)
  Definition masked_pair (e : nat * Z * N) (w : @work M) : res work :=
    let '(c1, z2, mask) := e in
    let c2 := Z.to_nat z2 in
    let lm := setCell2 c2 (setCell1 c1 (w_lm w)) in
    let panel := getPanelType L lm in
    if (panel =? IGNORED)%Z then Ok (NonlocalModel.W lm (w_ld w) (w_con w) (w_A w))
    else
      '(ld, skip) <- getDoFsElemElem dm c1 c2 (w_ld w) ;;
      if skip then Ok (NonlocalModel.W lm ld (w_con w) (w_A w))
      else
        con <- dl_eval L lm panel mask (w_con w) ;;
        A <- (if dl_symLocal L then add_sym_masked add (2 * dpe) ld con (pair_fac c1 c2) mask (w_A w)
              else add_full_masked add (2 * dpe) ld con (pair_fac c1 c2) mask (w_A w)) ;;
        Ok (NonlocalModel.W lm ld con A).
  (** nonlocalAssembly_{SCALAR}.pxi:1794-1833 *)
  Fixpoint masked_loop (fuel : nat) (maxNNZ : Z) (Pnear : list npair) (w : @work M) : res work :=
    match Pnear, fuel with
    | [], _ => Ok w
    | _, O => Err EFuel
    | _, S fuel =>
        '(rest, masks) <- buildMasksForClusters B W dm nc (dl_symCells L) (dl_symLocal L) maxNNZ Pnear ;;
        l <- toDict N masks ;;
        w <- for_list l masked_pair w ;;
        masked_loop fuel maxNNZ rest w
    end.

  (** nonlocalAssembly_{SCALAR}.pxi:3351-3353 *)
  Definition filtered (np : npair) (A : M) (i j : nat) (v : Qc) : res M :=
    if mem (np_dofs1 np) i && mem (np_dofs2 np) j then add A i j v else Ok A.
  (** nonlocalAssembly_{SCALAR}.pxi:1776-1792, one pair of cells *)
  Definition filtered_pair (np : npair) (c1 c2 : nat) (w : @work M) : res work :=
    let lm := setCell2 c2 (w_lm w) in
    let panel := getPanelType L lm in
    if (panel =? IGNORED)%Z then Ok (NonlocalModel.W lm (w_ld w) (w_con w) (w_A w))
    else
      '(ld, skip) <- getDoFsElemElem dm c1 c2 (w_ld w) ;;
      let w := NonlocalModel.W lm ld (w_con w) (w_A w) in
      if skip then Ok w else eval_add (filtered np) B dm L (pair_fac c1 c2) panel w.
  (** nonlocalAssembly_{SCALAR}.pxi:1762-1792 *)
  Definition filtered_loop (Pnear : list npair) (w : @work M) : res work :=
    for_list Pnear (fun np w =>
      for_list (np_union np) (fun c1 w =>
        for_list (np_union np) (filtered_pair np c1) (NonlocalModel.W (setCell1 c1 (w_lm w)) (w_ld w) (w_con w) (w_A w)))
        (NonlocalModel.W (w_lm w) (alloc (2 * dpe)) (w_con w) (w_A w))) w.

  (** nonlocalAssembly_{SCALAR}.pxi:1855-1889: the local matrix of the exterior, and the number of facets, depend on the surface
      of the union of the clusters *)
  Definition cluster_exterior (ext : npair -> double_local * nat) (Pnear : list npair) (w : @work M) : res work :=
    for_list Pnear (fun np w =>
      match np_inter np with
      | [] => Ok w
      | _ =>
        let '(E, ns) := ext np in
        for_list (np_inter np) (fun c1 w =>
          let lm := setCell1 c1 (w_lm w) in
          ld <- getDoFsElem dm None c1 (w_ld w) ;;
          mask <- getElemSymMaskCluster B dpe (np_dofs1 np) (np_dofs2 np) ld ;;
          for_range 0 ns (fun c2 w =>
            let lm := setCell2 c2 (w_lm w) in
            con <- dl_eval E lm (getPanelType E lm) mask (w_con w) ;;
            _ <- guard (dl_symLocal E) ENotImpl ;;
            A <- add_sym_masked add dpe (w_ld w) con 1 mask (w_A w) ;;
            Ok (NonlocalModel.W lm (w_ld w) con A)) (NonlocalModel.W lm ld (w_con w) (w_A w)))
          (NonlocalModel.W (setMesh2 (w_lm w)) (w_ld w) (w_con w) (w_A w))
      end) w.

  (** nonlocalAssembly_{SCALAR}.pxi:1740-1889 for a given matrix; [use_masks] and [maxNNZ] are parameters;
      [ext], if there is an exterior part: the local matrices, its state and its buffer *)
  Definition assemble_near (use_masks : bool) (maxNNZ : Z) (lm : lmstate) (con : buf Qc)
      (ext : option ((npair -> double_local * nat) * lmstate * buf Qc)) (Pnear : list npair) (A : M) : res M :=
    let w := NonlocalModel.W lm (alloc (2 * dpe)) con A in
    w <- (if use_masks then masked_loop (length Pnear) maxNNZ Pnear w else filtered_loop Pnear w) ;;
    match ext with
    | None => Ok (w_A w)
    | Some (E, lmE, conE) =>
        w <- cluster_exterior E Pnear (NonlocalModel.W lmE (alloc (2 * dpe)) conE (w_A w)) ;;
        Ok (w_A w)
    end.
End Assemble.

(** nonlocalAssembly_{SCALAR}.pxi:1702-1716 and 1740-1889 *)
Definition near_of (Pnear : list npair) : list (list nat * list nat) := map (fun np => (np_dofs1 np, np_dofs2 np)) Pnear.
Definition assembleClusters (B W : nat) (dm : dofmap) (nc : nat) (L : double_local) (use_masks : bool) (maxNNZ : Z) (lm : lmstate) (con : buf Qc)
    (ext : option ((npair -> double_local * nat) * lmstate * buf Qc)) (Pnear : list npair) : res csr :=
  A <- getSparseNearField (dm_num dm) (near_of Pnear) ;;
  assemble_near csr_addToEntry B W dm nc L use_masks maxNNZ lm con ext Pnear A.
Definition assembleClusters_sym (B W : nat) (dm : dofmap) (nc : nat) (L : double_local) (use_masks : bool) (maxNNZ : Z) (lm : lmstate) (con : buf Qc)
    (ext : option ((npair -> double_local * nat) * lmstate * buf Qc)) (Pnear : list npair) : res sss :=
  A <- getSparseNearField_sym (dm_num dm) (near_of Pnear) ;;
  assemble_near sss_addToEntry B W dm nc L use_masks maxNNZ lm con ext Pnear A.
