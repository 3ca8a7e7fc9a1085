(** Model of further ways to assemble nonlocal operators: into a sparse matrix over the cells
    of near field clusters, and entry by entry
    (nl/PyNucleus_nl/nonlocalAssembly_{SCALAR}.pxi, nonlocalAssembly.pyx).

    Simplifications: as in NonlocalModel; sets of cells are lists (index sets iterate in increasing
    order); the near field is given by the pairs of sets of cells of its clusters. *)
From Verif Require Import Util Lin SparsityModel CSRModel DenseModel MeshModel AssemblyModel NonlocalModel.

(** nonlocalAssembly_{SCALAR}.pxi:1178-1233; processedCellPairs is a sparsityPattern *)
Definition sparse_interior {M} (add : M -> nat -> nat -> Qc -> res M) (B : nat) (dm : dofmap) (nc : nat) (L : double_local)
    (Pnear : list (list nat * list nat)) (w : work) : res (work * spat) :=
  for_list Pnear (fun '(cells1, cells2) st =>
    for_list cells1 (fun c1 '(w, processed) =>
      for_list cells2 (fun c2 '(w, processed) =>
        if c2 <? c1 then Ok (w, processed)
        else
          '(found, _) <- sp_findIndex (2 ^ 16) processed c1 (Z.of_nat c2) ;;
          if found then Ok (w, processed)
          else
            processed <- add_pair c1 c2 processed ;;
            w <- pair_body add B dm L c1 c2 w ;;
            Ok (w, processed))
        (W (setCell1 c1 (w_lm w)) (w_ld w) (w_con w) (w_A w), processed)) st) (w, new_pattern nc).
(** nonlocalAssembly_{SCALAR}.pxi:1160-1233 for a given matrix that has the near field pattern *)
Definition getSparse {M} (add : M -> nat -> nat -> Qc -> res M) (B : nat) (dm : dofmap) (nc : nat) (L : double_local) (lm : lmstate) (con : buf Qc)
    (Pnear : list (list nat * list nat)) (A : M) : res M :=
  '(w, _) <- sparse_interior add B dm nc L Pnear (W lm (alloc (2 * dm_dpe dm)) con A) ;;
  Ok (w_A w).

(** ** Single entries *)

(** nonlocalAssembly.pyx:91-106 (n = dofs_per_element) and 108-131 (n = 2*dofs_per_element); [cell2dof] gives
    the degrees of freedom of the cell or pair *)
Definition entry_mask (B n : nat) (cell2dof : nat -> res Z) (I J : nat) : res N :=
  '(mask, _) <- for_range 0 n (fun p '(mask, k) =>
    K <- cell2dof p ;;
    for_range p n (fun q '(mask, k) =>
      L <- cell2dof q ;;
      Ok (if ((Z.of_nat I =? K) && (Z.of_nat J =? L) || (Z.of_nat J =? K) && (Z.of_nat I =? L))%Z then N.lor mask k else mask, shl B k 1))
      (mask, k)) (0%N, 1%N) ;;
  Ok mask.
Definition cell_dof (dm : dofmap) (c p : nat) : res Z := get2 (dm_dofs dm) c p.
Definition cells_dof (dm : dofmap) (c1 c2 p : nat) : res Z :=
  if p <? dm_dpe dm then get2 (dm_dofs dm) c1 p else get2 (dm_dofs dm) c2 (p - dm_dpe dm).

(** nonlocalAssembly_{SCALAR}.pxi:633-657 *)
Definition extract_masked (n : nat) (con : buf Qc) (fac : Qc) (mask : N) : res Qc :=
  '(s, _) <- for_range 0 n (fun p st =>
    for_range p n (fun q '(s, k) =>
      s <- (if N.testbit_nat mask k then v <- rd con k ;; Ok (s + fac * v)%Qc else Ok s) ;;
      Ok (s, k + 1)) st) (0%Qc, 0) ;;
  Ok s.

Section Entry.
  Variables (B : nat) (dm : dofmap) (nc : nat) (L : double_local).
  Definition estate := (lmstate * buf Qc * Qc)%type.
  (** eval with a mask, then "entry += extractElemElemSymMasked(dm, contrib, fac, mask2)" *)
  Definition eval_extract (fac : Qc) (lm : lmstate) (mask mask2 : N) (con : buf Qc) (entry : Qc) : res estate :=
    con <- dl_eval L lm (getPanelType L lm) mask con ;;
    if dl_symLocal L then s <- extract_masked (2 * dm_dpe dm) con fac mask2 ;; Ok (lm, con, entry + s)%Qc
    else Err ENotImpl.

  (** nonlocalAssembly_{SCALAR}.pxi:1565-1602, one pair of cells *)
  Definition entry_pair (I J c1 c2 : nat) (st : estate) : res estate :=
    let '(lm, con, entry) := st in
    if c2 <? c1 then Ok st
    else
      mask <- entry_mask B (2 * dm_dpe dm) (cells_dof dm c1 c2) I J ;;
      if (mask =? 0)%N then Ok st
      else
        let lm := setCell2 c2 lm in
        let panel := getPanelType L lm in
        if c1 =? c2 then eval_extract 1 lm mask mask con entry
        else if dl_symCells L then
          if (panel =? IGNORED)%Z then Ok (lm, con, entry) else eval_extract (1 + 1) lm mask mask con entry
        else
          '(lm, con, entry) <- (if (panel =? IGNORED)%Z then Ok (lm, con, entry) else eval_extract 1 lm mask mask con entry) ;;
          let lm := swapCells lm in
          mask <- entry_mask B (2 * dm_dpe dm) (cells_dof dm c2 c1) I J ;;
          if (getPanelType L lm =? IGNORED)%Z then Ok (lm, con, entry) else eval_extract 1 lm mask mask con entry.
  (** nonlocalAssembly_{SCALAR}.pxi:1555-1602 *)
  Definition entry_union (I J : nat) (cellsUnion : list nat) (st : estate) : res estate :=
    for_list cellsUnion (fun c1 '(lm, con, entry) =>
      for_list cellsUnion (entry_pair I J c1) (setCell1 c1 lm, con, entry)) st.
  (** nonlocalAssembly_{SCALAR}.pxi:1628-1643 *)
  Definition entry_rest (I J : nat) (cellsUnion : list nat) (st : estate) : res estate :=
    for_list cellsUnion (fun c1 '(lm, con, entry) =>
      for_list (filter (fun c => negb (existsb (Nat.eqb c) cellsUnion)) (seq 0 nc)) (fun c2 '(lm, con, entry) =>
        let lm := setCell2 c2 lm in
        mask <- entry_mask B (2 * dm_dpe dm) (cells_dof dm c1 c2) I J ;;
        if (getPanelType L lm =? IGNORED)%Z then Ok (lm, con, entry) else eval_extract 1 lm (ALL B) mask con entry)
        (setCell1 c1 lm, con, entry)) st.
  (** nonlocalAssembly_{SCALAR}.pxi:1616-1625 and 1650-1660; [ns] facets *)
  Definition entry_surface (E : double_local) (ns : nat) (I J : nat) (cellsInter : list nat) (st : estate) : res estate :=
    for_list cellsInter (fun c1 '(lm, con, entry) =>
      let lm := setCell1 c1 lm in
      mask <- entry_mask B (dm_dpe dm) (cell_dof dm c1) I J ;;
      for_range 0 ns (fun c2 '(lm, con, entry) =>
        let lm := setCell2 c2 lm in
        con <- dl_eval E lm (getPanelType E lm) (ALL B) con ;;
        s <- extract_masked (dm_dpe dm) con 1 mask ;;
        Ok (lm, con, (entry + s)%Qc)) (lm, con, entry)) st.

  (** DoFMaps.pyx:1109-1122: the cells of a degree of freedom (the set that the loop builds) *)
  Definition d2c (I : nat) : list nat := filter (fun c => existsb (fun d => (d =? Z.of_nat I)%Z) (nth c (dm_dofs dm) [])) (seq 0 nc).
  Definition cells_union (I J : nat) : list nat := filter (fun c => existsb (Nat.eqb c) (d2c I) || existsb (Nat.eqb c) (d2c J)) (seq 0 nc).
  Definition cells_inter (I J : nat) : list nat := filter (fun c => existsb (Nat.eqb c) (d2c I) && existsb (Nat.eqb c) (d2c J)) (seq 0 nc).

  (** nonlocalAssembly_{SCALAR}.pxi:1539-1661. [variable]: kernel.variable; [ext]: local_matrix_zeroExterior with
      contribZeroExterior, if zeroExterior is set; [surface]: the numbers of facets of the boundary of a set of cells (for kernels that are not
      variable) and of the domain. *)
  Definition getEntry (variable : bool) (lm : lmstate) (con : buf Qc)
      (ext : option ((list nat -> double_local * nat) * (double_local * nat) * lmstate * buf Qc)) (I J : nat) : res Qc :=
    '(lm, con, entry) <- entry_union I J (cells_union I J) (lm, con, 0%Qc) ;;
    '(_, _, entry) <- (if variable then entry_rest I J (cells_union I J) (lm, con, entry) else Ok (lm, con, entry)) ;;
    match ext with
    | None => Ok entry
    | Some (boundary, whole, lmE, conE) =>
        let '(E, ns) := if variable then whole else boundary (cells_union I J) in
        '(_, _, entry) <- entry_surface E ns I J (cells_inter I J) (setMesh2 lmE, conE, entry) ;;
        Ok entry
    end.
End Entry.

(** ** The near field pattern *)

(** nonlocalAssembly_{SCALAR}.pxi:3226-3290 without myRoot, for one value per entry; a pair of
    clusters is given by its two sets of degrees of freedom *)
Definition near_arrays (symmetric : bool) (num_dofs : nat) (Pdofs : list (list nat * list nat)) : res (list nat * list nat) :=
  sP <- for_list Pdofs (fun '(dofs1, dofs2) sP =>
    for_list dofs1 (fun I sP =>
      for_list dofs2 (fun J sP =>
        if symmetric then if J <? I then add_pair I J sP else Ok sP else add_pair I J sP) sP) sP) (new_pattern num_dofs) ;;
  freeze sP.
(** symmetric=False; the constructor makes the matrix square (CSR_LinearOperator_{SCALAR}.pxi:9-19) *)
Definition getSparseNearField (num_dofs : nat) (Pdofs : list (list nat * list nat)) : res csr :=
  '(indptr, indices) <- near_arrays false num_dofs Pdofs ;;
  Ok (CSR (length indptr - 1) indptr indices (repeat 0%Qc (length indices))).
(** symmetric=True *)
Definition getSparseNearField_sym (num_dofs : nat) (Pdofs : list (list nat * list nat)) : res sss :=
  '(indptr, indices) <- near_arrays true num_dofs Pdofs ;;
  Ok (SSS indptr indices (repeat 0%Qc (length indices)) (repeat 0%Qc num_dofs)).
(** The two steps (nonlocalAssembly_{SCALAR}.pxi:1160-1233 without comm and dm2) *)
Definition sparse_operator (B : nat) (dm : dofmap) (nc : nat) (L : double_local) (lm : lmstate) (con : buf Qc)
    (Pcells Pdofs : list (list nat * list nat)) : res csr :=
  A <- getSparseNearField (dm_num dm) Pdofs ;;
  getSparse csr_addToEntry B dm nc L lm con Pcells A.
Definition sparse_operator_sym (B : nat) (dm : dofmap) (nc : nat) (L : double_local) (lm : lmstate) (con : buf Qc)
    (Pcells Pdofs : list (list nat * list nat)) : res sss :=
  A <- getSparseNearField_sym (dm_num dm) Pdofs ;;
  getSparse sss_addToEntry B dm nc L lm con Pcells A.
