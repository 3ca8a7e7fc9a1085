(** Model of DoFMaps made from a DoFMap: restrictions to sub-domains, complements,
    unions and the operators between them.
    fem/PyNucleus_fem/DoFMaps.pyx (cited as DM) and fem/PyNucleus_fem/splitting.pyx (cited as SP).

    Simplifications, used throughout this file.
    - Of a DoFMap only the number of cells of its mesh, dofs_per_element, the
      array dofs, num_dofs and num_boundary_dofs are kept.
    - The DoFMaps [type(dm)(mesh, ...)] whose dofs are overwritten start with an
      array that has not been written; reading it would be an error.
    - A dict is the list of its items; every key is entered once.
    - Values are exact rationals.
    - Indicators are finite element vectors; that of a function is interpolated
      first (DM:328-331, 2303-2304). *)
From Verif Require Import Util Lin CSRModel.
Local Open Scope Z_scope.

Record dofmap := DM { num_cells : nat; dofs_per_element : nat; dofs : list Z; num_dofs : Z; num_boundary_dofs : Z }.

(** dofs[cellNo, dofNo] as an offset in the array *)
Definition at_pos (nc dpe i k : nat) : res nat :=
  if ((i <? nc) && (k <? dpe))%nat then Ok (i * dpe + k)%nat else Err EOob.
(** DM:382-386 *)
Definition cell2dof (dm : dofmap) (i k : nat) : res Z :=
  p <- at_pos (num_cells dm) (dofs_per_element dm) i k ;; aget (dofs dm) p.
(** A number used as an index *)
Definition zidx (z : Z) : res nat := if z <? 0 then Err EOob else Ok (Z.to_nat z).
Definition positive (v : Qc) : bool := negb (Qle_bool v 0).

Definition dict := list (Z * Z).
Fixpoint lookup (d : dict) (x : Z) : option Z :=
  match d with [] => None | (y, v) :: d => if y =? x then Some v else lookup d x end.
(** old2new or assigned_dofs, dofNew, dofNewBoundary, and the array that is written *)
Definition nstate := (dict * Z * Z * list (option Z))%type.
(** DM:366-378, SP:66-77, 90-101: [try: a[p] = d[dof]  except KeyError: ...] *)
Definition number (cond : Z -> res bool) (dof : Z) (p : nat) (st : nstate) : res nstate :=
  let '(d, n, b, a) := st in
  match lookup d dof with
  | Some v => a' <- wr a p v ;; Ok (d, n, b, a')
  | None =>
      c <- cond dof ;;
      if (c : bool) then a' <- wr a p n ;; Ok ((dof, n) :: d, n + 1, b, a')
      else a' <- wr a p b ;; Ok ((dof, b) :: d, n, b - 1, a')
  end.
Definition new_map (nc dpe : nat) (st : nstate) : res dofmap :=
  let '(_, n, b, a) := st in l <- all_init a ;; Ok (DM nc dpe l n (- b - 1)).
Definition start (nc dpe : nat) : nstate := ([], 0, -1, alloc (nc * dpe)).

(** dofOld >= 0 and ind[dofOld] > 0 *)
Definition indicated (ind : list Qc) (dof : Z) : res bool :=
  if 0 <=? dof then v <- aget ind (Z.to_nat dof) ;; Ok (positive v) else Ok false.
(** resetUsingFEVector, DM:358-380 *)
Definition resetUsingFEVector (dm : dofmap) (ind : list Qc) : res dofmap :=
  let nc := num_cells dm in let dpe := dofs_per_element dm in
  st <- for_range 0 nc (fun i st => for_range 0 dpe (fun k st =>
    dof <- cell2dof dm i k ;; p <- at_pos nc dpe i k ;; number (indicated ind) dof p st) st) (start nc dpe) ;;
  new_map nc dpe st.

(** getSubMap, DM:2302-2337 *)
Definition getSubMap (dm : dofmap) (ind : list Qc) : res dofmap :=
  let nc := num_cells dm in let dpe := dofs_per_element dm in
  _ <- guard (Z.of_nat (length ind) =? num_dofs dm) EAssert ;;
  st <- for_range 0 nc (fun i st => for_range 0 dpe (fun k '(d, n, b, a) =>
    dof <- cell2dof dm i k ;; p <- at_pos nc dpe i k ;;
    c <- indicated ind dof ;;
    match lookup d dof with
    | Some v => a' <- wr a p v ;; Ok (d, n, b, a')
    | None => if (c : bool) then a' <- wr a p n ;; Ok ((dof, n) :: d, n + 1, b, a')
              else a' <- wr a p b ;; Ok ((dof, b) :: d, n, b - 1, a')
    end) st) (start nc dpe) ;;
  new_map nc dpe st.

(** meshSplitter.getSubMap, SP:58-80; [sel] is selectedCells[label] *)
Definition splitter_getSubMap (dm : dofmap) (sel : list nat) : res dofmap :=
  let nc := length sel in let dpe := dofs_per_element dm in
  st <- for_range 0 nc (fun i st => for_range 0 dpe (fun k st =>
    c <- aget sel i ;; dof <- cell2dof dm c k ;; p <- at_pos nc dpe i k ;; number (fun dof => Ok (0 <=? dof)) dof p st) st) (start nc dpe) ;;
  new_map nc dpe st.

(** meshSplitter.getSubMapOnFullMesh, SP:82-113.  The cells are only selected by
    getSubMesh(label), SP:51; before, self.selectedCells[label] is missing. *)
Definition splitter_getSubMapOnFullMesh (dm : dofmap) (selectedCells : option (list nat)) : res dofmap :=
  let nc := num_cells dm in let dpe := dofs_per_element dm in
  sel <- (match selectedCells with Some sel => Ok sel | None => Err EKey end) ;;
  st <- for_list sel (fun i st => for_range 0 dpe (fun k st =>
    dof <- cell2dof dm i k ;; p <- at_pos nc dpe i k ;; number (fun dof => Ok (0 <=? dof)) dof p st) st) (start nc dpe) ;;
  st <- for_range 0 nc (fun i st => for_range 0 dpe (fun k st =>
    dof <- cell2dof dm i k ;; p <- at_pos nc dpe i k ;; number (fun _ => Ok false) dof p st) st) st ;;
  new_map nc dpe st.

(** [for dofNo in range(dofs_per_element): if cell2dof(cellNo, dofNo) >= 0: ... break] *)
Fixpoint has_dof (dm : dofmap) (i : nat) (ks : list nat) : res bool :=
  match ks with
  | [] => Ok false
  | k :: ks => dof <- cell2dof dm i k ;; if 0 <=? dof then Ok true else has_dof dm i ks
  end.
(** dofmapSplitter.getSubMesh, SP:196-204, and getReducedMeshDoFMap, DM:1425-1434 *)
Definition selectCells (dm : dofmap) : res (list nat) :=
  for_range 0 (num_cells dm) (fun i l => h <- has_dof dm i (seq 0 (dofs_per_element dm)) ;; Ok (if (h : bool) then l ++ [i] else l)) [].
(** dofmapSplitter.getSubMapOnSubMesh, SP:210-229, and getReducedMeshDoFMap, DM:1447-1463 *)
Definition onSubMesh (dm : dofmap) (sel : list nat) : res dofmap :=
  let nc := length sel in let dpe := dofs_per_element dm in
  '(_, b, a) <- for_range 0 nc (fun i st => for_range 0 dpe (fun k '(d, b, a) =>
    c <- aget sel i ;; dof <- cell2dof dm c k ;; p <- at_pos nc dpe i k ;;
    if dof <? 0 then
      match lookup d dof with
      | Some v => a' <- wr a p v ;; Ok (d, b, a')
      | None => a' <- wr a p b ;; Ok ((dof, b) :: d, b - 1, a')
      end
    else a' <- wr a p dof ;; Ok (d, b, a')) st) ([], -1, alloc (nc * dpe)) ;;
  l <- all_init a ;;
  Ok (DM nc dpe l (num_dofs dm) (- b - 1)).
Definition getSubMapOnSubMesh (dm : dofmap) : res dofmap := sel <- selectCells dm ;; onSubMesh dm sel.
(** getReducedMeshDoFMap with selectedCells given: the check DM:1436-1443 *)
Definition getReducedMeshDoFMap (dm : dofmap) (selectedCells : option (list nat)) : res dofmap :=
  match selectedCells with
  | None => getSubMapOnSubMesh dm
  | Some sel =>
      dofCheck <- for_list sel (fun c a => for_range 0 (dofs_per_element dm) (fun k a =>
        dof <- cell2dof dm c k ;; if 0 <=? dof then aset a (Z.to_nat dof) true else Ok a) a) (repeat false (Z.to_nat (num_dofs dm))) ;;
      _ <- guard (forallb (fun x => x) dofCheck) EAssert ;;
      onSubMesh dm sel
  end.

(** getComplementDoFMap, DM:1170-1184 *)
Definition getComplementDoFMap (dm : dofmap) : res dofmap :=
  let nc := num_cells dm in let dpe := dofs_per_element dm in
  a <- for_range 0 nc (fun i a => for_range 0 dpe (fun k a =>
    p <- at_pos nc dpe i k ;; v <- aget a p ;; aset a p (- v - 1)) a) (dofs dm) ;;
  Ok (DM nc dpe a (num_boundary_dofs dm) (num_dofs dm)).

(** combine, DM:1563-1588; both on the same mesh *)
Definition combine_maps (dm1 dm2 : dofmap) : res dofmap :=
  let nc := num_cells dm1 in let dpe := dofs_per_element dm1 in
  _ <- guard (num_dofs dm1 =? num_boundary_dofs dm2) EAssert ;;
  _ <- guard (num_boundary_dofs dm1 =? num_dofs dm2) EAssert ;;
  a <- for_range 0 nc (fun i a => for_range 0 dpe (fun k a =>
    p <- at_pos nc dpe i k ;; dof1 <- cell2dof dm1 i k ;; dof2 <- cell2dof dm2 i k ;;
    if (0 <=? dof1) && (dof2 <? 0) then aset a p dof1
    else if (dof1 <? 0) && (0 <=? dof2) then aset a p (num_dofs dm1 + dof2)
    else Err ENotImpl) a) (dofs dm1) ;;
  Ok (DM nc dpe a (num_dofs dm1 + num_dofs dm2) 0).

(** Operators with one entry, 1, in each row:
    CSR_LinearOperator(indices, arange(n+1), ones(n)); num_columns = m *)
Definition selection (n m : Z) (indices : list (option Z)) : res csr :=
  l <- all_init indices ;;
  cols <- for_list l (fun z c => j <- zidx z ;; Ok (c ++ [j])) [] ;;
  Ok (CSR (Z.to_nat m) (seq 0 (Z.to_nat n + 1)) cols (repeat 1%Qc (Z.to_nat n))).

(** getFullDoFMap, DM:1256-1287; [full] is the DoFMap with tag=MAX_INT *)
Definition getFullDoFMap (dm full : dofmap) : res (csr * csr) :=
  let nc := num_cells dm in let dpe := dofs_per_element dm in
  '(ind, indbc) <- for_range 0 nc (fun i st => for_range 0 dpe (fun k '(ind, indbc) =>
    dof <- cell2dof dm i k ;; dof2 <- cell2dof full i k ;;
    if 0 <=? dof then ind' <- wr ind (Z.to_nat dof) dof2 ;; Ok (ind', indbc)
    else j <- zidx (- dof - 1) ;; indbc' <- wr indbc j dof2 ;; Ok (ind, indbc')) st)
    (repeat (Some 0) (Z.to_nat (num_dofs dm)), repeat (Some 0) (Z.to_nat (num_boundary_dofs dm))) ;;
  R <- selection (num_dofs dm) (num_dofs full) ind ;;
  Rbc <- selection (num_boundary_dofs dm) (num_dofs full) indbc ;;
  Ok (R, Rbc).

(** augmentWithZero, DM:1186-1201, and augmentWithBoundaryData, DM:1203-1254 (real values) *)
Definition augment (dm full : dofmap) (x : list Qc) (boundary : Z -> res Qc) : res (list Qc) :=
  let nc := num_cells dm in let dpe := dofs_per_element dm in
  y <- for_range 0 nc (fun i y => for_range 0 dpe (fun k y =>
    dof <- cell2dof dm i k ;; dof2 <- cell2dof full i k ;;
    j <- zidx dof2 ;;
    if 0 <=? dof then v <- aget x (Z.to_nat dof) ;; wr y j v
    else v <- boundary dof ;; wr y j v) y) (alloc (Z.to_nat (num_dofs full))) ;;
  all_init y.
Definition augmentWithZero (dm full : dofmap) (x : list Qc) : res (list Qc) := augment dm full x (fun _ => Ok 0%Qc).
Definition augmentWithBoundaryData (dm full : dofmap) (x boundaryData : list Qc) : res (list Qc) :=
  augment dm full x (fun dof => j <- zidx (- dof - 1) ;; aget boundaryData j).

(** getSubMapRestrictionProlongation2, DM:2387-2407, called by
    meshSplitter.getRestrictionProlongation, SP:115-121 *)
Definition getSubMapRestrictionProlongation2 (dm sub : dofmap) (newCellIndices : list Z) : res csr :=
  ind <- for_range 0 (num_cells dm) (fun c ind =>
    new <- aget newCellIndices c ;;
    if 0 <=? new then
      for_range 0 (dofs_per_element dm) (fun k ind =>
        dofNew <- cell2dof sub (Z.to_nat new) k ;;
        if 0 <=? dofNew then dof <- cell2dof dm c k ;; wr ind (Z.to_nat dofNew) dof else Ok ind) ind
    else Ok ind) (alloc (Z.to_nat (num_dofs sub))) ;;
  selection (num_dofs sub) (num_dofs dm) ind.
Definition splitter_getRestrictionProlongation (dm sub : dofmap) (sel : list nat) : res (csr * csr) :=
  cellIndices <- for_range 0 (length sel) (fun i a => c <- aget sel i ;; aset a c (Z.of_nat i)) (repeat (-1) (num_cells dm)) ;;
  R <- getSubMapRestrictionProlongation2 dm sub cellIndices ;;
  P <- csr_transpose R ;;
  Ok (R, P).

(** getSubMapRestrictionProlongation, DM:2340-2384.  The two loops without indicator
    go through the same positions; the first only counts. *)
Definition restriction_loop (dm sub : dofmap) {A} (f : Z -> Z -> A -> res A) (s : A) : res (list Z * nat * A) :=
  for_range 0 (num_cells dm) (fun i st => for_range 0 (dofs_per_element dm) (fun k '(added, cnt, s) =>
    dof <- cell2dof dm i k ;; dofSub <- cell2dof sub i k ;;
    if (0 <=? dof) && (0 <=? dofSub) && negb (existsb (Z.eqb dofSub) added) then
      s' <- f dofSub dof s ;; Ok (dofSub :: added, S cnt, s')
    else Ok (added, cnt, s)) st) ([], O, s).
Definition getSubMapRestrictionProlongation (dm sub : dofmap) (indicator : option (list Qc)) : res (csr * csr) :=
  R <- (match indicator with
        | Some v =>
            '(_, ind) <- for_range 0 (Z.to_nat (num_dofs dm)) (fun i '(k, ind) =>
              w <- aget v i ;; if positive w then ind' <- wr ind k (Z.of_nat i) ;; Ok (S k, ind') else Ok (k, ind))
              (O, repeat (Some 0) (Z.to_nat (num_dofs sub))) ;;
            selection (num_dofs sub) (num_dofs dm) ind
        | None =>
            _ <- guard (num_cells dm =? num_cells sub)%nat EAssert ;;
            '(_, cnt, _) <- restriction_loop dm sub (fun _ _ (u : unit) => Ok u) tt ;;
            '(_, _, ind) <- restriction_loop dm sub (fun dofSub dof ind => wr ind (Z.to_nat dofSub) dof) (repeat (Some 0) cnt) ;;
            (* data has cnt entries, indptr num_dofs(sub)+1 *)
            R <- selection (Z.of_nat cnt) (num_dofs dm) ind ;;
            Ok (CSR (c_ncols R) (seq 0 (Z.to_nat (num_dofs sub) + 1)) (c_indices R) (c_data R))
        end) ;;
  P <- csr_transpose R ;;
  Ok (R, P).

(** Product_DoFMap.getRestrictionProlongation, DM:2548-2569 *)
Definition product_getRestrictionProlongation (dm scalar : dofmap) (numComponents component : nat) : res (csr * csr) :=
  _ <- guard (component <? numComponents)%nat EAssert ;;
  ind <- for_range 0 (num_cells dm) (fun i ind => for_range 0 (dofs_per_element scalar) (fun k ind =>
    dof <- cell2dof dm i (k * numComponents + component) ;;
    if 0 <=? dof then c <- cell2dof scalar i k ;; j <- zidx c ;; wr ind j dof else Ok ind) ind)
    (alloc (Z.to_nat (num_dofs scalar))) ;;
  R <- selection (num_dofs scalar) (num_dofs dm) ind ;;
  P <- csr_transpose R ;;
  Ok (R, P).
