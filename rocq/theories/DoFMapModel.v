(** Model of the numbering of the degrees of freedom (DoFs) of a finite element space
    (fem/PyNucleus_fem/DoFMaps.pyx, DoFMap.__init__).

    Simplifications: integers do not overflow. The tuple dictionary for the edges is an
    association list; that the real one behaves like a finite map is C01 (up to the
    number of entries per row, C03). The dictionary for the faces is an association list
    too, entries are deleted when they are hit (deleteHits=True). The boundary vertices,
    edges and faces of the requested tags are arguments, a tag given by a function
    (resetUsingIndicator) is not modelled. The array of the local DoF numbers is a list
    of rows. *)
From Verif Require Import Util Lin MeshModel.

(** base/PyNucleus_base/blas.pyx:14 *)
Definition MAX_INT : Z := 2147483647.

Definition face := (nat * nat * nat)%type.
Definition face_eqb (f g : face) : bool :=
  let '(a, b, c) := f in let '(x, y, z) := g in (a =? x) && (b =? y) && (c =? z).

(** DoFMaps.pyx:88-109 *)
Definition vertices_per_element (manifold_dim : nat) : nat := manifold_dim + 1.
Definition edges_per_element (manifold_dim : nat) : nat := match manifold_dim with 2 => 3 | 3 => 6 | _ => 0 end.
Definition faces_per_element (manifold_dim : nat) : nat := match manifold_dim with 3 => 4 | _ => 0 end.

(** [for j in range(j0, j0+n): dofs[i, j] = dof; dof += step] *)
Definition write_run (row : list Z) (j0 n : nat) (dof step : Z) : res (list Z) :=
  '(row, _) <- for_range j0 (j0 + n) (fun j st =>
     let '(row, dof) := st in row <- aset row j dof ;; Ok (row, (dof + step)%Z)) (row, dof) ;;
  Ok row.

(** tupleDict.enterValue with deleteHits=False (base/PyNucleus_base/tupleDict_{VALUE}.pxi,
    see TupleDictModel) and faceVals.enterValue with deleteHits=True
    (meshCy.pyx:2052-2101): returns the value the key has afterwards or had before *)
Definition enter_edge (eV : list (edge * Z)) (e : edge) (val : Z) : Z * list (edge * Z) :=
  match dget edge_eqb eV e with Ok v => (v, eV) | Err _ => (val, dset edge_eqb eV e val) end.
Definition enter_face (fV : list (face * Z)) (f : face) (val : Z) : res (Z * list (face * Z)) :=
  match dget face_eqb fV f with
  | Ok v => fV <- ddel face_eqb fV f ;; Ok (v, fV)
  | Err _ => Ok (val, dset face_eqb fV f val)
  end.

(** DoFMaps.pyx:187-212: the vertices of cell i *)
Definition vertex_dofs (dpv vpe : nat) (assign : bool) (c : list nat) (st : list Z * list Z * Z) : res (list Z * list Z * Z) :=
  for_range 0 vpe (fun k st =>
    let '(vertices, row, numDoFs) := st in
    v <- aget c k ;;
    dof <- aget vertices v ;;
    if negb (dof =? MAX_INT)%Z then
      row <- write_run row (k * dpv) dpv dof (if (0 <=? dof)%Z then 1 else -1)%Z ;;
      Ok (vertices, row, numDoFs)
    else if assign then
      vertices <- aset vertices v numDoFs ;;
      row <- write_run row (k * dpv) dpv numDoFs 1 ;;
      Ok (vertices, row, (numDoFs + Z.of_nat dpv)%Z)
    else Ok (vertices, row, numDoFs)) st.

(** DoFMaps.pyx:215-229: the sorted edges of a cell and their orientations *)
Definition cell_edges (manifold_dim : nat) (c : list nat) : res (list (edge * Z)) :=
  c0 <- aget c 0 ;; c1 <- aget c 1 ;; c2 <- aget c 2 ;;
  let d := fun a b => (Z.of_nat a - Z.of_nat b)%Z in
  let es := [(sortE c0 c1, d c1 c0); (sortE c1 c2, d c2 c1); (sortE c0 c2, d c0 c2)] in
  if manifold_dim =? 3 then
    c3 <- aget c 3 ;;
    Ok (es ++ [(sortE c0 c3, d c3 c0); (sortE c1 c3, d c3 c1); (sortE c2 c3, d c3 c2)])
  else Ok es.

(** DoFMaps.pyx:231-271 *)
Definition edge_dofs (dpe epe base : nat) (assign : bool) (es : list (edge * Z)) (st : list (edge * Z) * list Z * Z) : res (list (edge * Z) * list Z * Z) :=
  for_range 0 epe (fun k st =>
    let '(eV, row, numDoFs) := st in
    '(e, o) <- aget es k ;;
    let '(dof, eV) := enter_edge eV e numDoFs in
    if (dof =? numDoFs)%Z then
      let dof := if (o <? 0)%Z then (dof + (Z.of_nat dpe - 1))%Z else dof in
      if assign then
        row <- write_run row (base + k * dpe) dpe dof (if (o <? 0)%Z then -1 else 1)%Z ;;
        Ok (eV, row, (numDoFs + Z.of_nat dpe)%Z)
      else eV <- ddel edge_eqb eV e ;; Ok (eV, row, numDoFs)
    else if (0 <=? dof)%Z then
      let dof := if (o <? 0)%Z then (dof + (Z.of_nat dpe - 1))%Z else dof in
      row <- write_run row (base + k * dpe) dpe dof (if (o <? 0)%Z then -1 else 1)%Z ;;
      Ok (eV, row, numDoFs)
    else
      let dof := if (o <? 0)%Z then (dof + (Z.of_nat dpe - 1))%Z else dof in
      row <- write_run row (base + k * dpe) dpe dof (if (o <? 0)%Z then 1 else -1)%Z ;;
      Ok (eV, row, numDoFs)) st.

(** DoFMaps.pyx:274-278 *)
Definition cell_faces (c : list nat) : res (list face) :=
  c0 <- aget c 0 ;; c1 <- aget c 1 ;; c2 <- aget c 2 ;; c3 <- aget c 3 ;;
  Ok [sortFace Nat.ltb c0 c1 c2; sortFace Nat.ltb c0 c1 c3; sortFace Nat.ltb c1 c2 c3; sortFace Nat.ltb c0 c2 c3].

(** DoFMaps.pyx:279-307 *)
Definition face_dofs (dpf fpe base : nat) (assign : bool) (fs : list face) (st : list (face * Z) * list Z * Z) : res (list (face * Z) * list Z * Z) :=
  for_range 0 fpe (fun k st =>
    let '(fV, row, numDoFs) := st in
    f <- aget fs k ;;
    '(dof, fV) <- enter_face fV f numDoFs ;;
    if (dof =? numDoFs)%Z then
      if assign then
        row <- write_run row (base + k * dpf) dpf dof 1 ;;
        Ok (fV, row, (numDoFs + Z.of_nat dpf)%Z)
      else Ok (fV, row, numDoFs)
    else if (0 <=? dof)%Z then
      row <- write_run row (base + k * dpf) dpf (dof + (Z.of_nat dpf - 1))%Z (-1) ;;
      Ok (fV, row, numDoFs)
    else
      row <- write_run row (base + k * dpf) dpf dof (-1) ;;
      Ok (fV, row, numDoFs)) st.

(** DoFMaps.pyx:159-179: the DoFs on the boundary *)
Definition boundary_vertex_dofs (dpv manifold_dim num_vertices : nat) (bv : list nat) (numBdofs : Z) : res (list Z * Z) :=
  let vertices := repeat MAX_INT num_vertices in
  if (0 <? dpv) && (0 <? manifold_dim) then
    for_list bv (fun v st => let '(vertices, b) := st in
      vertices <- aset vertices v b ;; Ok (vertices, (b - Z.of_nat dpv)%Z)) (vertices, numBdofs)
  else Ok (vertices, numBdofs).
Definition boundary_edge_dofs (dpe : nat) (be : list (nat * nat)) (numBdofs : Z) : list (edge * Z) * Z :=
  if 0 <? dpe then
    fold_left (fun st e => let '(eV, b) := st in (snd (enter_edge eV (sortE (fst e) (snd e)) b), (b - Z.of_nat dpe)%Z)) be ([], numBdofs)
  else ([], numBdofs).
Definition boundary_face_dofs (dpf : nat) (bf : list face) (numBdofs : Z) : res (list (face * Z) * Z) :=
  if 0 <? dpf then
    for_list bf (fun f st => let '(fV, b) := st in let '(x, y, z) := f in
      '(_, fV) <- enter_face fV (sortFace Nat.ltb x y z) b ;; Ok (fV, (b - Z.of_nat dpf)%Z)) ([], numBdofs)
  else Ok ([], numBdofs).

(** DoFMaps.pyx:184-313: the DoFs of cell i *)
Definition cell_dofs (manifold_dim dpv dpe dpf dpc : nat) (assign : bool) (c : list nat)
    (st : list Z * list (edge * Z) * list (face * Z) * Z) : res (list Z * list (edge * Z) * list (face * Z) * Z * list Z) :=
  let '(vertices, eV, fV, numDoFs) := st in
  let vpe := vertices_per_element manifold_dim in
  let epe := edges_per_element manifold_dim in
  let fpe := faces_per_element manifold_dim in
  let dofs_per_element := vpe * dpv + epe * dpe + fpe * dpf + dpc in
  let row := repeat (- MAX_INT)%Z dofs_per_element in
  '(vertices, row, numDoFs) <- (if 0 <? dpv then vertex_dofs dpv vpe assign c (vertices, row, numDoFs) else Ok (vertices, row, numDoFs)) ;;
  '(eV, row, numDoFs) <- (if 0 <? dpe then
     es <- cell_edges manifold_dim c ;; edge_dofs dpe epe (vpe * dpv) assign es (eV, row, numDoFs)
     else Ok (eV, row, numDoFs)) ;;
  '(fV, row, numDoFs) <- (if 0 <? dpf then
     fs <- cell_faces c ;; face_dofs dpf fpe (vpe * dpv + epe * dpe) assign fs (fV, row, numDoFs)
     else Ok (fV, row, numDoFs)) ;;
  '(row, numDoFs) <- (if assign : bool then
     for_range (vpe * dpv + epe * dpe + fpe * dpf) dofs_per_element (fun k st =>
       let '(row, numDoFs) := st in row <- aset row k numDoFs ;; Ok (row, (numDoFs + 1)%Z)) (row, numDoFs)
     else Ok (row, numDoFs)) ;;
  Ok (vertices, eV, fV, numDoFs, row).

(** DoFMaps.pyx:68-314: local DoF numbers, num_dofs and num_boundary_dofs *)
Definition DoFMap (manifold_dim num_vertices : nat) (cells : list (list nat)) (bv : list nat) (be : list (nat * nat)) (bf : list face)
    (dofs_per_vertex dofs_per_edge dofs_per_face dofs_per_cell : nat) (skipCellsAfter : Z) : res (list (list Z) * Z * Z) :=
  _ <- guard (manifold_dim <=? 3) ENotImpl ;;
  '(vertices, b) <- boundary_vertex_dofs dofs_per_vertex manifold_dim num_vertices bv (-1) ;;
  let '(eV, b) := boundary_edge_dofs dofs_per_edge be b in
  '(fV, b) <- boundary_face_dofs dofs_per_face bf b ;;
  let num_boundary_dofs := (- b - 1)%Z in
  let skipCellsAfter := if (skipCellsAfter =? -1)%Z then Z.of_nat (length cells) else skipCellsAfter in
  '(_, _, _, numDoFs, dofs) <- for_range 0 (length cells) (fun i st =>
     let '(vertices, eV, fV, numDoFs, dofs) := st in
     c <- aget cells i ;;
     '(vertices, eV, fV, numDoFs, row) <- cell_dofs manifold_dim dofs_per_vertex dofs_per_edge dofs_per_face dofs_per_cell
        (Z.of_nat i <? skipCellsAfter)%Z c (vertices, eV, fV, numDoFs) ;;
     Ok (vertices, eV, fV, numDoFs, dofs ++ [row])) (vertices, eV, fV, 0%Z, []) ;;
  Ok (dofs, numDoFs, num_boundary_dofs).

(** DoFMaps.pyx:2514-2522 (Product_DoFMap.__init__): the rows of the vector valued space
    from those of the scalar space; [rows] is what DoFMap.__init__ has put there before.
    num_dofs is set to numComponents times that of the scalar space. *)
Definition product_dof (numComponents j : nat) (scalarDoF : Z) : Z :=
  if (0 <=? scalarDoF)%Z then (Z.of_nat numComponents * scalarDoF + Z.of_nat j)%Z
  else (Z.of_nat numComponents * (scalarDoF + 1) - Z.of_nat j - 1)%Z.
Definition product_row (numComponents : nat) (scalar_row row : list Z) : res (list Z) :=
  for_range 0 (length scalar_row) (fun dofNo row =>
    scalarDoF <- aget scalar_row dofNo ;;
    for_range 0 numComponents (fun j row => aset row (dofNo * numComponents + j) (product_dof numComponents j scalarDoF)) row) row.
Definition Product_DoFMap (numComponents : nat) (scalar_dofs : list (list Z)) (num_dofs : Z) (rows : list (list Z)) : res (list (list Z) * Z) :=
  rows <- for_range 0 (length scalar_dofs) (fun cellNo rows =>
    scalar_row <- aget scalar_dofs cellNo ;; row <- aget rows cellNo ;;
    row <- product_row numComponents scalar_row row ;;
    aset rows cellNo row) rows ;;
  Ok (rows, (Z.of_nat numComponents * num_dofs)%Z).
