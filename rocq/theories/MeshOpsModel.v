(** Model of operations that renumber the vertices of a mesh
    (fem/PyNucleus_fem/meshCy.pyx, fem/PyNucleus_fem/mesh.py).

    Simplifications: coordinates are exact, numbers of vertices and tags are integers
    without overflow. The attributes that a mesh object may lack ([hasattr]) are
    options. Attributes that are not renumbered (tags of edges and faces, the simplex
    mapper, the mesh transformer) are left out. *)
From Verif Require Import Util Lin MeshModel.

Record mesh := Mesh {
  m_vertices : list (list Qc);
  m_cells : list (list Z);
  m_dim : nat;
  m_manifold_dim : nat;
  m_boundaryVertices : option (list Z);
  m_boundaryVertexTags : option (list Z);
  m_boundaryEdges : option (list (list Z));
  m_boundaryFaces : option (list (list Z));
  m_interiorVertices : option (list Z)
}.

(** Indexing with a signed number; wraparound is switched off (fem/setup.py:21), a
    negative index is out of bounds. *)
Definition zget {A} (l : list A) (z : Z) : res A := if (z <? 0)%Z then Err EOob else aget l (Z.to_nat z).
Definition zset {A} (l : list A) (z : Z) (x : A) : res (list A) := if (z <? 0)%Z then Err EOob else aset l (Z.to_nat z) x.

Definition set2 {A} (l : list (list A)) (i j : nat) (x : A) : res (list (list A)) :=
  r <- aget l i ;; r <- aset r j x ;; aset l i r.

(** meshCy.pyx:598-604: numbers for the vertices in use *)
Definition number_vertices (w : nat) (cells : list (list Z)) (num_vertices : nat) : res (list Z * nat) :=
  for_range 0 (length cells) (fun i st =>
    for_range 0 w (fun j st =>
      let '(mapping, k) := st in
      v <- get2 cells i j ;;
      mv <- zget mapping v ;;
      if (mv =? -1)%Z then mapping <- zset mapping v (Z.of_nat k) ;; Ok (mapping, S k)
      else Ok (mapping, k)) st) (repeat (-1)%Z num_vertices, 0).

(** meshCy.pyx:605-611 *)
Definition kept_vertices (dim : nat) (vertices : list (list Qc)) (mapping : list Z) (k : nat) : res (list (list Qc)) :=
  new_vertices <- for_range 0 (length mapping) (fun i new =>
     k <- aget mapping i ;;
     if (k =? -1)%Z then Ok new
     else for_range 0 dim (fun j new => x <- get2 vertices i j ;; wr2 new (Z.to_nat k) j x) new) (alloc2 k dim) ;;
  all_init2 new_vertices.

(** meshCy.pyx:614-618 *)
Definition renumbered_cells (w : nat) (cells : list (list Z)) (mapping : list Z) : res (list (list Z)) :=
  new_cells <- for_range 0 (length cells) (fun i new =>
     for_range 0 w (fun j new => v <- get2 cells i j ;; m <- zget mapping v ;; wr2 new i j m) new) (alloc2 (length cells) w) ;;
  all_init2 new_cells.

(** meshCy.pyx:622-642 *)
Definition kept_boundaryVertices (boundaryVertices boundaryVertexTags mapping : list Z) : res (list Z * list Z) :=
  n <- for_range 0 (length boundaryVertices) (fun i n =>
     v <- aget boundaryVertices i ;; j <- zget mapping v ;;
     Ok (if (j =? -1)%Z then n else S n)) 0 ;;
  '(bv, bt, _) <- for_range 0 (length boundaryVertices) (fun i st =>
     let '(bv, bt, k) := st in
     v <- aget boundaryVertices i ;; j <- zget mapping v ;;
     if (j =? -1)%Z then Ok (bv, bt, k)
     else
       bv <- wr bv k j ;;
       t <- aget boundaryVertexTags i ;;
       bt <- wr bt k t ;;
       Ok (bv, bt, S k)) (alloc n, alloc n, 0) ;;
  bv <- all_init bv ;; bt <- all_init bt ;; Ok (bv, bt).

(** meshCy.pyx:644-648 and 649-653: in place *)
Definition map_rows (w : nat) (rows : list (list Z)) (mapping : list Z) : res (list (list Z)) :=
  for_range 0 (length rows) (fun i rows =>
    for_range 0 w (fun j rows => v <- get2 rows i j ;; m <- zget mapping v ;; set2 rows i j m) rows) rows.

(** mesh.py:1687-1692: the tags, zero if there are none yet *)
Definition vertex_tags (m : mesh) (boundaryVertices : list Z) : list Z :=
  match m_boundaryVertexTags m with
  | Some t => t
  | None => map (fun _ => 0%Z) boundaryVertices
  end.

Definition opt {A} (f : A -> res A) (o : option A) : res (option A) :=
  match o with
  | Some a => a <- f a ;; Ok (Some a)
  | None => Ok None
  end.

(** meshCy.pyx:585-655 *)
Definition removeUnusedVertices (m : mesh) : res mesh :=
  let w := m_manifold_dim m + 1 in
  '(mapping, k) <- number_vertices w (m_cells m) (length (m_vertices m)) ;;
  vertices <- kept_vertices (m_dim m) (m_vertices m) mapping k ;;
  cells <- renumbered_cells w (m_cells m) mapping ;;
  b <- match m_boundaryVertices m with
       | Some bv => b <- kept_boundaryVertices bv (vertex_tags m bv) mapping ;; Ok (Some (fst b), Some (snd b))
       | None => Ok (None, m_boundaryVertexTags m)
       end ;;
  be <- opt (fun l => map_rows 2 l mapping) (m_boundaryEdges m) ;;
  bf <- opt (fun l => map_rows 3 l mapping) (m_boundaryFaces m) ;;
  Ok (Mesh vertices cells (m_dim m) (m_manifold_dim m) (fst b) (snd b) be bf None).

(** numpy: [x[idx] = np.arange(n)], [x[idx]] for index arrays of one and two
    dimensions (negative numbers do not occur) *)
Definition scatter (idx : list nat) (n : nat) : res (list Z) :=
  x <- for_range 0 (length idx) (fun i x => j <- aget idx i ;; wr x j (Z.of_nat i)) (alloc n) ;;
  all_init x.
Fixpoint gather {A} (x : list A) (idx : list Z) : res (list A) :=
  match idx with
  | [] => Ok []
  | j :: idx => a <- zget x j ;; r <- gather x idx ;; Ok (a :: r)
  end.
Fixpoint gather2 (x : list Z) (rows : list (list Z)) : res (list (list Z)) :=
  match rows with
  | [] => Ok []
  | r :: rows => r <- gather x r ;; rows <- gather2 x rows ;; Ok (r :: rows)
  end.

(** mesh.py:2070-2080; [invidx[idx] = np.arange(num_vertices)] needs as many indices
    as there are vertices *)
Definition reorderVertices (m : mesh) (idx : list nat) : res mesh :=
  _ <- guard (length idx =? length (m_vertices m)) EValue ;;
  invidx <- scatter idx (length idx) ;;
  vertices <- gather (m_vertices m) (map Z.of_nat idx) ;;
  bv <- opt (gather invidx) (m_boundaryVertices m) ;;
  be <- opt (gather2 invidx) (m_boundaryEdges m) ;;
  be <- match m_boundaryFaces m with
        | Some _ => match be with
                    | Some e => e <- gather2 invidx e ;; Ok (Some e)
                    | None => Err EKey
                    end
        | None => Ok be
        end ;;
  cells <- gather2 invidx (m_cells m) ;;
  Ok (Mesh vertices cells (m_dim m) (m_manifold_dim m) bv (m_boundaryVertexTags m) be (m_boundaryFaces m) (m_interiorVertices m)).
