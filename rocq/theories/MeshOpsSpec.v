(** Renumbering the vertices of a mesh. *)
From Verif Require Import Util Lin MeshOpsModel.

(** Rows of w numbers of vertices in use: rows' are the rows with vertex v called
    number v, where the vertices called 0, 1, 2, ... are U. *)
Definition renamed (U : list nat) (v v' : Z) : Prop :=
  exists k u, nth_error U k = Some u /\ v = Z.of_nat u /\ v' = Z.of_nat k.

Definition used (C : list (list Z)) (v : Z) : Prop := exists c, In c C /\ In v c.

(** Rows of w vertex numbers below n. *)
Definition rows_below (w n : nat) (C : list (list Z)) : Prop :=
  forall c, In c C -> length c = w /\ forall v, In v c -> (0 <= v < Z.of_nat n)%Z.

(** Entries of an array in order, those of unused vertices left out. *)
Inductive kept (U : list nat) : list Z -> list Z -> list Z -> list Z -> Prop :=
| kept_nil : kept U [] [] [] []
| kept_used v t v' bv bt bv' bt' : renamed U v v' -> kept U bv bt bv' bt' -> kept U (v :: bv) (t :: bt) (v' :: bv') (t :: bt')
| kept_unused v t bv bt bv' bt' : (forall v', ~ renamed U v v') -> kept U bv bt bv' bt' -> kept U (v :: bv) (t :: bt) bv' bt'.

(** Renamed, or -1 for vertices that are gone. *)
Definition renamed_or_gone (U : list nat) (v v' : Z) : Prop :=
  renamed U v v' \/ ((forall w, ~ renamed U v w) /\ v' = (-1)%Z).

Definition zpoint (V : list (list Qc)) (v : Z) : list Qc := nth (Z.to_nat v) V [].

(** U lists the vertices of C in the order in which they are first met. *)
Definition first_use (U : list nat) (C : list (list Z)) : Prop :=
  NoDup U /\ (forall u, In u U <-> used C (Z.of_nat u)) /\
  forall k l u w, k < l -> nth_error U k = Some u -> nth_error U l = Some w ->
    exists p q, concat C = p ++ Z.of_nat u :: q /\ ~ In (Z.of_nat w) p.

(** A mesh whose arrays have the right shapes and contain numbers of vertices. *)
Definition tags_of (m : mesh) (bv : list Z) : list Z :=
  match m_boundaryVertexTags m with Some t => t | None => map (fun _ => 0%Z) bv end.
Definition mesh_fine (m : mesh) : Prop :=
  let n := length (m_vertices m) in
  (forall p, In p (m_vertices m) -> length p = m_dim m) /\
  rows_below (m_manifold_dim m + 1) n (m_cells m) /\
  match m_boundaryVertices m with
  | Some bv => (forall v, In v bv -> (0 <= v < Z.of_nat n)%Z) /\ length (tags_of m bv) = length bv
  | None => True
  end /\
  (forall R, m_boundaryEdges m = Some R -> rows_below 2 n R) /\
  (forall R, m_boundaryFaces m = Some R -> rows_below 3 n R).

Definition renames_rows (U : list nat) (o o' : option (list (list Z))) : Prop :=
  match o, o' with
  | Some R, Some R' => Forall2 (Forall2 (renamed_or_gone U)) R R'
  | None, None => True
  | _, _ => False
  end.
