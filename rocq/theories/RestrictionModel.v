(** Model of the construction of grid transfer operators
    (multilevelSolver/PyNucleus_multilevelSolver/restrictionProlongation.pyx and the
    files it includes).

    Simplifications: a DoF map is given by the array of its DoF numbers (a row per cell)
    and by num_dofs, a mesh by its cells. Numbers are exact rationals. The data array is
    uninitialised when it is created; the operator returned must not hold an
    uninitialised value. *)
From Verif Require Import Util Lin SparsityModel CSRModel MeshModel LocalModel RestrictionTables.

(** The classes of DoF maps that are told apart. *)
Inductive fe := P0 | P1 | P2 | P3.

(** restrictionProlongation.pyx:17-95: which table is used, and the number of children of
    a cell (subCellNo0 = 8*cellNo+0 and so on); None for NotImplementedError. *)
Definition restriction_table (manifold_dim : nat) (coarse fine : fe) : option (nat * list rentry) :=
  match coarse, fine, manifold_dim with
  | P0, P0, 1 => Some (2, restriction_1D_P0)
  | P0, P0, 2 => Some (4, restriction_2D_P0)
  | P0, P0, 3 => Some (8, restriction_3D_P0)
  | P1, P1, 1 => Some (2, restriction_1D_P1)
  | P1, P1, 2 => Some (4, restriction_2D_P1)
  | P1, P1, 3 => Some (8, restriction_3D_P1)
  | P1, P2, 1 => Some (1, restriction_1D_P1_P2)
  | P1, P2, 2 => Some (1, restriction_2D_P1_P2)
  | P1, P2, 3 => Some (1, restriction_3D_P1_P2)
  | P1, P3, 1 => Some (1, restriction_1D_P1_P3)
  | P1, P3, 2 => Some (1, restriction_2D_P1_P3)
  | P1, P3, 3 => Some (1, restriction_3D_P1_P3)
  | P2, P2, 1 => Some (2, restriction_1D_P2)
  | P2, P2, 2 => Some (4, restriction_2D_P2)
  | P2, P2, 3 => Some (8, restriction_3D_P2)
  | P2, P3, 1 => Some (1, restriction_1D_P2_P3)
  | P2, P3, 2 => Some (1, restriction_2D_P2_P3)
  | P2, P3, 3 => Some (1, restriction_3D_P2_P3)
  | P3, P3, 1 => Some (2, restriction_1D_P3)
  | P3, P3, 2 => Some (4, restriction_2D_P3)
  | P3, P3, 3 => Some (8, restriction_3D_P3)
  | _, _, _ => None
  end.

(** restriction_3D_P2.pxi:154, 155 and the else branches; the same in restriction_3D_P0.pxi
    and restriction_3D_P3.pxi. *)
Definition reached (nsub : nat) (F : list (list nat)) (cellNo : nat) (w : when) : res bool :=
  match w with
  | Always => Ok true
  | _ =>
      v4 <- get2 F (nsub * cellNo + 4) 0 ;; v5 <- get2 F (nsub * cellNo + 5) 0 ;;
      if v4 =? v5 then
        v6 <- get2 F (nsub * cellNo + 6) 0 ;;
        Ok (match w with Cut01_23 => v4 =? v6 | Cut02_13 => negb (v4 =? v6) | _ => false end)
      else Ok (match w with Cut03_12 => true | _ => false end)
  end.

(** One line of a table: restriction_1D_P1.pxi:21-23 and 37-39, with the guards of add
    (restrictionProlongation.pyx:100-104) and enterData (107-112). *)
Definition restrict_entry {S} (nsub : nat) (F : list (list nat)) (dofsC dofsF : list (list Z)) (f : nat -> nat -> Qc -> S -> res S)
    (cellNo : nat) (e : rentry) (s : S) : res S :=
  let '(w, j, sub, k, val) := e in
  b <- reached nsub F cellNo w ;;
  if b then
    dof <- get2 dofsC cellNo j ;;
    if (0 <=? dof)%Z then
      dofF <- get2 dofsF (nsub * cellNo + sub) k ;;
      if (0 <=? dofF)%Z then f (Z.to_nat dof) (Z.to_nat dofF) val s else Ok s
    else Ok s
  else Ok s.
(** restriction_1D_P1.pxi:18-27 and 34-43 *)
Definition restrict_loop {S} (nsub : nat) (T : list rentry) (num_cells : nat) (F : list (list nat)) (dofsC dofsF : list (list Z))
    (f : nat -> nat -> Qc -> S -> res S) (s : S) : res S :=
  for_range 0 num_cells (fun cellNo s => for_list T (restrict_entry nsub F dofsC dofsF f cellNo) s) s.

(** CSR_LinearOperator_{SCALAR}.pxi:129-148, on data that may be uninitialised *)
Definition set_entry (ip ind : list nat) (I J : nat) (val : Qc) (data : buf Qc) : res (buf Qc) :=
  '(o, lin) <- entry_find ip ind I J ;;
  match o with
  | Some k => wr data k val
  | None => if lin then Ok data else Err EIndex
  end.

(** restriction_1D_P1.pxi:8-44 and the other 20 files of the same form *)
Definition buildRestriction (nsub : nat) (T : list rentry) (num_cells : nat) (F : list (list nat))
    (dofsC : list (list Z)) (num_dofsC : nat) (dofsF : list (list Z)) (num_dofsF : nat) : res csr :=
  sPat <- restrict_loop nsub T num_cells F dofsC dofsF (fun dof dofF _ s => sp_add (2 ^ 16) s dof (Z.of_nat dofF)) (sp_init num_dofsC 9) ;;
  '(indptr, indices) <- sp_freeze sPat ;;
  indptr <- all_init indptr ;; indices <- all_init indices ;;
  let indices := map Z.to_nat indices in
  data <- restrict_loop nsub T num_cells F dofsC dofsF (fun dof dofF val d => set_entry indptr indices dof dofF val d) (alloc (length indices)) ;;
  data <- all_init data ;;
  Ok (CSR num_dofsF indptr indices data).

(** restrictionProlongation.pyx:17-97 *)
Definition buildRestrictionProlongation (manifold_dim : nat) (coarse fine : fe) (num_cells : nat) (F : list (list nat))
    (dofsC : list (list Z)) (num_dofsC : nat) (dofsF : list (list Z)) (num_dofsF : nat) : res (csr * csr) :=
  match restriction_table manifold_dim coarse fine with
  | None => Err ENotImpl
  | Some (nsub, T) =>
      R <- buildRestriction nsub T num_cells F dofsC num_dofsC dofsF num_dofsF ;;
      P <- csr_transpose R ;;
      Ok (R, P)
  end.
