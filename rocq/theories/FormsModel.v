(** Model of the functions that assemble mass and stiffness matrices
    (fem/PyNucleus_fem/femCy.pyx), on meshes whose cells have the dimension of the space, without
    coefficient functions. The type of the map of degrees of freedom is given separately. *)
From Verif Require Import Util Lin CSRModel LocalModel LocalTables ReorderModel AssemblyModel.

Inductive element := P0 | P1 | P2 | P3 | N1e.

(** The coordinates of the corners, which getSimplex has filled in. *)
Fixpoint read_rows (rows : list (buf Qc)) : res (list (list Qc)) :=
  match rows with
  | [] => Ok []
  | r :: rows => r <- all_init r ;; rows <- read_rows rows ;; Ok (r :: rows)
  end.
Definition space (n m : nat) : list (buf Qc) := repeat (alloc m) n.

(** Local matrices that do not need to know the cell (femCy.pyx:43-48); their work space is
    uninitialised (femCy.pyx:734-740, 777-796, 838-846, 860-877) *)
Definition simplex_matrix (d : nat) (eval : list (list Qc) -> buf Qc -> res (buf Qc)) : local_matrix :=
  LM d false true (fun cell simplex contrib => s <- read_rows simplex ;; eval s contrib).
(** Those for N1e do, and read all of it (mass_2D_N1e.pxi:9-11, discrete_gradient_2d_N1e_P1.pxi:9-12) *)
Definition cell_matrix (additive : bool) (eval : list nat -> list (list Qc) -> buf Qc -> res (buf Qc)) : local_matrix :=
  LM 2 true additive (fun cell simplex contrib => c <- all_init cell ;; s <- read_rows simplex ;; eval c s contrib).

(** femCy.pyx:1616-1661 *)
Definition mass_local_matrix (el : element) (dim : nat) : option local_matrix :=
  match el, dim with
  | P0, 1 => Some (simplex_matrix 1 mass_1d_sym_P0_eval)
  | P0, 2 => Some (simplex_matrix 2 (fun s => mass_2d_sym_P0_eval s (space 3 2)))
  | P0, 3 => Some (simplex_matrix 3 (fun s => mass_3d_sym_P0_eval s (space 4 3)))
  | P1, 1 => Some (simplex_matrix 1 mass_1d_sym_P1_eval)
  | P1, 2 => Some (simplex_matrix 2 (fun s => mass_2d_sym_P1_eval s (space 3 2)))
  | P1, 3 => Some (simplex_matrix 3 (fun s => mass_3d_sym_P1_eval s (space 4 3)))
  | P2, 1 => Some (simplex_matrix 1 mass_1d_sym_P2_eval)
  | P2, 2 => Some (simplex_matrix 2 (fun s => mass_2d_sym_P2_eval s (space 3 2)))
  | P2, 3 => Some (simplex_matrix 3 (fun s => mass_3d_sym_P2_eval s (space 4 3)))
  | P3, 1 => Some (simplex_matrix 1 mass_1d_sym_P3_eval)
  | P3, 2 => Some (simplex_matrix 2 (fun s => mass_2d_sym_P3_eval s (space 3 2)))
  | P3, 3 => Some (simplex_matrix 3 (fun s => mass_3d_sym_P3_eval s (space 4 3)))
  | N1e, 2 => Some (cell_matrix true (fun c s => mass_2d_sym_N1e_eval c s (alloc 6) (space 3 2)))
  | _, _ => None
  end.
(** femCy.pyx:1965-1994 *)
Definition stiffness_local_matrix (el : element) (dim : nat) : option local_matrix :=
  match el, dim with
  | P1, 1 => Some (simplex_matrix 1 stiffness_1d_sym_P1_eval)
  | P1, 2 => Some (simplex_matrix 2 (fun s => stiffness_2d_sym_P1_eval s (alloc 6) (space 3 2)))
  | P1, 3 => Some (simplex_matrix 3 (fun s => stiffness_3d_sym_P1_eval s (alloc 10) (space 10 3)))
  | P2, 1 => Some (simplex_matrix 1 stiffness_1d_sym_P2_eval)
  | P2, 2 => Some (simplex_matrix 2 (fun s => stiffness_2d_sym_P2_eval s (alloc 6) (space 3 2)))
  | P2, 3 => Some (simplex_matrix 3 (fun s => stiffness_3d_sym_P2_eval s (alloc 10) (space 10 3)))
  | P3, 1 => Some (simplex_matrix 1 stiffness_1d_sym_P3_eval)
  | P3, 2 => Some (simplex_matrix 2 (fun s => stiffness_2d_sym_P3_eval s (alloc 6) (space 3 2)))
  | P3, 3 => Some (simplex_matrix 3 (fun s => stiffness_3d_sym_P3_eval s (alloc 10) (space 10 3)))
  | _, _ => None
  end.

Section Forms.
  Variables (dim : nat) (vertices : list (list Qc)) (cells : list (list nat)) (argsort : list nat -> list nat).

  (** femCy.pyx:1602-1724 *)
  Definition assembleMass (el : element) (dm : dofmap) (bd rhs : option (list Qc)) (A : option operator)
      (start_idx end_idx : option nat) (sss_format reorder : bool) (cellIndices : option (list nat)) : res (operator * dofmap * option (list Qc)) :=
    match mass_local_matrix el dim with
    | Some lm => assembleMatrix dim dim vertices cells argsort lm dm bd rhs A start_idx end_idx sss_format reorder cellIndices
    | None => Err ENotImpl
    end.
  (** femCy.pyx:1949-2077, dm2=None *)
  Definition assembleStiffness (el : element) (dm : dofmap) (bd rhs : option (list Qc)) (A : option operator)
      (start_idx end_idx : option nat) (sss_format reorder : bool) (cellIndices : option (list nat)) : res (operator * dofmap * option (list Qc)) :=
    match stiffness_local_matrix el dim with
    | Some lm => assembleMatrix dim dim vertices cells argsort lm dm bd rhs A start_idx end_idx sss_format reorder cellIndices
    | None => Err ENotImpl
    end.
  (** femCy.pyx:2117-2142, for N1e and P1 *)
  Definition assembleDiscreteGradient (dm dm' : dofmap) (A : option csr) (start_idx end_idx : option nat) : res csr :=
    match dim with
    | 2 => assembleNonSymMatrix_CSR dim dim vertices cells (cell_matrix false (fun c s => discrete_gradient_2d_N1e_P1_eval c)) dm dm' A start_idx end_idx None false
    | _ => Err ENotImpl
    end.
  (** femCy.pyx:2145-2170, for P0 and N1e *)
  Definition assembleDiscreteCurl (dm dm' : dofmap) (A : option csr) (start_idx end_idx : option nat) : res csr :=
    match dim with
    | 2 => assembleNonSymMatrix_CSR dim dim vertices cells (cell_matrix false (fun c s => discrete_curl_2d_P0_N1e_eval c)) dm dm' A start_idx end_idx None false
    | _ => Err ENotImpl
    end.
End Forms.
