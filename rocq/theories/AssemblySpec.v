(** Assembly: sums of local contributions. *)
From Verif Require Import Util Lin CSRModel CSRSpec SSSProofs OpsProofs OpsProofs4 MeshSpec BarySpec LocalSpec AssemblyModel.
Local Open Scope Qc_scope.

(** Degree of freedom j of cell i: a number, or -1 - (number of the boundary degree of freedom). *)
Definition dof (dofs : list (list Z)) (i j : nat) : Z := nth j (nth i dofs []) (-1)%Z.

(** dpe degrees of freedom for each of nc cells, out of n interior ones and nb on the boundary. *)
Definition dofs_ok (nc dpe n nb : nat) (dofs : list (list Z)) : Prop :=
  length dofs = nc /\ (forall row, In row dofs -> length row = dpe) /\
  forall row d, In row dofs -> In d row -> (- Z.of_nat nb <= d < Z.of_nat n)%Z.
(** No interior degree of freedom appears twice in a cell. *)
Definition dofs_distinct (dpe : nat) (dofs : list (list Z)) : Prop :=
  forall i j k, (j < dpe)%nat -> (k < dpe)%nat -> (0 <= dof dofs i j)%Z -> dof dofs i j = dof dofs i k -> j = k.

(** Entry (I, J) of the sum over the cells [cs] of the local matrices [loc]; rows are numbered by
    [dofs], columns by [dofs']. *)
Definition assembled (dofs dofs' : list (list Z)) (dpe dpe' : nat) (cs : list nat) (loc : nat -> nat -> nat -> Qc) (I J : nat) : Qc :=
  suml (map (fun i => sumf dpe (fun j => sumf dpe' (fun k =>
    if (dof dofs i j =? Z.of_nat I)%Z && (dof dofs' i k =? Z.of_nat J)%Z then loc i j k else 0))) cs).

(** The product of the block that couples interior row I to the boundary with the
    boundary data g. *)
Definition boundary_action (dofs : list (list Z)) (dpe : nat) (cs : list nat) (loc : nat -> nat -> nat -> Qc) (g : list Qc) (I : nat) : Qc :=
  suml (map (fun i => sumf dpe (fun j => sumf dpe (fun k =>
    if (dof dofs i j =? Z.of_nat I)%Z && (dof dofs i k <? 0)%Z then loc i j k * vat g (Z.to_nat (- dof dofs i k - 1)) else 0))) cs).

(** The interior degrees of freedom I and J (of two maps) belong to a common cell. *)
Definition coupled (dofs dofs' : list (list Z)) (dpe dpe' : nat) (cs : list nat) (I J : nat) : Prop :=
  exists i j k, In i cs /\ (j < dpe)%nat /\ (k < dpe')%nat /\ dof dofs i j = Z.of_nat I /\ dof dofs' i k = Z.of_nat J.
(** No degree of freedom is coupled to 65536 others. *)
Definition few_coupled (dofs dofs' : list (list Z)) (dpe dpe' : nat) (cs : list nat) : Prop :=
  forall I Js, NoDup Js -> (forall J, In J Js -> coupled dofs dofs' dpe dpe' cs I J) -> (length Js < 2 ^ 16)%nat.

(** Renumbering of the interior degrees of freedom. *)
Definition renumber (p : nat -> nat) (dofs : list (list Z)) : list (list Z) :=
  map (map (fun d => if (0 <=? d)%Z then Z.of_nat (p (Z.to_nat d)) else d)) dofs.
Definition is_permutation (n : nat) (p : nat -> nat) : Prop :=
  (forall i, (i < n)%nat -> (p i < n)%nat) /\ forall i j, (i < n)%nat -> (j < n)%nat -> p i = p j -> i = j.

(** What a function that evaluates local matrices computes on the cells [C] with [dim] + 1
    vertices: whatever the buffer for the result (of the given size) contained, it starts with the
    entries [vals] afterwards. [cell] is what the function knows about the cell: its vertices if [informed], anything
    otherwise. *)
Definition evaluates (eval : buf nat -> list (buf Qc) -> buf Qc -> res (buf Qc)) (dim : nat) (informed : bool) (size : nat)
    (V : list (list Qc)) (C : list (list nat)) (vals : nat -> list Qc) : Prop :=
  forall i c cell contrib, nth_error C i = Some c -> length cell = S dim -> (informed = true -> cell = map Some c) -> length contrib = size ->
    exists rest, eval cell (map (map Some) (corners V c)) contrib = Ok (map Some (vals i) ++ rest) /\ (length (vals i) + length rest = size)%nat.

(** The cells between two optional bounds. *)
Definition cell_range (nc : nat) (start_idx end_idx : option nat) : list nat :=
  let lo := match start_idx with Some i => i | None => O end in
  let hi := match end_idx with Some i => i | None => nc end in seq lo (hi - lo).
Definition range_fits (nc : nat) (end_idx : option nat) : Prop := match end_idx with Some i => (i <= nc)%nat | None => True end.

(** Matrices in one of the two formats. *)
Definition op_matrix (op : operator) : mat := match op with OpCSR A => matrix A | OpSSS A => sym_matrix A end.
Definition op_ok (n : nat) (op : operator) : Prop :=
  match op with OpCSR A => wf_csr n n A /\ sorted_csr n A | OpSSS A => wf_sss n A /\ sorted_sss n A end.
Definition op_sss (op : operator) : bool := match op with OpSSS _ => true | _ => false end.
(** There is room for an entry; in symmetric storage there always is for the diagonal. *)
Definition op_stores (op : operator) (I J : nat) : Prop :=
  match op with OpCSR A => stored A I J | OpSSS A => I = J \/ stored_lower A (max I J) (min I J) end.
(** The map is the old one, with its interior degrees of freedom renumbered. *)
Definition renumbered (dm dm' : dofmap) : Prop :=
  dm' = dm \/ dm_num dm' = dm_num dm /\ dm_dpe dm' = dm_dpe dm /\ exists p, is_permutation (dm_num dm) p /\ dm_dofs dm' = renumber p (dm_dofs dm).
