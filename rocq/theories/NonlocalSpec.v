(** Assembly of nonlocal operators: sums of contributions of pairs of cells. *)
From Verif Require Import Util Lin MeshSpec BarySpec LocalSpec AssemblyModel AssemblySpec NonlocalModel.
Local Open Scope Qc_scope.

(** The degrees of freedom of a pair of cells: first those of K1, then those of K2. *)
Definition ldof (dofs : list (list Z)) (dpe K1 K2 p : nat) : Z :=
  if (p <? dpe)%nat then dof dofs K1 p else dof dofs K2 (p - dpe).
(** The number of the same degree of freedom in the pair (K2, K1). *)
Definition other (dpe p : nat) : nat := if (p <? dpe)%nat then (p + dpe)%nat else (p - dpe)%nat.

(** Contribution of the pair (K1, K2), whose local matrix is [C K1 K2], to the entry (I, J); rows are
    numbered by [dofs], columns by [dofs']. *)
Definition pair_entry (dofs dofs' : list (list Z)) (dpe : nat) (C : nat -> nat -> nat -> nat -> Qc) (K1 K2 I J : nat) : Qc :=
  sumf (2 * dpe) (fun p => sumf (2 * dpe) (fun q =>
    if (ldof dofs dpe K1 K2 p =? Z.of_nat I)%Z && (ldof dofs' dpe K1 K2 q =? Z.of_nat J)%Z then C K1 K2 p q else 0)).
(** The double integral over the domain: all ordered pairs of cells contribute. *)
Definition nl_entry (dofs dofs' : list (list Z)) (dpe nc : nat) (C : nat -> nat -> nat -> nat -> Qc) (I J : nat) : Qc :=
  sumf nc (fun K1 => sumf nc (fun K2 => pair_entry dofs dofs' dpe C K1 K2 I J)).
(** The integral over domain and complement: [D K e] is the local matrix of cell K and facet e of the surface. *)
Definition exterior_entry (dofs dofs' : list (list Z)) (dpe nc ns : nat) (D : nat -> nat -> nat -> nat -> Qc) (I J : nat) : Qc :=
  assembled dofs dofs' dpe dpe (seq 0 nc) (fun K p q => sumf ns (fun e => D K e p q)) I J.

(** The entries of a local matrix in the order in which they are stored. *)
Definition stored_values (sym : bool) (n : nat) (f : nat -> nat -> Qc) : list Qc :=
  if sym then upper_triangle f (seq 0 n) else full_matrix f (seq 0 n) (seq 0 n).
Definition stored_size (sym : bool) (n : nat) : nat := (if sym then n * (n + 1) / 2 else n * n)%nat.

(** The cells of a local matrix object are K1 and K2, and it has the volumes of both (the product is
    what is used). *)
Definition has_cells (s : lmstate) (K1 K2 : nat) : Prop :=
  l_c1 s = Z.of_nat K1 /\ l_c2 s = Z.of_nat K2 /\
  (l_v1 s = Z.of_nat K1 /\ l_v2 s = Z.of_nat K2 \/ l_v1 s = Z.of_nat K2 /\ l_v2 s = Z.of_nat K1).
(** Nothing is known of unset cells; the volumes belong to those that are set. *)
Definition coherent (s : lmstate) : Prop :=
  (l_c1 s = (-1)%Z \/ l_v1 s = l_c1 s) /\ (l_c2 s = (-1)%Z \/ l_v2 s = l_c2 s).

(** eval computes the local matrices [C]: whatever the buffer contained, the entries that the mask
    selects are those of [C K1 K2] afterwards. With [ign], it need not do so for pairs whose
    panel type is IGNORED. *)
Definition evaluates_pairs (ign : bool) (L : double_local) (n1 n2 n : nat) (C : nat -> nat -> nat -> nat -> Qc) : Prop :=
  forall K1 K2 s con mask, (K1 < n1)%nat -> (K2 < n2)%nat -> has_cells s K1 K2 ->
    length con = stored_size (dl_symLocal L) n ->
    (ign = true -> getPanelType L s <> IGNORED) ->
    exists out, dl_eval L s (getPanelType L s) mask con = Ok out /\ length out = stored_size (dl_symLocal L) n /\
      forall k, (k < stored_size (dl_symLocal L) n)%nat -> N.testbit mask (N.of_nat k) = true ->
        nth_error out k = Some (Some (nth k (stored_values (dl_symLocal L) n (C K1 K2)) 0)).

(** What is assumed of the local matrix of the interior: a pair may be ignored if it does not
    contribute, or if the other order of the cells stands for it; the flags tell the truth. *)
Definition interior_ok (L : double_local) (dpe nc : nat) (C : nat -> nat -> nat -> nat -> Qc) : Prop :=
  evaluates_pairs true L nc nc (2 * dpe) C /\
  (forall K1 K2, (K1 < nc)%nat -> (K2 < nc)%nat -> dl_panel L (Z.of_nat K1) (Z.of_nat K2) = IGNORED ->
     dl_symCells L = true /\ (K2 < K1)%nat \/ forall p q, (p < 2 * dpe)%nat -> (q < 2 * dpe)%nat -> C K1 K2 p q = 0) /\
  (dl_symLocal L = true -> forall K1 K2 p q, (K1 < nc)%nat -> (K2 < nc)%nat -> (p < 2 * dpe)%nat -> (q < 2 * dpe)%nat ->
     C K1 K2 p q = C K1 K2 q p) /\
  (dl_symCells L = true -> forall K1 K2 p q, (K1 < nc)%nat -> (K2 < nc)%nat -> (p < 2 * dpe)%nat -> (q < 2 * dpe)%nat ->
     C K2 K1 (other dpe p) (other dpe q) = C K1 K2 p q).
Definition exterior_ok (E : double_local) (dpe nc ns : nat) (D : nat -> nat -> nat -> nat -> Qc) : Prop :=
  evaluates_pairs false E nc ns dpe D /\ dl_symLocal E = true /\
  forall K e p q, (K < nc)%nat -> (e < ns)%nat -> (p < dpe)%nat -> (q < dpe)%nat -> D K e p q = D K e q p.

(** The exterior part, if there is one: its object is [ext], its local matrices are [D]. *)
Definition ext_ok (ext : option (double_local * nat * lmstate * buf Qc)) (dpe nc : nat) (D : nat -> nat -> nat -> nat -> Qc) : Prop :=
  match ext with
  | None => True
  | Some (E, ns, lmE, conE) => exterior_ok E dpe nc ns D /\ length conE = stored_size true dpe
  end.
Definition ext_entry (ext : option (double_local * nat * lmstate * buf Qc)) (dofs dofs' : list (list Z)) (dpe nc : nat)
    (D : nat -> nat -> nat -> nat -> Qc) (I J : nat) : Qc :=
  match ext with None => 0 | Some (_, ns, _, _) => exterior_entry dofs dofs' dpe nc ns D I J end.

(** Every degree of freedom of every cell belongs to exactly one of the two maps. *)
Definition complementary (dofs dofs' : list (list Z)) (nc dpe : nat) : Prop :=
  forall c p, (c < nc)%nat -> (p < dpe)%nat ->
    (0 <= dof dofs c p)%Z /\ (dof dofs' c p < 0)%Z \/ (dof dofs c p < 0)%Z /\ (0 <= dof dofs' c p)%Z.

(** The cells K1 and K2 belong to the two clusters of some pair of the near field. *)
Definition near_cells (Pnear : list (list nat * list nat)) (K1 K2 : nat) : Prop :=
  exists cells1 cells2, In (cells1, cells2) Pnear /\ In K1 cells1 /\ In K2 cells2.
(** The pairs of cells in the near field are pairs of cells, fewer than 65536 for each cell; the
    others do not contribute. *)
Definition near_field_ok (Pnear : list (list nat * list nat)) (dpe nc : nat) (C : nat -> nat -> nat -> nat -> Qc) : Prop :=
  (forall K1 K2, near_cells Pnear K1 K2 -> (K1 < nc)%nat /\ (K2 < nc)%nat) /\
  (forall K1 Ks, NoDup Ks -> (forall K2, In K2 Ks -> near_cells Pnear K1 K2) -> (length Ks < 2 ^ 16)%nat) /\
  (forall K1 K2 p q, (K1 <= K2)%nat -> (K2 < nc)%nat -> ~ near_cells Pnear K1 K2 -> (p < 2 * dpe)%nat -> (q < 2 * dpe)%nat ->
     C K1 K2 p q = 0 /\ C K2 K1 p q = 0).
(** I and J belong to the two clusters of some pair of the near field. *)
Definition near_dofs (Pdofs : list (list nat * list nat)) (I J : nat) : Prop :=
  exists dofs1 dofs2, In (dofs1, dofs2) Pdofs /\ In I dofs1 /\ In J dofs2.
(** The pairs of degrees of freedom in the near field are pairs of degrees of freedom, fewer than 65536 for each. *)
Definition near_dofs_ok (Pdofs : list (list nat * list nat)) (n : nat) : Prop :=
  (forall I J, near_dofs Pdofs I J -> (I < n)%nat /\ (J < n)%nat) /\
  forall I Js, NoDup Js -> (forall J, In J Js -> near_dofs Pdofs I J) -> (length Js < 2 ^ 16)%nat.
