(** The near field of a hierarchical matrix, assembled from pairs of clusters. *)
From Verif Require Import Util Lin AssemblyModel AssemblySpec NonlocalModel NonlocalSpec ClusterAsmModel.
Local Open Scope Qc_scope.

(** I belongs to the first, J to the second cluster. *)
Definition covers (np : npair) (I J : nat) : Prop := In I (np_dofs1 np) /\ In J (np_dofs2 np).
Definition same_set (a b : list nat) : Prop := forall x, In x a <-> In x b.
(** The same clusters in the other order. *)
Definition mirror (np np' : npair) : Prop :=
  same_set (np_dofs1 np) (np_dofs2 np') /\ same_set (np_dofs2 np) (np_dofs1 np') /\ same_set (np_cells1 np) (np_cells2 np') /\ same_set (np_cells2 np) (np_cells1 np').
Definition mirrored (P : list npair) : Prop := forall np, In np P -> exists np', In np' P /\ mirror np np'.

(** The cells are cells of the mesh; the union and the intersection are what they are called; no entry of the matrix
    belongs to two pairs of clusters; the number of cells that occur with a given one,
    plus 20 (the step in which the rows of the dictionary of masks grow), is at most the number W of values of LENGTH_t. *)
Definition clusters_ok (W nc : nat) (P : list npair) : Prop :=
  (forall np, In np P -> NoDup (np_union np) /\ NoDup (np_inter np) /\ (forall K, In K (np_union np) -> (K < nc)%nat) /\
     (forall K, In K (np_union np) <-> In K (np_cells1 np) \/ In K (np_cells2 np)) /\
     (forall K, In K (np_inter np) <-> In K (np_cells1 np) /\ In K (np_cells2 np))) /\
  (forall i j np np' I J, nth_error P i = Some np -> nth_error P j = Some np' -> covers np I J -> covers np' I J -> i = j) /\
  (forall K1 Ks, NoDup Ks -> (forall K2, In K2 Ks -> exists np, In np P /\ In K1 (np_union np) /\ In K2 (np_union np)) -> (length Ks + 20 <= W)%nat).
(** The cells of a cluster are those of its degrees of freedom. *)
Definition supported (dofs : list (list Z)) (dpe nc : nat) (P : list npair) : Prop :=
  forall np K p I, In np P -> (K < nc)%nat -> (p < dpe)%nat -> dof dofs K p = Z.of_nat I ->
    (In I (np_dofs1 np) -> In K (np_cells1 np)) /\ (In I (np_dofs2 np) -> In K (np_cells2 np)).
(** Of two pairs of cells that stand for each other, the second is not evaluated. *)
Definition skips_lower (L : double_local) (nc : nat) : Prop :=
  forall K1 K2, (K2 < K1)%nat -> (K1 < nc)%nat -> dl_panel L (Z.of_nat K1) (Z.of_nat K2) = IGNORED.

(** The double integral over the union of the clusters: all ordered pairs of its cells contribute. *)
Definition cluster_entry (dofs : list (list Z)) (dpe : nat) (C : nat -> nat -> nat -> nat -> Qc) (cells : list nat) (I J : nat) : Qc :=
  suml (map (fun K1 => suml (map (fun K2 => pair_entry dofs dofs dpe C K1 K2 I J) cells)) cells).
(** The integral over cells and the facets of a surface. *)
Definition surface_entry (dofs : list (list Z)) (dpe : nat) (D : nat -> nat -> nat -> nat -> Qc) (ns : nat) (cells : list nat) (I J : nat) : Qc :=
  assembled dofs dofs dpe dpe cells (fun K p q => sumf ns (fun e => D K e p q)) I J.

(** The exterior part, if there is one: for a pair of clusters, the local matrices of cells and facets of the
    surface of the union are [D np]; it is the same surface for the same clusters in the other order. *)
Definition surface_ok (ext : option ((npair -> double_local * nat) * lmstate * buf Qc)) (dpe nc : nat) (P : list npair) (D : npair -> nat -> nat -> nat -> nat -> Qc) : Prop :=
  match ext with
  | None => True
  | Some (E, lmE, conE) =>
      (forall np, In np P -> exterior_ok (fst (E np)) dpe nc (snd (E np)) (D np)) /\ length conE = stored_size true dpe /\ mirrored P /\
      forall np np', In np P -> In np' P -> mirror np np' -> snd (E np) = snd (E np') /\ forall K e p q, D np K e p q = D np' K e p q
  end.
(** The entry (I, J) of the pair of clusters np. *)
Definition near_entry (ext : option ((npair -> double_local * nat) * lmstate * buf Qc)) (dofs : list (list Z)) (dpe : nat) (C : nat -> nat -> nat -> nat -> Qc)
    (D : npair -> nat -> nat -> nat -> nat -> Qc) (np : npair) (I J : nat) : Qc :=
  cluster_entry dofs dpe C (np_union np) I J +
  match ext with None => 0 | Some (E, _, _) => surface_entry dofs dpe (D np) (snd (E np)) (np_inter np) I J end.
(** On the cells in both clusters, the surface of the union stands for the cells outside of it, and for what is
    outside of the domain (the local matrices [D0] of [ns] facets). *)
Definition stands_for_outside (E : npair -> double_local * nat) (D : npair -> nat -> nat -> nat -> nat -> Qc) (dpe nc : nat) (C : nat -> nat -> nat -> nat -> Qc)
    (ns : nat) (D0 : nat -> nat -> nat -> nat -> Qc) (P : list npair) : Prop :=
  forall np K p q, In np P -> In K (np_inter np) -> (p < dpe)%nat -> (q < dpe)%nat ->
    sumf (snd (E np)) (fun e => D np K e p q) =
    sumf nc (fun K2 => if in_dec Nat.eq_dec K2 (np_union np) then 0 else C K K2 p q + C K2 K (dpe + p)%nat (dpe + q)%nat) + sumf ns (fun e => D0 K e p q).
