(** What a sparse graph stands for. *)
From Coq Require Import Sorted.
From Verif Require Import Util Lin SparsitySpec CSRModel GraphModel.
Local Open Scope nat_scope.

(** The list of row i, and how often it has c. *)
Definition grow (g : graph) (i : nat) : list nat := slice (g_ind g) (nth i (g_ptr g) 0) (nth (S i) (g_ptr g) 0).
Definition edges (g : graph) (i c : nat) : nat := count_occ Nat.eq_dec (grow g i) c.
(** A graph with n rows and columns below m. *)
Definition wf_graph (n m : nat) (g : graph) : Prop :=
  g_rows g = n /\ g_cols g = m /\ length (g_ptr g) = n + 1 /\ nth 0 (g_ptr g) 0 = 0 /\
  (forall i, i < n -> nth i (g_ptr g) 0 <= nth (S i) (g_ptr g) 0) /\
  nth n (g_ptr g) 0 <= length (g_ind g) /\ (forall c, In c (g_ind g) -> c < m).
Definition qnat (k : nat) : Qc := qz (Z.of_nat k).
(** The matrices: of the graph, of the restriction and of the prolongation. *)
Definition gmat (g : graph) : mat := fun i c => qnat (edges g i c).
Definition tmat (g : graph) : mat := fun i c => ((if i =? c then 1 else 0) + Q2Qc (1 # 2) * qnat (edges g i c))%Qc.
Definition increasing_list (l : list nat) : Prop := StronglySorted lt l.
