(** If the surfaces of clusters stand for what is outside of them, the entries are those of the operator. *)
From Verif Require Import Util Lin MeshModel LocalSpec AssemblyModel AssemblySpec NonlocalModel NonlocalSpec NonlocalProofs2 NonlocalProofs3
  ClusterAsmModel ClusterAsmSpec ClusterAsmProofs3 ClusterAsmProofs4 ClusterAsmProofs5.
From Coq Require Import Lia.
Set Default Proof Using "Type".
Local Open Scope Qc_scope.

Section Outside.
  Variables (W nc : nat) (dm : dofmap) (C : nat -> nat -> nat -> nat -> Qc) (E : npair -> double_local * nat) (D : npair -> nat -> nat -> nat -> nat -> Qc)
    (ns : nat) (D0 : nat -> nat -> nat -> nat -> Qc) (P : list npair).
  Notation dpe := (dm_dpe dm).
  Hypothesis HP : clusters_ok W nc P.
  Hypothesis Hs : supported (dm_dofs dm) dpe nc P.
  Hypothesis Ho : stands_for_outside E D dpe nc C ns D0 P.
  Variables (np : npair) (I J : nat).
  Hypothesis Hn : In np P.
  Hypothesis Hc : covers np I J.
  Notation U := (np_union np).
  Notation V := (np_inter np).
  Notation d := (dof (dm_dofs dm)).
  Notation pe K1 K2 := (pair_entry (dm_dofs dm) (dm_dofs dm) dpe C K1 K2 I J).
  Definition one_cell (K : nat) (f : nat -> nat -> Qc) : Qc := sumf dpe (fun p => sumf dpe (fun q => sel (d K) I J f p q)).

  Lemma row_in K p : (K < nc)%nat -> (p < dpe)%nat -> d K p = Z.of_nat I -> In K (np_cells1 np).
  Proof using Hs Hn Hc. intros H1 H2 H3. apply (Hs np K p I Hn H1 H2 H3). apply Hc. Qed.
  Lemma col_in K p : (K < nc)%nat -> (p < dpe)%nat -> d K p = Z.of_nat J -> In K (np_cells2 np).
  Proof using Hs Hn Hc. intros H1 H2 H3. apply (Hs np K p J Hn H1 H2 H3). apply Hc. Qed.
  Lemma one_cell_zero K f : (K < nc)%nat -> ~ In K V -> one_cell K f = 0.
  Proof using HP Hs Hn Hc.
    intros H1 H2. unfold one_cell. apply sumf_zero. intros p Hp. apply sumf_zero. intros q Hq. unfold sel.
    destruct (Z.eqb_spec (d K p) (Z.of_nat I)) as [Ep|]; [|reflexivity]. destruct (Z.eqb_spec (d K q) (Z.of_nat J)) as [Eq|]; [|reflexivity].
    exfalso. apply H2. destruct (proj1 HP np Hn) as (_ & _ & _ & _ & HV). apply HV. split; [exact (row_in K p H1 Hp Ep)|exact (col_in K q H1 Hq Eq)].
  Qed.
  Lemma not_union K : ~ In K U -> ~ In K (np_cells1 np) /\ ~ In K (np_cells2 np).
  Proof using HP Hn. intros H. destruct (proj1 HP np Hn) as (_ & _ & _ & HU & _). rewrite HU in H. tauto. Qed.
  Lemma first_only K1 K2 : (K1 < nc)%nat -> (K2 < nc)%nat -> ~ In K2 U -> pe K1 K2 = one_cell K1 (C K1 K2).
  Proof using HP Hs Hn Hc.
    intros H1 H2 H. destruct (not_union K2 H) as [N1 N2]. unfold pair_entry, one_cell. rewrite (sumf_extend dpe (2 * dpe)); [|lia|].
    - apply sumf_ext. intros p Hp. rewrite (sumf_extend dpe (2 * dpe)); [|lia|].
      + apply sumf_ext. intros q Hq. unfold sel, ldof. destruct (Nat.ltb_spec p dpe); [|lia]. destruct (Nat.ltb_spec q dpe); [|lia]. reflexivity.
      + intros q Hq. unfold ldof at 2. destruct (Nat.ltb_spec q dpe); [lia|]. destruct (Z.eqb_spec (d K2 (q - dpe)) (Z.of_nat J)) as [Eq|]; [|rewrite andb_false_r; reflexivity].
        exfalso. exact (N2 (col_in K2 (q - dpe) H2 ltac:(lia) Eq)).
    - intros p Hp. apply sumf_zero. intros q Hq. unfold ldof at 1. destruct (Nat.ltb_spec p dpe); [lia|]. destruct (Z.eqb_spec (d K2 (p - dpe)) (Z.of_nat I)) as [Ep|]; [|reflexivity].
      exfalso. exact (N1 (row_in K2 (p - dpe) H2 ltac:(lia) Ep)).
  Qed.
  Lemma second_only K1 K2 : (K1 < nc)%nat -> (K2 < nc)%nat -> ~ In K1 U -> pe K1 K2 = one_cell K2 (fun p q => C K1 K2 (dpe + p)%nat (dpe + q)%nat).
  Proof using HP Hs Hn Hc.
    intros H1 H2 H. destruct (not_union K1 H) as [N1 N2]. unfold pair_entry, one_cell. replace (2 * dpe)%nat with (dpe + dpe)%nat by lia. rewrite sumf_app.
    rewrite (sumf_zero dpe).
    - rewrite Qcplus_0_l. apply sumf_ext. intros p Hp. rewrite sumf_app. rewrite (sumf_zero dpe).
      + rewrite Qcplus_0_l. apply sumf_ext. intros q Hq. unfold sel, ldof. destruct (Nat.ltb_spec (dpe + p) dpe); [lia|]. destruct (Nat.ltb_spec (dpe + q) dpe); [lia|].
        replace (dpe + p - dpe)%nat with p by lia. replace (dpe + q - dpe)%nat with q by lia. reflexivity.
      + intros q Hq. unfold ldof at 2. destruct (Nat.ltb_spec q dpe); [|lia]. destruct (Z.eqb_spec (d K1 q) (Z.of_nat J)) as [Eq|]; [|rewrite andb_false_r; reflexivity].
        exfalso. exact (N2 (col_in K1 q H1 Hq Eq)).
    - intros p Hp. apply sumf_zero. intros q Hq. unfold ldof at 1. destruct (Nat.ltb_spec p dpe); [|lia]. destruct (Z.eqb_spec (d K1 p) (Z.of_nat I)) as [Ep|]; [|reflexivity].
      exfalso. exact (N1 (row_in K1 p H1 Hp Ep)).
  Qed.
  Lemma one_cell_plus K f g : one_cell K f + one_cell K g = one_cell K (fun p q => f p q + g p q).
  Proof using Type.
    clear. unfold one_cell. rewrite <- sumf_plus. apply sumf_ext. intros p _. rewrite <- sumf_plus. apply sumf_ext. intros q _. unfold sel. destruct (_ && _); ring.
  Qed.
  Lemma one_cell_sum K n (f : nat -> nat -> nat -> Qc) : sumf n (fun e => one_cell K (f e)) = one_cell K (fun p q => sumf n (fun e => f e p q)).
  Proof using Type.
    clear. unfold one_cell. rewrite sumf_swap. apply sumf_ext. intros p _. rewrite sumf_swap. apply sumf_ext. intros q _. unfold sel. destruct (_ && _); [reflexivity|apply sumf_0].
  Qed.
  Lemma one_cell_ext K f g : (forall p q, (p < dpe)%nat -> (q < dpe)%nat -> f p q = g p q) -> one_cell K f = one_cell K g.
  Proof using Type. clear. intros H. unfold one_cell. apply sumf_ext. intros p Hp. apply sumf_ext. intros q Hq. unfold sel. rewrite H by assumption. reflexivity. Qed.
  Definition far (K2 : nat) (x : Qc) : Qc := if in_dec Nat.eq_dec K2 U then 0 else x.

  Lemma near_is_operator : cluster_entry (dm_dofs dm) dpe C U I J + surface_entry (dm_dofs dm) dpe (D np) (snd (E np)) V I J =
    nl_entry (dm_dofs dm) (dm_dofs dm) dpe nc C I J + exterior_entry (dm_dofs dm) (dm_dofs dm) dpe nc ns D0 I J.
  Proof using HP Hs Ho Hn Hc.
    destruct (proj1 HP np Hn) as (N1 & N2 & Hr & HU & HV). assert (HrV : forall K, In K V -> (K < nc)%nat) by (intros K HK; apply Hr, HU; left; apply HV; exact HK).
    assert (EN : nl_entry (dm_dofs dm) (dm_dofs dm) dpe nc C I J = cluster_entry (dm_dofs dm) dpe C U I J +
      sumf nc (fun K => sumf nc (fun K2 => far K2 (one_cell K (fun p q => C K K2 p q + C K2 K (dpe + p)%nat (dpe + q)%nat))))).
    { transitivity (cluster_entry (dm_dofs dm) dpe C U I J + (sumf nc (fun K => sumf nc (fun K2 => far K2 (one_cell K (C K K2)))) +
        sumf nc (fun K1 => sumf nc (fun K2 => far K1 (one_cell K2 (fun p q => C K1 K2 (dpe + p)%nat (dpe + q)%nat)))))).
      - rewrite <- (union_total nc dm C I J np N1 Hr). unfold nl_entry. rewrite <- !sumf_plus. apply sumf_ext. intros K1 H1. rewrite <- !sumf_plus. apply sumf_ext. intros K2 H2.
        unfold in_union, far. destruct (in_dec Nat.eq_dec K1 U) as [I1|I1], (in_dec Nat.eq_dec K2 U) as [I2|I2].
        + apply mem_in in I1, I2. rewrite I1, I2. cbn [andb]. ring.
        + rewrite (first_only K1 K2 H1 H2 I2). replace (mem U K2) with false; [rewrite andb_false_r; ring|]. symmetry. apply not_true_is_false. intros K. apply mem_in in K. contradiction.
        + rewrite (second_only K1 K2 H1 H2 I1). replace (mem U K1) with false; [cbn [andb]; ring|]. symmetry. apply not_true_is_false. intros K. apply mem_in in K. contradiction.
        + assert (NV : forall K, ~ In K U -> ~ In K V) by (intros K HK HK'; apply HK, HU; left; apply HV; exact HK').
          rewrite (first_only K1 K2 H1 H2 I2). rewrite !one_cell_zero by auto. destruct (_ && _); ring.
      - f_equal. rewrite (sumf_swap nc nc (fun K1 K2 => far K1 _)). rewrite <- sumf_plus. apply sumf_ext. intros K _. rewrite <- sumf_plus. apply sumf_ext. intros K2 _. rewrite <- one_cell_plus. unfold far. destruct (in_dec _ _ _); ring. }
    rewrite EN, <- Qcplus_assoc. f_equal. unfold surface_entry, exterior_entry, assembled. rewrite suml_seq, (list_sum V nc _ N2 HrV), <- sumf_plus. apply sumf_ext. intros K HK. cbn [Nat.add].
    change (sumf dpe (fun j => sumf dpe (fun k => if (d K j =? Z.of_nat I)%Z && (d K k =? Z.of_nat J)%Z then sumf ns (fun e => D0 K e j k) else 0))) with (one_cell K (fun p q => sumf ns (fun e => D0 K e p q))).
    change (sumf dpe (fun j => sumf dpe (fun k => if (d K j =? Z.of_nat I)%Z && (d K k =? Z.of_nat J)%Z then sumf (snd (E np)) (fun e => D np K e j k) else 0))) with (one_cell K (fun p q => sumf (snd (E np)) (fun e => D np K e p q))).
    destruct (mem V K) eqn:MV.
    - apply mem_in in MV.
      transitivity (one_cell K (fun p q => sumf nc (fun K2 => far K2 (C K K2 p q + C K2 K (dpe + p)%nat (dpe + q)%nat))) + one_cell K (fun p q => sumf ns (fun e => D0 K e p q))).
      + rewrite one_cell_plus. apply one_cell_ext. intros p q Hp Hq. apply Ho; assumption.
      + f_equal. rewrite <- one_cell_sum. apply sumf_ext. intros K2 _. unfold far. destruct (in_dec _ _ _); [|reflexivity]. unfold one_cell. apply sumf_zero. intros p _. apply sumf_zero. intros q _. unfold sel. destruct (_ && _); reflexivity.
    - assert (NV : ~ In K V) by (intros H; apply mem_in in H; congruence). rewrite one_cell_zero by assumption. rewrite sumf_zero; [ring|]. intros K2 _. unfold far. destruct (in_dec _ _ _); [reflexivity|]. apply one_cell_zero; assumption.
  Qed.
End Outside.
