(** The sums that the additions of dense nonlocal assembly make. *)
From Verif Require Import Util Lin MeshModel LocalSpec FormsProofs2 ReorderProofs AssemblyModel AssemblySpec AssemblyProofs AssemblyProofs2 AssemblyProofs7
  RestrictionProofs DenseModel DenseSpec DenseProofs NonlocalModel NonlocalSpec NonlocalProofs NonlocalProofs2.
From Coq Require Import Lia.
Set Default Proof Using "Type".
Local Open Scope Qc_scope.

Lemma suml_seq n : forall lo (f : nat -> Qc), suml (map f (seq lo n)) = sumf n (fun i => f (lo + i)%nat).
Proof.
  intros lo f. induction n as [|n IH]; [reflexivity|]. rewrite seq_S, map_app, suml_app, IH. cbn [map sumf]. cbn [suml]. ring.
Qed.
Lemma suml_flat {X} (g : X -> list contribution) (h : contribution -> Qc) l :
  suml (map h (flat_map g l)) = suml (map (fun x => suml (map h (g x))) l).
Proof. induction l as [|x l IH]; [reflexivity|]. cbn [flat_map map]. rewrite map_app, suml_app, IH. reflexivity. Qed.
Lemma suml_ext {X} (f g : X -> Qc) l : (forall x, In x l -> f x = g x) -> suml (map f l) = suml (map g l).
Proof. intros H. f_equal. apply map_ext_in. exact H. Qed.

(** A sum over all ordered pairs as a sum over the upper triangle. *)
Lemma tri_sum (g : nat -> nat -> Qc) n :
  suml (map (fun p => g p p + suml (map (fun q => g p q + g q p) (seq (p + 1) (n - (p + 1))))) (seq 0 n)) = sumf n (fun p => sumf n (fun q => g p q)).
Proof.
  induction n as [|n IH]; [reflexivity|]. rewrite seq_S, map_app, suml_app. cbn [map Nat.add].
  replace (S n - (n + 1))%nat with 0%nat by lia. cbn [seq map].
  assert (E1 : suml (map (fun p => g p p + suml (map (fun q => g p q + g q p) (seq (p + 1) (S n - (p + 1))))) (seq 0 n)) =
    suml (map (fun p => g p p + suml (map (fun q => g p q + g q p) (seq (p + 1) (n - (p + 1))))) (seq 0 n)) + (sumf n (fun p => g p n) + sumf n (fun p => g n p))).
  { rewrite <- sumf_plus, <- suml_tab. unfold tab. rewrite <- suml_map_plus. apply suml_ext. intros p Hp. apply in_seq in Hp.
    replace (S n - (p + 1))%nat with (S (n - (p + 1))) by lia. rewrite seq_S, map_app, suml_app. cbn [map suml].
    replace (p + 1 + (n - (p + 1)))%nat with n by lia. cbn [suml]. ring. }
  rewrite E1, IH. cbn [sumf]. rewrite sumf_plus. cbn [map suml]. ring.
Qed.

Section Sums.
  Variables (d : nat -> Z) (I J : nat).
  Definition sel (f : nat -> nat -> Qc) (p q : nat) : Qc := if (d p =? Z.of_nat I)%Z && (d q =? Z.of_nat J)%Z then f p q else 0.
  Lemma to_nat_eqb z k : (0 <= z)%Z -> (Z.to_nat z =? k)%nat = (z =? Z.of_nat k)%Z.
  Proof. intros H. destruct (Z.eqb_spec z (Z.of_nat k)); [apply Nat.eqb_eq|apply Nat.eqb_neq]; lia. Qed.
  Lemma neg_eqb z k : (z < 0)%Z -> (z =? Z.of_nat k)%Z = false.
  Proof. intros H. apply Z.eqb_neq. lia. Qed.
  
  Lemma all_events_sum n f fac : suml (map (at_entry I J) (all_events n d f fac)) = fac * sumf n (fun p => sumf n (fun q => sel f p q)).
  Proof.
    unfold all_events. rewrite suml_flat, <- sumf_scal, <- suml_tab. apply suml_ext. intros p Hp.
    destruct (Z.leb_spec 0 (d p)) as [H|H].
    - rewrite suml_flat, <- sumf_scal, <- suml_tab. apply suml_ext. intros q Hq. unfold sel. destruct (Z.leb_spec 0 (d q)) as [H'|H'].
      + cbn [map at_entry suml]. rewrite !to_nat_eqb by assumption. destruct ((d p =? Z.of_nat I)%Z && (d q =? Z.of_nat J)%Z); ring.
      + rewrite (neg_eqb (d q)), andb_false_r by assumption. cbn [map suml]. ring.
    - rewrite sumf_zero; [cbn [map suml]; ring|]. intros q _. unfold sel. rewrite (neg_eqb (d p)) by assumption. reflexivity.
  Qed.
  Lemma sym_events_sum n f fac : (forall p q, (p < n)%nat -> (q < n)%nat -> f p q = f q p) ->
    suml (map (at_entry I J) (sym_events n d f fac)) = fac * sumf n (fun p => sumf n (fun q => sel f p q)).
  Proof.
    intros Hs. rewrite <- tri_sum. unfold sym_events. rewrite suml_flat, <- suml_map_scal. apply suml_ext. intros p Hp. apply in_seq in Hp.
    destruct (Z.leb_spec 0 (d p)) as [H|H].
    - cbn [map]. change (suml (?x :: ?l)) with (x + suml l). rewrite suml_flat. rewrite Qcmult_plus_distr_r, <- suml_map_scal. f_equal.
      + cbn [at_entry]. unfold sel. rewrite !to_nat_eqb by assumption. destruct ((d p =? Z.of_nat I)%Z && (d p =? Z.of_nat J)%Z); ring.
      + apply suml_ext. intros q Hq. apply in_seq in Hq. unfold sel. destruct (Z.leb_spec 0 (d q)) as [H'|H'].
        * cbn [map at_entry]. cbn [suml]. rewrite !to_nat_eqb by assumption. rewrite (Hs q p) by lia.
          destruct ((d p =? Z.of_nat I)%Z && (d q =? Z.of_nat J)%Z), ((d q =? Z.of_nat I)%Z && (d p =? Z.of_nat J)%Z); ring.
        * rewrite !(neg_eqb (d q)), andb_false_r by assumption. cbn [andb]. cbn [map suml]. ring.
    - unfold sel at 1. rewrite (neg_eqb (d p)) by assumption. cbn [andb]. cbn [map suml]. rewrite suml_map_zero; [ring|].
      intros q _. unfold sel. rewrite !(neg_eqb (d p)) by assumption. rewrite andb_false_r. cbn [andb]. ring.
  Qed.
  Lemma loc_events_sum sym n f fac : (sym = true -> forall p q, (p < n)%nat -> (q < n)%nat -> f p q = f q p) ->
    suml (map (at_entry I J) (loc_events sym n d f fac)) = fac * sumf n (fun p => sumf n (fun q => sel f p q)).
  Proof. intros H. unfold loc_events. destruct sym; [apply sym_events_sum; auto|apply all_events_sum]. Qed.
End Sums.

Lemma sumf_other dpe (f : nat -> Qc) : sumf (2 * dpe) (fun p => f (other dpe p)) = sumf (2 * dpe) f.
Proof.
  replace (2 * dpe)%nat with (dpe + dpe)%nat by lia. rewrite !sumf_app. rewrite Qcplus_comm. f_equal; apply sumf_ext; intros i Hi; unfold other.
  - destruct (Nat.ltb_spec (dpe + i) dpe); [lia|]. f_equal. lia.
  - destruct (Nat.ltb_spec i dpe); [|lia]. f_equal. lia.
Qed.
Lemma ldof_other dofs dpe K1 K2 p : (p < 2 * dpe)%nat -> ldof dofs dpe K2 K1 (other dpe p) = ldof dofs dpe K1 K2 p.
Proof.
  intros H. unfold ldof, other. destruct (Nat.ltb_spec p dpe).
  - destruct (Nat.ltb_spec (p + dpe) dpe); [lia|]. f_equal. lia.
  - destruct (Nat.ltb_spec (p - dpe) dpe); [reflexivity|lia].
Qed.
Lemma pair_entry_swap dofs dofs' dpe C K1 K2 I J :
  (forall p q, (p < 2 * dpe)%nat -> (q < 2 * dpe)%nat -> C K2 K1 (other dpe p) (other dpe q) = C K1 K2 p q) ->
  pair_entry dofs dofs' dpe C K2 K1 I J = pair_entry dofs dofs' dpe C K1 K2 I J.
Proof.
  intros H. unfold pair_entry. rewrite <- sumf_other. apply sumf_ext. intros p Hp. rewrite <- sumf_other. apply sumf_ext. intros q Hq.
  rewrite !ldof_other, H by assumption. reflexivity.
Qed.
Lemma pair_entry_zero dofs dofs' dpe C K1 K2 I J : (forall p q, (p < 2 * dpe)%nat -> (q < 2 * dpe)%nat -> C K1 K2 p q = 0) -> pair_entry dofs dofs' dpe C K1 K2 I J = 0.
Proof.
  intros H. unfold pair_entry. apply sumf_zero. intros p Hp. apply sumf_zero. intros q Hq. rewrite H by assumption. destruct (_ && _); reflexivity.
Qed.

Section Total.
  Variables (nc : nat) (dm : dofmap) (L : double_local) (C : nat -> nat -> nat -> nat -> Qc).
  Notation dpe := (dm_dpe dm).
  Hypothesis HL : interior_ok L dpe nc C.
  Variables I J : nat.
  Notation h K1 K2 := (pair_entry (dm_dofs dm) (dm_dofs dm) dpe C K1 K2 I J).

  Lemma once_sum K1 K2 fac : (K1 < nc)%nat -> (K2 < nc)%nat -> suml (map (at_entry I J) (once dm L C K1 K2 fac)) = fac * h K1 K2.
  Proof using HL. intros H1 H2. destruct HL as (_ & _ & Hs & _). unfold once. rewrite loc_events_sum; [reflexivity|]. intros E p q Hp Hq. apply Hs; assumption. Qed.
  Lemma maybe_sum K1 K2 fac : (K1 < nc)%nat -> (K2 < nc)%nat -> (dl_symCells L = true -> (K1 <= K2)%nat) ->
    suml (map (at_entry I J) (if ignored L K1 K2 then [] else once dm L C K1 K2 fac)) = fac * h K1 K2.
  Proof using HL.
    intros H1 H2 Ho. destruct (ignored L K1 K2) eqn:E; [|apply once_sum; assumption].
    destruct HL as (_ & Hi & _ & _). apply Z.eqb_eq in E. destruct (Hi K1 K2 H1 H2 E) as [[Es Hlt]|Hz]; [specialize (Ho Es); lia|].
    rewrite pair_entry_zero by exact Hz. cbn [map suml]. ring.
  Qed.
  Lemma pair_sum K1 K2 : (K1 <= K2)%nat -> (K2 < nc)%nat ->
    suml (map (at_entry I J) (pair_events dm L C K1 K2)) = if (K1 =? K2)%nat then h K1 K1 else h K1 K2 + h K2 K1.
  Proof using HL.
    intros H1 H2. unfold pair_events. destruct (Nat.eqb_spec K1 K2) as [<-|Hne].
    - rewrite maybe_sum by (auto; lia). ring.
    - destruct (dl_symCells L) eqn:Es.
      + rewrite maybe_sum by (auto; lia). rewrite (pair_entry_swap _ _ _ _ K1 K2); [ring|]. intros p q Hp Hq. destruct HL as (_ & _ & _ & Hs). apply Hs; auto; lia.
      + rewrite map_app, suml_app. rewrite !maybe_sum by (try lia; congruence). ring.
  Qed.
  Lemma interior_sum start stop : (start <= stop)%nat -> (stop <= nc)%nat ->
    suml (map (at_entry I J) (flat_map (fun c1 => flat_map (pair_events dm L C c1) (seq c1 (nc - c1))) (seq start (stop - start)))) =
    sumf (stop - start) (fun i => let p := (start + i)%nat in h p p + suml (map (fun q => h p q + h q p) (seq (p + 1) (nc - (p + 1))))).
  Proof using HL.
    intros H1 H2. rewrite suml_flat, suml_seq. apply sumf_ext. intros i Hi. cbv zeta. set (p := (start + i)%nat). assert (Hp : (p < nc)%nat) by (unfold p; lia). clearbody p.
    rewrite suml_flat. replace (nc - p)%nat with (S (nc - (p + 1))) by lia. cbn [seq map]. change (suml (?x :: ?l)) with (x + suml l).
    rewrite pair_sum, Nat.eqb_refl by lia. f_equal. replace (p + 1)%nat with (S p) by lia. apply suml_ext. intros q Hq. apply in_seq in Hq.
    rewrite pair_sum by lia. destruct (Nat.eqb_spec p q); [lia|reflexivity].
  Qed.
  Lemma interior_total : sumf nc (fun p => h p p + suml (map (fun q => h p q + h q p) (seq (p + 1) (nc - (p + 1))))) = nl_entry (dm_dofs dm) (dm_dofs dm) dpe nc C I J.
  Proof using Type. rewrite <- suml_tab. unfold tab. apply (tri_sum (fun K1 K2 => h K1 K2)). Qed.

  Variables (D : nat -> nat -> nat -> nat -> Qc) (ns : nat).
  Hypothesis HD : forall K e p q, (K < nc)%nat -> (e < ns)%nat -> (p < dpe)%nat -> (q < dpe)%nat -> D K e p q = D K e q p.
  Definition facets K : Qc := sumf dpe (fun j => sumf dpe (fun k =>
    if (dof (dm_dofs dm) K j =? Z.of_nat I)%Z && (dof (dm_dofs dm) K k =? Z.of_nat J)%Z then sumf ns (fun e => D K e j k) else 0)).
  Lemma exterior_sum start stop : (start <= stop)%nat -> (stop <= nc)%nat ->
    suml (map (at_entry I J) (flat_map (fun K => flat_map (facet_events dm D K) (seq 0 ns)) (seq start (stop - start)))) = sumf (stop - start) (fun i => facets (start + i)).
  Proof using HD.
    intros H1 H2. rewrite suml_flat, suml_seq. apply sumf_ext. intros i Hi. set (K := (start + i)%nat). assert (HK : (K < nc)%nat) by (unfold K; lia). clearbody K.
    rewrite suml_flat, suml_seq. unfold facets.
    transitivity (sumf ns (fun e => sumf dpe (fun j => sumf dpe (fun k => sel (dof (dm_dofs dm) K) I J (D K e) j k)))).
    - apply sumf_ext. intros e He. cbn [Nat.add]. unfold facet_events. rewrite sym_events_sum by (intros; apply HD; assumption). ring.
    - rewrite sumf_swap. apply sumf_ext. intros j Hj. rewrite sumf_swap. apply sumf_ext. intros k Hk. unfold sel. destruct (_ && _); [reflexivity|apply sumf_0].
  Qed.
  Lemma exterior_total : sumf nc facets = exterior_entry (dm_dofs dm) (dm_dofs dm) dpe nc ns D I J.
  Proof using Type. unfold exterior_entry, assembled. rewrite suml_seq. reflexivity. Qed.
End Total.

(** ** Additions to a dense matrix *)
Lemma dense_add_ok n m A I J v : wf_dense n m A -> (I < n)%nat -> (J < m)%nat ->
  exists A', dense_addToEntry A I J v = Ok A' /\ wf_dense n m A' /\
    forall i j, (i < n)%nat -> (j < m)%nat -> dmat A' i j = dmat A i j + at_entry i j (I, J, v).
Proof.
  intros (H1 & H2 & H3) HI HJ. unfold dense_addToEntry. rewrite H1, H2, ix_ok, bind_Ok by assumption.
  assert (Hlt : (I * m + J < length (d_data A))%nat) by (rewrite H3; apply ix_lt; assumption).
  rewrite (aget_ok _ _ _ (nth_error_vat _ _ Hlt)), bind_Ok, aset_ok, bind_Ok by assumption. eexists. split; [reflexivity|].
  split; [repeat split; cbn; auto; rewrite upd_length; exact H3|]. intros i j Hi Hj. unfold dmat. cbn [d_data d_m]. rewrite H2, vat_upd by assumption. cbn [at_entry].
  destruct (Nat.eqb_spec (i * m + j) (I * m + J)) as [E|E].
  - apply ix_inj in E; auto. destruct E as [-> ->]. rewrite !Nat.eqb_refl. reflexivity.
  - destruct (Nat.eqb_spec I i) as [->|]; [|cbn; ring]. destruct (Nat.eqb_spec J j) as [->|]; [congruence|cbn; ring].
Qed.
Lemma dense_adds n m evs : forall A, wf_dense n m A -> (forall a b v, In (a, b, v) evs -> (a < n)%nat /\ (b < m)%nat) ->
  exists A', for_list evs (do_add dense_addToEntry) A = Ok A' /\ wf_dense n m A' /\
    forall i j, (i < n)%nat -> (j < m)%nat -> dmat A' i j = dmat A i j + suml (map (at_entry i j) evs).
Proof.
  induction evs as [|[[a b] v] evs IH]; intros A Hw H.
  - exists A. split; [reflexivity|]. split; [exact Hw|]. intros. cbn [map suml]. ring.
  - cbn [for_list do_add]. destruct (H a b v (or_introl eq_refl)) as [Ha Hb]. destruct (dense_add_ok n m A a b v Hw Ha Hb) as (A1 & E1 & W1 & V1).
    rewrite E1, bind_Ok. destruct (IH A1 W1) as (A2 & E2 & W2 & V2); [intros; eapply H; right; eassumption|].
    exists A2. split; [exact E2|]. split; [exact W2|]. intros i j Hi Hj. rewrite V2, V1 by assumption. cbn [map]. change (suml (?x :: ?l)) with (x + suml l). ring.
Qed.
Lemma zeros_ok n m : wf_dense n m (dense_zeros n m) /\ forall i j, dmat (dense_zeros n m) i j = 0.
Proof.
  split; [repeat split; apply repeat_length|]. intros i j. unfold dmat, dense_zeros, vat. cbn.
  destruct (Nat.lt_ge_cases (i * m + j) (n * m)) as [H|H]; [apply nth_repeat|apply nth_overflow; rewrite repeat_length; exact H].
Qed.
Lemma dense_plus_ok n m A A' : wf_dense n m A -> wf_dense n m A' -> exists S, dense_plus A A' = Ok S /\ wf_dense n m S /\
  forall i j, (i < n)%nat -> (j < m)%nat -> dmat S i j = dmat A i j + dmat A' i j.
Proof.
  intros (H1 & H2 & H3) (H4 & H5 & H6). unfold dense_plus. rewrite H1, H2, H3, H4, H5, H6, !Nat.eqb_refl. cbn [andb guard]. rewrite bind_Ok.
  eexists. split; [reflexivity|]. split; [repeat split; cbn; rewrite map_length, combine_length, H3, H6; lia|].
  intros i j Hi Hj. unfold dmat, vat. cbn [d_data d_m]. rewrite H2, H5. pose proof (ix_lt n m i j Hi Hj) as Hlt.
  rewrite (nth_indep _ 0 ((fun p : Qc * Qc => fst p + snd p) (0, 0))) by (rewrite map_length, combine_length, H3, H6; lia).
  rewrite (map_nth (fun p : Qc * Qc => fst p + snd p)), combine_nth by congruence. reflexivity.
Qed.

(** ** The events stay inside the matrix *)
Lemma loc_events_in sym n d f fac N a b v : (forall p, (p < n)%nat -> (d p < Z.of_nat N)%Z) -> In (a, b, v) (loc_events sym n d f fac) -> (a < N)%nat /\ (b < N)%nat.
Proof.
  intros H Hin. unfold loc_events, sym_events, all_events in Hin.
  assert (G : forall p, In p (seq 0 n) -> (0 <= d p)%Z -> (Z.to_nat (d p) < N)%nat) by (intros p Hp H0; apply in_seq in Hp; specialize (H p ltac:(lia)); lia).
  destruct sym; apply in_flat_map in Hin; destruct Hin as (p & Hp & Hin); destruct (Z.leb_spec 0 (d p)) as [H0|H0]; try destruct Hin as [].
  - inversion H1; subst. auto.
  - apply in_flat_map in H1. destruct H1 as (q & Hq & Hin). apply in_seq in Hq. apply in_seq in Hp.
    assert (Hq' : In q (seq 0 n)) by (apply in_seq; lia). assert (Hp' : In p (seq 0 n)) by (apply in_seq; lia).
    destruct (Z.leb_spec 0 (d q)) as [H2|H2]; [|destruct Hin]. destruct Hin as [E|[E|[]]]; inversion E; subst; auto.
  - apply in_flat_map in Hin. destruct Hin as (q & Hq & Hin). destruct (Z.leb_spec 0 (d q)) as [H2|H2]; [|destruct Hin]. destruct Hin as [E|[]]; inversion E; subst; auto.
Qed.

Section Dense.
  Variables (nc nb : nat) (dm : dofmap) (L : double_local) (C D : nat -> nat -> nat -> nat -> Qc) (ext : option (double_local * nat * lmstate * buf Qc)).
  Hypothesis ok : dofs_ok nc (dm_dpe dm) (dm_num dm) nb (dm_dofs dm).
  Notation dpe := (dm_dpe dm).
  Lemma ldof_lt K1 K2 p : (K1 < nc)%nat -> (K2 < nc)%nat -> (p < 2 * dpe)%nat -> (ldof (dm_dofs dm) dpe K1 K2 p < Z.of_nat (dm_num dm))%Z.
  Proof using ok.
    intros H1 H2 Hp. unfold ldof. destruct (Nat.ltb_spec p dpe); eapply (dof_range nc nb dm ok); auto; lia.
  Qed.
  Lemma cells_events_in start stop a b v : (stop <= nc)%nat -> In (a, b, v) (cells_events nc dm L C ext D start stop) -> (a < dm_num dm)%nat /\ (b < dm_num dm)%nat.
  Proof using ok.
    intros Hs Hin. unfold cells_events in Hin. apply in_app_or in Hin. destruct Hin as [Hin|Hin].
    - apply in_flat_map in Hin. destruct Hin as (c1 & H1 & Hin). apply in_flat_map in Hin. destruct Hin as (c2 & H2 & Hin).
      apply in_seq in H1. apply in_seq in H2.
      assert (G : forall K1 K2 fac, (K1 < nc)%nat -> (K2 < nc)%nat -> In (a, b, v) (once dm L C K1 K2 fac) -> (a < dm_num dm)%nat /\ (b < dm_num dm)%nat).
      { intros K1 K2 fac Ha Hb. unfold once. apply loc_events_in. intros p Hp. apply ldof_lt; assumption. }
      unfold pair_events in Hin. destruct (c1 =? c2)%nat; [|destruct (dl_symCells L)].
      + destruct (ignored L c1 c2); [destruct Hin|]. eapply G; [| |exact Hin]; lia.
      + destruct (ignored L c1 c2); [destruct Hin|]. eapply G; [| |exact Hin]; lia.
      + apply in_app_or in Hin. destruct Hin as [Hin|Hin]; [destruct (ignored L c1 c2)|destruct (ignored L c2 c1)]; try (destruct Hin; fail); (eapply G; [| |exact Hin]; lia).
    - unfold ext_events in Hin. destruct ext as [[[[Eo ns] lmE] conE]|]; [|destruct Hin].
      apply in_flat_map in Hin. destruct Hin as (c1 & H1 & Hin). apply in_flat_map in Hin. destruct Hin as (c2 & H2 & Hin). apply in_seq in H1.
      apply (loc_events_in true dpe (dof (dm_dofs dm) c1) (D c1 c2) 1 (dm_num dm) a b v); [|exact Hin]. intros p Hp. eapply (dof_range nc nb dm ok); auto. lia.
  Qed.

  Hypothesis HL : interior_ok L dpe nc C.
  Hypothesis HE : ext_ok ext dpe nc D.
  (** What the cell K contributes, paired with the cells after it. *)
  Definition share_of (I J : nat) (p : nat) : Qc :=
    pair_entry (dm_dofs dm) (dm_dofs dm) dpe C p p I J +
    suml (map (fun q => pair_entry (dm_dofs dm) (dm_dofs dm) dpe C p q I J + pair_entry (dm_dofs dm) (dm_dofs dm) dpe C q p I J) (seq (p + 1) (nc - (p + 1)))) +
    match ext with None => 0 | Some (_, ns, _, _) => facets dm I J D ns p end.
  Lemma cells_sum I J start stop : (start <= stop)%nat -> (stop <= nc)%nat ->
    suml (map (at_entry I J) (cells_events nc dm L C ext D start stop)) = sumf (stop - start) (fun i => share_of I J (start + i)).
  Proof using HL HE.
    intros H1 H2. unfold cells_events. rewrite map_app, suml_app. rewrite (interior_sum nc dm L C HL I J start stop H1 H2).
    symmetry. unfold share_of. rewrite sumf_plus. f_equal. symmetry. unfold ext_events. destruct ext as [[[[Eo ns] lmE] conE]|].
    - destruct HE as [(_ & _ & Hd) _]. apply (exterior_sum nc dm I J D ns Hd start stop H1 H2).
    - rewrite sumf_0. reflexivity.
  Qed.
  Lemma share_total I J : sumf nc (share_of I J) = nl_entry (dm_dofs dm) (dm_dofs dm) dpe nc C I J + ext_entry ext (dm_dofs dm) (dm_dofs dm) dpe nc D I J.
  Proof using Type.
    clear HE. unfold share_of. rewrite sumf_plus. f_equal; [apply interior_total|]. unfold ext_entry. destruct ext as [[[[Eo ns] lmE] conE]|]; [|apply sumf_0]. apply exterior_total.
  Qed.

  Variables (B : nat) (lm : lmstate) (con : buf Qc).
  Hypotheses (HB : (stored_size (dl_symLocal L) (2 * dpe) <= B)%nat) (Hlm : coherent lm) (Hcon : length con = stored_size (dl_symLocal L) (2 * dpe)).
  Lemma local_dense start stop : (start <= stop)%nat -> (stop <= nc)%nat ->
    exists A, assemble_cells dense_addToEntry B dm nc L lm con ext start stop (dense_zeros (dm_num dm) (dm_num dm)) = Ok A /\
      wf_dense (dm_num dm) (dm_num dm) A /\
      forall I J, (I < dm_num dm)%nat -> (J < dm_num dm)%nat -> dmat A I J = sumf (stop - start) (fun i => share_of I J (start + i)).
  Proof using ok HL HE HB Hlm Hcon.
    intros H1 H2. rewrite (assemble_cells_events dense_addToEntry B nc nb dm ok L C ext D lm con start stop) by (auto; apply HL).
    destruct (zeros_ok (dm_num dm) (dm_num dm)) as [Wz Vz].
    destruct (dense_adds (dm_num dm) (dm_num dm) (cells_events nc dm L C ext D start stop) (dense_zeros (dm_num dm) (dm_num dm)) Wz) as (A & E & W & V).
    { intros a b v. apply cells_events_in. exact H2. }
    exists A. split; [exact E|]. split; [exact W|]. intros I J HI HJ. rewrite V, Vz by assumption. rewrite cells_sum by assumption. ring.
  Qed.

  Lemma share_mono size r : (0 < size)%nat -> (share nc size r <= share nc size (r + 1))%nat.
  Proof using Type. clear HB Hcon ok HL HE. intros H. unfold share. apply Nat.div_le_mono; [lia|nia]. Qed.
  Lemma share_le size r : (0 < size)%nat -> (r <= size)%nat -> (share nc size r <= nc)%nat.
  Proof using Type. clear HB Hcon ok HL HE. intros H Hr. unfold share. apply Nat.lt_succ_r. apply Nat.div_lt_upper_bound; [lia|]. nia. Qed.
  Lemma share_last size : (0 < size)%nat -> share nc size size = nc.
  Proof using Type. clear HB Hcon ok HL HE. intros H. unfold share. symmetry. apply (Nat.div_unique _ _ nc (size - 1)); [lia|nia]. Qed.
  Lemma share_first size : (0 < size)%nat -> share nc size 0 = 0%nat.
  Proof using Type. clear HB Hcon ok HL HE. intros H. unfold share. rewrite Nat.mul_0_r. apply Nat.div_small. lia. Qed.

  Lemma getDense_ok comm : comm <> Some 0%nat -> exists A, getDense B dm nc L lm con ext comm = Ok A /\ wf_dense (dm_num dm) (dm_num dm) A /\
    forall I J, (I < dm_num dm)%nat -> (J < dm_num dm)%nat ->
      dmat A I J = nl_entry (dm_dofs dm) (dm_dofs dm) dpe nc C I J + ext_entry ext (dm_dofs dm) (dm_dofs dm) dpe nc D I J.
  Proof using ok HL HE HB Hlm Hcon.
    intros Hc. unfold getDense. destruct comm as [size|].
    - assert (Hs : (0 < size)%nat) by (destruct size; [congruence|lia]).
      destruct (for_range_inv (fun r A => wf_dense (dm_num dm) (dm_num dm) A /\
          forall I J, (I < dm_num dm)%nat -> (J < dm_num dm)%nat -> dmat A I J = sumf (share nc size r) (share_of I J))
        (fun rank A => C <- assemble_cells dense_addToEntry B dm nc L lm con ext (share nc size rank) (share nc size (rank + 1)) (dense_zeros (dm_num dm) (dm_num dm)) ;; dense_plus A C)
        0 size (dense_zeros (dm_num dm) (dm_num dm))) as (A & E & W & V); [lia| | |].
      + destruct (zeros_ok (dm_num dm) (dm_num dm)) as [Wz Vz]. split; [exact Wz|]. intros I J _ _. rewrite Vz, share_first by exact Hs. reflexivity.
      + intros r A Hr (W & V). destruct (local_dense (share nc size r) (share nc size (r + 1))) as (A1 & E1 & W1 & V1).
        { apply share_mono, Hs. }
        { apply share_le; [exact Hs|lia]. }
        rewrite E1, bind_Ok. destruct (dense_plus_ok _ _ A A1 W W1) as (A2 & E2 & W2 & V2). exists A2. split; [exact E2|]. split; [exact W2|].
        intros I J HI HJ. rewrite V2, V, V1 by assumption. pose proof (share_mono size r Hs) as Hm. replace (S r) with (r + 1)%nat by lia.
        rewrite <- sumf_app. f_equal. lia.
      + exists A. split; [exact E|]. split; [exact W|]. intros I J HI HJ. rewrite V, share_last by assumption. apply share_total.
    - destruct (local_dense 0 nc) as (A & E & W & V); [lia|lia|]. exists A. split; [exact E|]. split; [exact W|].
      intros I J HI HJ. rewrite V, Nat.sub_0_r by assumption. apply share_total.
  Qed.
End Dense.
