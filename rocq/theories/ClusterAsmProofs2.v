(** Entering the selected entries of local matrices. *)
From Verif Require Import Util Lin MeshModel LocalSpec FormsProofs2 ReorderProofs AssemblyModel AssemblySpec AssemblyProofs AssemblyProofs2 AssemblyProofs7
  RestrictionProofs NonlocalModel NonlocalSpec NonlocalProofs NonlocalModel2 NonlocalProofs2 NonlocalProofs3 ClusterAsmModel ClusterAsmProofs.
From Coq Require Import Lia NArith.
Set Default Proof Using "Type".

Definition mev (sym : bool) (n : nat) (d : nat -> Z) (f : nat -> nat -> Qc) (fac : Qc) (mask : N) : list contribution :=
  if sym then flat_map (fun p =>
    (if tb mask (row_start n p) then [(Z.to_nat (d p), Z.to_nat (d p), (fac * f p p)%Qc)] else []) ++
    flat_map (fun q => if tb mask (row_start n p + (q - p)) then
        [(Z.to_nat (d p), Z.to_nat (d q), (fac * f p q)%Qc); (Z.to_nat (d q), Z.to_nat (d p), (fac * f p q)%Qc)] else [])
      (seq (p + 1) (n - (p + 1)))) (seq 0 n)
  else flat_map (fun p => flat_map (fun q => if tb mask (p * n + q) then [(Z.to_nat (d p), Z.to_nat (d q), (fac * f p q)%Qc)] else []) (seq 0 n)) (seq 0 n).

Section Enter.
  Context {M : Type}.
  Variables (add : M -> nat -> nat -> Qc -> res M) (n : nat) (ld : buf Z) (d : nat -> Z) (con : buf Qc) (f : nat -> nat -> Qc) (fac : Qc) (mask : N).
  Hypothesis Hld : forall p, p < n -> nth_error ld p = Some (Some (d p)).
  Lemma add_sym_masked_ok A :
    (forall p q, p <= q -> q < n -> tb mask (row_start n p + (q - p)) = true -> nth_error con (row_start n p + (q - p)) = Some (Some (f p q))) ->
    add_sym_masked add n ld con fac mask A = for_list (mev true n d f fac mask) (do_add add) A.
  Proof using Hld.
    intros Hc. unfold add_sym_masked, mev. rewrite for_list_flat. unfold for_range. change (0, A) with (row_start n 0, A). rewrite Nat.sub_0_r.
    match goal with |- _ = for_list _ ?g _ => rewrite (count_loop _ g (row_start n)) end.
    - rewrite bind_assoc. match goal with |- bind ?x _ = _ => destruct x; reflexivity end.
    - intros p A' Hp. rewrite (rd_ok _ _ _ (Hld p ltac:(lia))), bind_Ok, tbn, for_list_bind. assert (E := Hc p p ltac:(lia) ltac:(lia)). rewrite Nat.sub_diag, Nat.add_0_r in E.
      replace (if tb mask (row_start n p) then v <- rd con (row_start n p);; add_at add A' (d p) (d p) (fac * v)%Qc else Ok A') with
        (for_list (if tb mask (row_start n p) then [(Z.to_nat (d p), Z.to_nat (d p), (fac * f p p)%Qc)] else []) (do_add add) A').
      2:{ destruct (tb mask (row_start n p)); [|reflexivity]. rewrite (rd_ok _ _ _ (E eq_refl)), bind_Ok. cbn [for_list do_add]. unfold add_at. destruct (add A' _ _ _); reflexivity. }
      rewrite bind_assoc. apply bind_ext. intros A1. rewrite for_list_flat.
      replace (row_start n p + 1) with ((fun q => row_start n p + (q - p)) (p + 1)) by lia.
      match goal with |- _ = bind (for_list _ ?g _) _ => rewrite (count_loop _ g (fun q => row_start n p + (q - p))) end.
      + apply bind_ext. intros A2. cbn [row_start]. do 2 f_equal. lia.
      + intros q A2 Hq. rewrite tbn. assert (E2 := Hc p q ltac:(lia) ltac:(lia)). destruct (tb mask (row_start n p + (q - p))).
        * rewrite (rd_ok _ _ _ (Hld q ltac:(lia))), bind_Ok, (rd_ok _ _ _ (E2 eq_refl)), bind_Ok. cbn [for_list do_add]. unfold add_at. rewrite !bind_assoc. apply bind_ext.
          intros A3. rewrite !bind_assoc. apply bind_ext. intros A4. rewrite bind_Ok. do 2 f_equal. lia.
        * cbn [for_list]. rewrite !bind_Ok. do 2 f_equal. lia.
  Qed.
  Lemma add_full_masked_ok A :
    (forall p q, p < n -> q < n -> tb mask (p * n + q) = true -> nth_error con (p * n + q) = Some (Some (f p q))) ->
    add_full_masked add n ld con fac mask A = for_list (mev false n d f fac mask) (do_add add) A.
  Proof using Hld.
    intros Hc. unfold add_full_masked, mev. rewrite for_list_flat. unfold for_range. change (0, A) with ((fun p => p * n) 0, A). rewrite !Nat.sub_0_r.
    match goal with |- _ = for_list _ ?g _ => rewrite (count_loop _ g (fun p => p * n)) end.
    - rewrite bind_assoc. match goal with |- bind ?x _ = _ => destruct x; reflexivity end.
    - intros p A' Hp. rewrite (rd_ok _ _ _ (Hld p ltac:(lia))), bind_Ok. rewrite for_list_flat. replace (p * n) with ((fun q => p * n + q) 0) at 1 by (cbn beta; lia).
      match goal with |- _ = bind (for_list _ ?g _) _ => rewrite (count_loop _ g (fun q => p * n + q)) end.
      + apply bind_ext. intros A2. do 2 f_equal. lia.
      + intros q A2 Hq. rewrite tbn. assert (E2 := Hc p q ltac:(lia) ltac:(lia)). destruct (tb mask (p * n + q)).
        * rewrite (rd_ok _ _ _ (Hld q ltac:(lia))), bind_Ok, (rd_ok _ _ _ (E2 eq_refl)), bind_Ok. cbn [for_list do_add]. unfold add_at. rewrite !bind_assoc. apply bind_ext.
          intros A3. rewrite bind_Ok. do 2 f_equal. lia.
        * cbn [for_list]. rewrite !bind_Ok. do 2 f_equal. lia.
  Qed.
  Lemma add_masked_ok sym A :
    (forall k, k < stored_size sym n -> tb mask k = true -> nth_error con k = Some (Some (nth k (stored_values sym n f) 0%Qc))) ->
    (if sym then add_sym_masked add n ld con fac mask A else add_full_masked add n ld con fac mask A) = for_list (mev sym n d f fac mask) (do_add add) A.
  Proof using Hld.
    intros H2. unfold stored_size, stored_values in *. destruct sym.
    - apply add_sym_masked_ok. intros p q Hp Hq Ht. rewrite H2 by (try apply row_start_lt; try assumption; lia).
      rewrite triangle_shift by lia. do 2 f_equal. cbn [Nat.add]. f_equal. lia.
    - apply add_full_masked_ok. intros p q Hp Hq Ht. rewrite H2 by (try assumption; nia). do 2 f_equal.
      apply nth_error_nth. rewrite full_matrix_nth by assumption. reflexivity.
  Qed.
End Enter.

(** Only pairs of interior degrees of freedom are selected. *)
Definition selects_inner (sym : bool) (n : nat) (d : nat -> Z) (mask : N) : Prop :=
  forall p q, p < n -> q < n -> tb mask (midx sym n p q) = true -> (0 <= d p)%Z /\ (0 <= d q)%Z.
Lemma mev_in sym n d f fac mask Nd a b v : (forall p, p < n -> (d p < Z.of_nat Nd)%Z) -> selects_inner sym n d mask -> In (a, b, v) (mev sym n d f fac mask) -> a < Nd /\ b < Nd.
Proof.
  intros H Hs Hin. unfold mev in Hin. unfold selects_inner, midx in Hs.
  destruct sym; apply in_flat_map in Hin; destruct Hin as (p & Hp & Hin); apply in_seq in Hp.
  - apply in_app_or in Hin. destruct Hin as [Hin|Hin].
    + specialize (Hs p p ltac:(lia) ltac:(lia)). rewrite Nat.min_id, Nat.max_id, Nat.sub_diag, Nat.add_0_r in Hs.
      destruct (tb mask (row_start n p)); [|destruct Hin]. destruct Hin as [E|[]]. injection E as <- <- <-. pose proof (H p ltac:(lia)). specialize (Hs eq_refl). lia.
    + apply in_flat_map in Hin. destruct Hin as (q & Hq & Hin). apply in_seq in Hq. specialize (Hs p q ltac:(lia) ltac:(lia)). rewrite Nat.min_l, Nat.max_r in Hs by lia.
      destruct (tb mask (row_start n p + (q - p))); [|destruct Hin]. specialize (Hs eq_refl). pose proof (H p ltac:(lia)). pose proof (H q ltac:(lia)).
      destruct Hin as [E|[E|[]]]; injection E as <- <- <-; lia.
  - apply in_flat_map in Hin. destruct Hin as (q & Hq & Hin). apply in_seq in Hq. specialize (Hs p q ltac:(lia) ltac:(lia)).
    destruct (tb mask (p * n + q)); [|destruct Hin]. specialize (Hs eq_refl). pose proof (H p ltac:(lia)). pose proof (H q ltac:(lia)).
    destruct Hin as [E|[]]; injection E as <- <- <-; lia.
Qed.
Local Open Scope Qc_scope.
Definition msel (sym : bool) (n : nat) (mask : N) (f : nat -> nat -> Qc) (p q : nat) : Qc := if tb mask (midx sym n p q) then f p q else 0.
Lemma mev_sum sym n d f fac mask I J : (sym = true -> forall p q, (p < n)%nat -> (q < n)%nat -> f p q = f q p) -> selects_inner sym n d mask ->
  suml (map (at_entry I J) (mev sym n d f fac mask)) = fac * sumf n (fun p => sumf n (fun q => sel d I J (msel sym n mask f) p q)).
Proof.
  intros Hf Hs. unfold mev. unfold selects_inner in Hs. destruct sym.
  - rewrite <- tri_sum. rewrite suml_flat, <- suml_map_scal. apply suml_ext. intros p Hp. apply in_seq in Hp. rewrite map_app, suml_app.
    rewrite Qcmult_plus_distr_r, <- suml_map_scal. f_equal.
    + unfold sel, msel. specialize (Hs p p ltac:(lia) ltac:(lia)). unfold midx in *. rewrite Nat.min_id, Nat.max_id, Nat.sub_diag, Nat.add_0_r in *.
      destruct (tb mask (row_start n p)).
      * cbn [map at_entry suml]. rewrite !to_nat_eqb by (apply Hs; reflexivity). destruct (_ && _); ring.
      * cbn [map suml]. destruct (_ && _); ring.
    + rewrite suml_flat. apply suml_ext. intros q Hq. apply in_seq in Hq. unfold sel, msel. specialize (Hs p q ltac:(lia) ltac:(lia)).
      assert (E : midx true n q p = midx true n p q) by (unfold midx; rewrite Nat.min_comm, Nat.max_comm; reflexivity). rewrite E.
      assert (E' : midx true n p q = (row_start n p + (q - p))%nat) by (unfold midx; rewrite Nat.min_l, Nat.max_r by lia; reflexivity). rewrite E' in *.
      destruct (tb mask (row_start n p + (q - p))%nat).
      * cbn [map at_entry]. cbn [suml]. destruct (Hs eq_refl) as [H1 H2]. rewrite !to_nat_eqb by assumption. rewrite (Hf eq_refl q p) by lia.
        destruct ((d p =? Z.of_nat I)%Z && (d q =? Z.of_nat J)%Z), ((d q =? Z.of_nat I)%Z && (d p =? Z.of_nat J)%Z); ring.
      * cbn [map suml]. destruct (_ && _), (_ && _); ring.
  - rewrite suml_flat, <- sumf_scal, <- suml_tab. apply suml_ext. intros p Hp. apply in_seq in Hp.
    rewrite suml_flat, <- sumf_scal, <- suml_tab. apply suml_ext. intros q Hq. apply in_seq in Hq. unfold sel, msel. specialize (Hs p q ltac:(lia) ltac:(lia)). unfold midx in *.
    destruct (tb mask (p * n + q)%nat).
    + cbn [map at_entry suml]. destruct (Hs eq_refl) as [H1 H2]. rewrite !to_nat_eqb by assumption. destruct (_ && _); ring.
    + cbn [map suml]. destruct (_ && _); ring.
Qed.
Lemma mev_none sym n d f fac mask : (forall p q, (p < n)%nat -> (q < n)%nat -> tb mask (midx sym n p q) = false) -> mev sym n d f fac mask = [].
Proof.
  intros H. unfold mev, midx in *.
  assert (G : forall (g : nat -> list contribution) l, (forall p, In p l -> g p = []) -> flat_map g l = []).
  { intros g l. induction l as [|x l IH]; intros Hg; [reflexivity|]. cbn [flat_map]. rewrite Hg by (left; reflexivity). apply IH. intros; apply Hg; right; assumption. }
  destruct sym; apply G; intros p Hp; apply in_seq in Hp.
  - pose proof (H p p ltac:(lia) ltac:(lia)) as E. rewrite Nat.min_id, Nat.max_id, Nat.sub_diag, Nat.add_0_r in E. rewrite E. cbn [app]. apply G. intros q Hq. apply in_seq in Hq.
    specialize (H p q ltac:(lia) ltac:(lia)). rewrite Nat.min_l, Nat.max_r in H by lia. rewrite H. reflexivity.
  - apply G. intros q Hq. apply in_seq in Hq. rewrite H by lia. reflexivity.
Qed.
