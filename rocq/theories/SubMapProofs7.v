(** Restriction to a DoFMap on the same mesh, and to components. *)
From Verif Require Import Util Lin CSRModel SparsitySpec CSRSpec OpsProofs3 AssemblyProofs TransferProofs2 SubMapModel SubMapSpec SubMapProofs SubMapProofs2 SubMapProofs3 SubMapProofs4 SubMapProofs5 SubMapProofs6.
Local Open Scope Z_scope.
Set Default Proof Using "Type".

Lemma count_all (l : list Z) n : NoDup l -> (forall z, In z l <-> 0 <= z < Z.of_nat n) -> length l = n.
Proof.
  intros ND H. assert (N2 : NoDup (map Z.of_nat (seq 0 n))).
  { apply FinFun.Injective_map_NoDup; [intros a b; apply Nat2Z.inj|apply seq_NoDup]. }
  assert (L2 : length (map Z.of_nat (seq 0 n)) = n) by (rewrite map_length, seq_length; reflexivity).
  apply Nat.le_antisymm.
  - rewrite <- L2. apply NoDup_incl_length; [exact ND|]. intros z Hz. apply H in Hz. apply in_map_iff. exists (Z.to_nat z). split; [lia|]. apply in_seq. lia.
  - rewrite <- L2 at 1. apply NoDup_incl_length; [exact N2|]. intros z Hz. apply in_map_iff in Hz. destruct Hz as (k & <- & Hk). apply in_seq in Hk. apply H. lia.
Qed.

Lemma seq_idx_ok R : seq 0 (length (c_data R) + 1) = c_indptr R -> R = CSR (c_ncols R) (seq 0 (length (c_data R) + 1)) (c_indices R) (c_data R).
Proof. intros ->. destruct R. reflexivity. Qed.

Lemma same_mesh_restriction_ok dm sub : is_dofmap dm -> is_dofmap sub -> num_cells sub = num_cells dm -> dofs_per_element sub = dofs_per_element dm ->
  same_classes (num_cells dm) (dofs_per_element dm) (the_grid dm) (the_grid sub) ->
  (forall i k, (i < num_cells dm)%nat -> (k < dofs_per_element dm)%nat -> 0 <= the_grid sub i k -> 0 <= the_grid dm i k) ->
  exists R P, getSubMapRestrictionProlongation dm sub None = Ok (R, P) /\
    let n := Z.to_nat (num_dofs dm) in let n' := Z.to_nat (num_dofs sub) in
    wf_csr n' n R /\ takes (num_cells dm) (dofs_per_element dm) (the_grid dm) (the_grid sub) n n' (matrix R) /\
    copies (num_cells dm) (dofs_per_element dm) (the_grid dm) (the_grid sub) n (matrix R) /\
    wf_csr n n' P /\ transposed n n' (matrix R) (matrix P).
Proof.
  intros (Hs & Hn & Hnb & Hr & Hsur) (Ss & Sn & Snb & Sr & Ssur) EC ED SC HG.
  rewrite EC, ED in Sr, Ssur. unfold getSubMapRestrictionProlongation.
  rewrite EC, Nat.eqb_refl. cbn [guard bind].
  set (nc := num_cells dm) in *. set (dpe := dofs_per_element dm) in *.
  set (L := positions (seq 0 nc) (seq 0 dpe)).
  set (act := fun x => (0 <=? gat (the_grid dm) x) && (0 <=? gat (the_grid sub) x)).
  assert (ACT : forall i k, (i < nc)%nat -> (k < dpe)%nat -> act (i, k) = (0 <=? the_grid sub i k)).
  { intros i k Hi Hk. unfold act. cbn [gat]. pose proof (HG i k Hi Hk). destruct (Z.leb_spec 0 (the_grid sub i k)), (Z.leb_spec 0 (the_grid dm i k)); try reflexivity. lia. }
  assert (LOOP : forall {A} (f : Z -> Z -> A -> res A) (s : A), restriction_loop dm sub f s =
    for_list L (fun x '(added, cnt, s) => if act x && negb (existsb (Z.eqb (gat (the_grid sub) x)) added) then s1 <- f (gat (the_grid sub) x) (gat (the_grid dm) x) s ;; Ok (gat (the_grid sub) x :: added, S cnt, s1) else Ok (added, cnt, s)) ([], O, s)).
  { intros A f s. unfold restriction_loop. rewrite nested_range. apply for_list_ext. intros [i k] [[ad cnt] s'] Hx. apply in_grid in Hx. destruct Hx as (Hi & Hk).
    rewrite cell2dof_ok by assumption. cbn [bind]. rewrite cell2dof_ok; [|exact Ss|rewrite EC; exact Hi|rewrite ED; exact Hk]. cbn [bind gat]. reflexivity. }
  assert (CNT : forall added', NoDup added' -> (forall z, In z added' <-> exists x, In x ([] ++ L) /\ act x = true /\ gat (the_grid sub) x = z) -> length added' = Z.to_nat (num_dofs sub)).
  { intros ad ND HA. apply count_all; [exact ND|]. intros z. rewrite HA. cbn [app]. rewrite Z2Nat.id by lia. split.
    - intros ((i & k) & Hx & Ha & <-). apply in_grid in Hx. destruct Hx as (Hi & Hk). rewrite (ACT i k Hi Hk) in Ha. apply Z.leb_le in Ha. cbn [gat]. pose proof (Sr i k Hi Hk). lia.
    - intros Hz. destruct (Ssur z ltac:(lia)) as (i & k & Hi & Hk & Ez). exists (i, k). split; [apply in_grid; auto|]. split; [|exact Ez]. rewrite (ACT i k Hi Hk), Ez. apply Z.leb_le. lia. }
  destruct (once act (gat (the_grid sub)) (fun _ (u : unit) => Ok u) (fun _ _ => True) L [] [] tt) as (ad & u & E1 & ND1 & HA1 & _).
  { constructor. } { intros z. split; [intros []|intros (x & [] & _)]. } { trivial. } { trivial. } { trivial. } { intros. exists s. auto. }
  rewrite (LOOP unit). cbn [length] in E1. rewrite E1. cbn [bind]. rewrite (CNT ad ND1 HA1).
  destruct (packed (the_grid dm) (the_grid sub) nc dpe (Z.to_nat (num_dofs dm)) (Z.to_nat (num_dofs sub))) with (ind0 := repeat (Some 0) (Z.to_nat (num_dofs sub))) as (ind & R & P & E & ES & WF & HT & HV & EP & WP & HP).
  { intros r H. destruct (Ssur (Z.of_nat r) ltac:(lia)) as (i & k & H1 & H2 & H3). eauto. }
  { intros i k i' k' H1 H2 H3 H4 _ H5. apply (SC i k i' k'); assumption. }
  { intros i k H1 H2 H3. pose proof (Hr i k H1 H2). pose proof (Sr i k H1 H2). pose proof (HG i k H1 H2 H3). lia. }
  { apply repeat_length. }
  set (g := fun p => gat (the_grid dm) p).
  assert (Hlt : forall x, In x L -> act x = true -> (Z.to_nat (gat (the_grid sub) x) < Z.to_nat (num_dofs sub))%nat).
  { intros [i k] Hx Ha. apply in_grid in Hx. destruct Hx as (Hi & Hk). rewrite (ACT i k Hi Hk) in Ha. apply Z.leb_le in Ha. cbn [gat]. pose proof (Sr i k Hi Hk). lia. }
  assert (Hfun : forall x y, In x L -> In y L -> act x = true -> act y = true -> Z.to_nat (gat (the_grid sub) x) = Z.to_nat (gat (the_grid sub) y) -> g x = g y).
  { intros [i k] [i' k'] Hx Hy Ha Hb He. apply in_grid in Hx, Hy. destruct Hx as (Hi & Hk), Hy as (Hi' & Hk'). rewrite (ACT i k Hi Hk) in Ha. rewrite (ACT i' k' Hi' Hk') in Hb.
    apply Z.leb_le in Ha, Hb. cbn [gat] in He. apply (SC i k i' k' Hi Hk Hi' Hk'). lia. }
  destruct (once act (gat (the_grid sub)) (fun x b => wr b (Z.to_nat (gat (the_grid sub) x)) (gat (the_grid dm) x))
    (fun d b => (forall x, In x d -> In x L) /\ length b = Z.to_nat (num_dofs sub) /\ (forall x, In x d -> act x = true -> nth_error b (Z.to_nat (gat (the_grid sub) x)) = Some (Some (g x))))
    L [] [] (repeat (Some 0) (Z.to_nat (num_dofs sub)))) as (ad2 & ind2 & E2 & ND2 & HA2 & HL2 & LI2 & HI2).
  { constructor. } { intros z. split; [intros []|intros (x & [] & _)]. }
  { split; [intros x []|]. split; [apply repeat_length|intros x []]. }
  { intros d x b Hx (Hd & Lb & Hv) Ha (y & Hy & Hya & Ey). split; [intros w Hw; apply in_app_or in Hw; destruct Hw as [Hw|[<-|[]]]; auto|]. split; [exact Lb|].
    intros w Hw Hwa. apply in_app_or in Hw. destruct Hw as [Hw|[<-|[]]]; [apply Hv; assumption|]. rewrite <- Ey, (Hv y Hy Hya). f_equal. f_equal. apply Hfun; auto. congruence. }
  { intros d x b Hx (Hd & Lb & Hv) Ha. split; [intros w Hw; apply in_app_or in Hw; destruct Hw as [Hw|[<-|[]]]; auto|]. split; [exact Lb|].
    intros w Hw Hwa. apply in_app_or in Hw. destruct Hw as [Hw|[<-|[]]]; [apply Hv; assumption|congruence]. }
  { intros d x b Hx (Hd & Lb & Hv) Ha. pose proof (Hlt x Hx Ha) as HL. rewrite wr_ok by (rewrite Lb; exact HL). eexists; split; [reflexivity|].
    split; [intros w Hw; apply in_app_or in Hw; destruct Hw as [Hw|[<-|[]]]; auto|]. split; [rewrite upd_length; exact Lb|].
    intros w Hw Hwa. rewrite nth_error_upd. destruct (Nat.eqb_spec (Z.to_nat (gat (the_grid sub) x)) (Z.to_nat (gat (the_grid sub) w))) as [He|Ne]; cbn [andb].
    - rewrite Lb, (proj2 (Nat.ltb_lt _ _) HL). f_equal. f_equal. apply Hfun; auto. apply in_app_or in Hw. destruct Hw as [Hw|[<-|[]]]; auto.
    - apply in_app_or in Hw. destruct Hw as [Hw|[<-|[]]]; [apply Hv; assumption|congruence]. }
  cbn [app] in HI2.
  (* the two buffers agree *)
  assert (EQ : ind2 = ind).
  { destruct (scatter (fun x => 0 <=? gat (the_grid sub) x) (fun x => Z.to_nat (gat (the_grid sub) x)) (gat (the_grid dm)) L [] (repeat (Some 0) (Z.to_nat (num_dofs sub)))) as (b & Eb & Lb & Hv).
    { intros [i k] Hx Ha. cbn [app] in Hx. rewrite repeat_length. apply Hlt; [exact Hx|]. apply in_grid in Hx. rewrite ACT by tauto. exact Ha. }
    { intros [i k] [i' k'] Hx Hy Ha Hb. cbn [app] in Hx, Hy. apply Hfun; try assumption; [apply in_grid in Hx; rewrite ACT by tauto; exact Ha|apply in_grid in Hy; rewrite ACT by tauto; exact Hb]. }
    { intros x []. }
    unfold L in Eb. rewrite E in Eb. injection Eb as <-. rewrite repeat_length in Lb. cbn [app] in Hv.
    apply (nth_ext _ _ None None); [rewrite LI2, Lb; reflexivity|]. intros r Hr'. rewrite LI2 in Hr'. destruct (Ssur (Z.of_nat r) ltac:(lia)) as (i & k & Hi & Hk & Ez).
    assert (HIN : In (i, k) L) by (apply in_grid; auto).
    assert (A1 : act (i, k) = true) by (rewrite (ACT i k Hi Hk), Ez; apply Z.leb_le; lia).
    pose proof (HI2 (i, k) HIN A1) as V1. assert (A2 : (0 <=? gat (the_grid sub) (i, k)) = true) by (cbn [gat]; rewrite <- (ACT i k Hi Hk); exact A1).
    pose proof (Hv (i, k) HIN A2) as V2. cbn [gat] in V1, V2. rewrite Ez, Nat2Z.id in V1, V2. rewrite (nth_error_nth _ _ _ V1), (nth_error_nth _ _ _ V2). reflexivity. }
  rewrite LOOP. cbn [length] in E2. rewrite E2. cbn [bind]. rewrite EQ. rewrite Z2Nat.id in ES by lia. rewrite Z2Nat.id in ES by lia. rewrite Z2Nat.id by lia. rewrite ES. cbn [bind].
  assert (RR : CSR (c_ncols R) (seq 0 (Z.to_nat (num_dofs sub) + 1)) (c_indices R) (c_data R) = R).
  { unfold selection in ES. apply bind_ok in ES. destruct ES as (l & _ & ES). apply bind_ok in ES. destruct ES as (cols & _ & ES). injection ES as <-. reflexivity. }
  rewrite RR, EP. cbn [bind]. exists R, P. split; [reflexivity|]. cbn beta zeta. exact (conj WF (conj HT (conj HV (conj WP HP)))).
Qed.

Lemma product_restriction_ok scalar nC dm c : is_dofmap scalar -> product_of scalar nC dm -> (c < nC)%nat ->
  exists R P, product_getRestrictionProlongation dm scalar nC c = Ok (R, P) /\
    let n := Z.to_nat (num_dofs dm) in let n' := Z.to_nat (num_dofs scalar) in
    wf_csr n' n R /\ (forall s j, (s < n')%nat -> (j < n)%nat -> matrix R s j = if (j =? nC * s + c)%nat then 1%Qc else 0%Qc) /\
    wf_csr n n' P /\ transposed n n' (matrix R) (matrix P).
Proof.
  intros (Ss & Sn & Snb & Sr & Ssur) (EC & ED & Hs & EN & HP) Hc. unfold product_getRestrictionProlongation. rewrite (proj2 (Nat.ltb_lt _ _) Hc). cbn [guard bind]. rewrite EC.
  set (nc := num_cells scalar) in *. set (dpe := dofs_per_element scalar) in *.
  set (D := fun i k => the_grid dm i (k * nC + c)%nat).
  assert (VAL : forall i k, (i < nc)%nat -> (k < dpe)%nat -> D i k = if 0 <=? the_grid scalar i k then Z.of_nat nC * the_grid scalar i k + Z.of_nat c else Z.of_nat nC * (the_grid scalar i k + 1) - Z.of_nat c - 1).
  { intros i k Hi Hk. apply HP; assumption. }
  assert (SGN : forall i k, (i < nc)%nat -> (k < dpe)%nat -> (0 <=? D i k) = (0 <=? the_grid scalar i k)).
  { intros i k Hi Hk. rewrite (VAL i k Hi Hk). destruct (Z.leb_spec 0 (the_grid scalar i k)) as [H|H]; [apply Z.leb_le; nia|apply Z.leb_gt; nia]. }
  assert (RNG : forall i k, (i < nc)%nat -> (k < dpe)%nat -> 0 <= the_grid scalar i k -> D i k = Z.of_nat nC * the_grid scalar i k + Z.of_nat c /\ 0 <= D i k < num_dofs dm).
  { intros i k Hi Hk H. pose proof (VAL i k Hi Hk) as V. rewrite (proj2 (Z.leb_le _ _) H) in V. split; [exact V|]. pose proof (Sr i k Hi Hk). rewrite V, EN. nia. }
  assert (N0 : 0 <= num_dofs dm) by (rewrite EN; nia).
  destruct (packed D (the_grid scalar) nc dpe (Z.to_nat (num_dofs dm)) (Z.to_nat (num_dofs scalar))) with (ind0 := alloc (A := Z) (Z.to_nat (num_dofs scalar))) as (ind & R & P & E & ES & WF & HT & HV & EP & WP & HPT).
  { intros r H. destruct (Ssur (Z.of_nat r) ltac:(lia)) as (i & k & H1 & H2 & H3). eauto. }
  { intros i k i' k' H1 H2 H3 H4 H5 H6. destruct (RNG i k H1 H2 H5) as (-> & _). destruct (RNG i' k' H3 H4 ltac:(lia)) as (-> & _). rewrite H6. reflexivity. }
  { intros i k H1 H2 H3. pose proof (RNG i k H1 H2 H3). pose proof (Sr i k H1 H2). lia. }
  { unfold alloc. apply repeat_length. }
  match goal with |- context [bind ?e ?g] => assert (EE : e = Ok ind) end.
  { rewrite <- E. rewrite nested_range. apply for_list_ext. intros [i k] s Hx. apply in_grid in Hx. destruct Hx as (Hi & Hk).
    rewrite cell2dof_ok; [|exact Hs|rewrite EC; exact Hi|rewrite ED; apply (pos_lt dpe nC k c Hk Hc)]. cbn [bind gat]. fold (D i k). rewrite (SGN i k Hi Hk).
    destruct (Z.leb_spec 0 (the_grid scalar i k)) as [H|H]; [|reflexivity]. rewrite cell2dof_ok by assumption. cbn [bind]. rewrite zidx_ok by exact H. reflexivity. }
  rewrite EE. cbn [bind]. rewrite !Z2Nat.id in ES by lia. rewrite ES. cbn [bind]. rewrite EP. cbn [bind]. exists R, P. split; [reflexivity|]. cbn beta zeta.
  split; [exact WF|]. split; [|split; [exact WP|exact HPT]].
  intros s j Hs' Hj. destruct (Ssur (Z.of_nat s) ltac:(lia)) as (i & k & H1 & H2 & H3). destruct (RNG i k H1 H2 ltac:(lia)) as (V & B). destruct (HT s j Hs' Hj) as (T1 & T0).
  destruct (Nat.eqb_spec j (nC * s + c)) as [->|Nj].
  - apply T1. exists i, k. split; [exact H1|]. split; [exact H2|]. split; [exact H3|]. rewrite V, H3. lia.
  - apply T0. intros (i' & k' & H1' & H2' & H3' & H4'). destruct (RNG i' k' H1' H2' ltac:(lia)) as (V' & _). apply Nj. rewrite V', H3' in H4'. lia.
Qed.
