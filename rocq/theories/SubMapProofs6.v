(** Restriction to parts, and to components. *)
From Verif Require Import Util Lin CSRModel SparsitySpec CSRSpec OpsProofs3 AssemblyProofs TransferProofs2 SubMapModel SubMapSpec SubMapProofs SubMapProofs2 SubMapProofs3 SubMapProofs4 SubMapProofs5.
Local Open Scope Z_scope.
Set Default Proof Using "Type".

Lemma skip_loop {S} (f : nat -> S -> res S) n s : (forall k s, (k < n)%nat -> f k s = Ok s) -> for_range 0 n f s = Ok s.
Proof.
  intros H. rewrite for_range_list, Nat.sub_0_r. assert (G : forall l, (forall k, In k l -> (k < n)%nat) -> for_list l f s = Ok s).
  { induction l as [|k l IH]; intros Hl; cbn [for_list]; [reflexivity|]. rewrite H by (apply Hl; left; reflexivity). cbn [bind]. apply IH. intros j Hj. apply Hl. right. exact Hj. }
  apply G. intros k Hk. apply in_seq in Hk. lia.
Qed.
Lemma for_range_ext {S} (f g : nat -> S -> res S) n s : (forall k s, (k < n)%nat -> f k s = g k s) -> for_range 0 n f s = for_range 0 n g s.
Proof. intros H. rewrite !for_range_list. apply for_list_ext. intros k s' Hk. apply in_seq in Hk. apply H. lia. Qed.

(** [sub] numbers the cells [sel] of [dm] anew. *)
Lemma splitter_restriction_ok dm sub sel : is_dofmap dm -> NoDup sel -> cells_of dm sel ->
  renumbers (length sel) (dofs_per_element dm) (on_cells (the_grid dm) sel) (fun z => 0 <= z) sub ->
  exists R P, splitter_getRestrictionProlongation dm sub sel = Ok (R, P) /\
    let n := Z.to_nat (num_dofs dm) in let n' := Z.to_nat (num_dofs sub) in
    wf_csr n' n R /\ takes (length sel) (dofs_per_element dm) (on_cells (the_grid dm) sel) (the_grid sub) n n' (matrix R) /\
    copies (length sel) (dofs_per_element dm) (on_cells (the_grid dm) sel) (the_grid sub) n (matrix R) /\
    wf_csr n n' P /\ transposed n n' (matrix R) (matrix P).
Proof.
  intros (Hs & Hn & Hnb & Hr & Hsur) ND HC (EC & ED & (Ss & Sn & Snb & Sr & Ssur) & SC & HG).
  rewrite EC, ED in Sr, Ssur. unfold splitter_getRestrictionProlongation, getSubMapRestrictionProlongation2.
  set (nc := num_cells dm) in *. set (dpe := dofs_per_element dm) in *.
  destruct (index_loop sel nc ND HC) as (a & Ea & La & Ha & Hno). rewrite Ea. cbn [bind].
  set (D' := fun c k => match nth_error a c with Some z => if 0 <=? z then the_grid sub (Z.to_nat z) k else -1 | None => -1 end).
  assert (DIN : forall i k, (i < length sel)%nat -> D' (nth i sel O) k = the_grid sub i k).
  { intros i k Hi. unfold D'. rewrite (Ha i Hi). rewrite (proj2 (Z.leb_le 0 (Z.of_nat i))) by lia. rewrite Nat2Z.id. reflexivity. }
  assert (DPOS : forall c k, (c < nc)%nat -> 0 <= D' c k -> exists i, (i < length sel)%nat /\ c = nth i sel O).
  { intros c k Hc HD. destruct (in_dec Nat.eq_dec c sel) as [I0|N0].
    - destruct (In_nth sel c O I0) as (i & Hi & Ei). exists i. auto.
    - unfold D' in HD. rewrite (Hno c Hc N0) in HD. cbn in HD. lia. }
  assert (CL : forall i, (i < length sel)%nat -> (nth i sel O < nc)%nat) by (intros i Hi; apply HC; apply nth_In; exact Hi).
  destruct (packed (the_grid dm) D' nc dpe (Z.to_nat (num_dofs dm)) (Z.to_nat (num_dofs sub))) with (ind0 := alloc (A := Z) (Z.to_nat (num_dofs sub))) as (ind & R & P & E & ES & WF & HT & HV & EP & WP & HP).
  { intros r H. destruct (Ssur (Z.of_nat r) ltac:(lia)) as (i & k & H1 & H2 & H3). exists (nth i sel O), k. split; [apply CL; exact H1|]. split; [exact H2|]. rewrite (DIN i k H1). exact H3. }
  { intros c k c' k' H1 H2 H3 H4 H5 H6. destruct (DPOS c k H1 H5) as (i & Hi & ->). destruct (DPOS c' k' H3 ltac:(lia)) as (i' & Hi' & ->).
    rewrite (DIN i k Hi), (DIN i' k' Hi') in H6. apply (SC i k i' k' Hi H2 Hi' H4). exact H6. }
  { intros c k H1 H2 H3. destruct (DPOS c k H1 H3) as (i & Hi & ->). rewrite (DIN i k Hi) in *. pose proof (Sr i k Hi H2). pose proof (proj1 (HG i k Hi H2) H3) as G0. unfold on_cells in G0. pose proof (Hr (nth i sel O) k H1 H2). lia. }
  { unfold alloc. apply repeat_length. }
  match goal with |- context [bind ?e ?g] => assert (EE : e = Ok R) end.
  { match goal with |- bind ?e ?g = _ => assert (EI : e = Ok ind) end.
    { rewrite <- E. transitivity (for_range 0 nc (fun c b => for_range 0 dpe (fun k b => if 0 <=? gat D' (c, k) then wr b (Z.to_nat (gat D' (c, k))) (gat (the_grid dm) (c, k)) else Ok b) b) (alloc (Z.to_nat (num_dofs sub)))).
      - apply for_range_ext. intros c s Hc. destruct (in_dec Nat.eq_dec c sel) as [I0|N0].
        + destruct (In_nth sel c O I0) as (i & Hi & <-). unfold aget. rewrite (Ha i Hi). cbn [bind]. rewrite (proj2 (Z.leb_le 0 (Z.of_nat i))) by lia. rewrite Nat2Z.id.
          apply for_range_ext. intros k s' Hk. cbn [gat]. rewrite (DIN i k Hi). rewrite cell2dof_ok; [|exact Ss|rewrite EC; exact Hi|rewrite ED; exact Hk]. cbn [bind].
          destruct (0 <=? the_grid sub i k); [|reflexivity]. rewrite cell2dof_ok by assumption. reflexivity.
        + unfold aget. rewrite (Hno c Hc N0). cbn [bind]. cbn [Z.leb Z.compare]. symmetry. apply skip_loop. intros k s' Hk. cbn [gat]. unfold D'. rewrite (Hno c Hc N0). reflexivity.
      - rewrite nested_range. apply for_list_ext. intros [i k] s _. reflexivity. }
    rewrite EI. cbn [bind]. rewrite !Z2Nat.id in ES by lia. exact ES. }
  rewrite EE. cbn [bind]. rewrite EP. cbn [bind]. exists R, P. split; [reflexivity|]. cbn beta zeta. split; [exact WF|]. split; [|split; [|split; [exact WP|exact HP]]].
  - intros r c Hr' Hc'. destruct (HT r c Hr' Hc') as (T1 & T0). split.
    + intros (i & k & H1 & H2 & H3 & H4). apply T1. exists (nth i sel O), k. split; [apply CL; exact H1|]. split; [exact H2|]. rewrite (DIN i k H1). split; [exact H3|exact H4].
    + intros NO. apply T0. intros (c0 & k & H1 & H2 & H3 & H4). apply NO. destruct (DPOS c0 k H1 ltac:(lia)) as (i & Hi & ->). exists i, k. rewrite (DIN i k Hi) in H3. split; [exact Hi|]. split; [exact H2|]. split; [exact H3|exact H4].
  - intros x i k Hi Hk Hp. rewrite <- (DIN i k Hi) in *. apply HV; [apply CL; exact Hi|exact Hk|exact Hp].
Qed.

(** A loop that writes only once to each place. *)
Lemma once {X A} (act : X -> bool) (F : X -> Z) (body : X -> A -> res A) (Q : list X -> A -> Prop) l : forall done added s,
  NoDup added -> (forall z, In z added <-> exists x, In x done /\ act x = true /\ F x = z) -> Q done s ->
  (forall d x s, In x l -> Q d s -> act x = true -> (exists y, In y d /\ act y = true /\ F y = F x) -> Q (d ++ [x]) s) ->
  (forall d x s, In x l -> Q d s -> act x = false -> Q (d ++ [x]) s) ->
  (forall d x s, In x l -> Q d s -> act x = true -> exists s', body x s = Ok s' /\ Q (d ++ [x]) s') ->
  exists added' s', for_list l (fun x '(added, cnt, s) => if act x && negb (existsb (Z.eqb (F x)) added) then s1 <- body x s ;; Ok (F x :: added, S cnt, s1) else Ok (added, cnt, s)) (added, length added, s) = Ok (added', length added', s') /\
    NoDup added' /\ (forall z, In z added' <-> exists x, In x (done ++ l) /\ act x = true /\ F x = z) /\ Q (done ++ l) s'.
Proof.
  induction l as [|x l IH]; intros done added s ND HA HQ Hsame Hskip Hbody; cbn [for_list].
  - exists added, s. rewrite app_nil_r. auto.
  - assert (EA : done ++ x :: l = (done ++ [x]) ++ l) by (rewrite <- app_assoc; reflexivity).
    assert (EX : existsb (Z.eqb (F x)) added = true <-> In (F x) added).
    { rewrite existsb_exists. split; [intros (z & Hz & Ez); apply Z.eqb_eq in Ez; rewrite Ez; exact Hz|intros Hz; exists (F x); split; [exact Hz|apply Z.eqb_refl]]. }
    destruct (act x) eqn:Ex; cbn [andb].
    + destruct (existsb (Z.eqb (F x)) added) eqn:Ee; cbn [negb bind].
      * pose proof (proj1 EX eq_refl) as Hin. destruct (IH (done ++ [x]) added s ND) as (a' & s' & E & R).
        -- intros z. rewrite HA. split; intros (y & Hy & H1 & H2).
           ++ exists y. split; [apply in_or_app; left; exact Hy|auto].
           ++ apply in_app_or in Hy. destruct Hy as [Hy|[<-|[]]]; [exists y; auto|]. apply HA. rewrite <- H2. exact Hin.
        -- apply Hsame; [left; reflexivity|exact HQ|exact Ex|]. apply HA. exact Hin.
        -- intros d y t Hy. apply Hsame. right; exact Hy.
        -- intros d y t Hy. apply Hskip. right; exact Hy.
        -- intros d y t Hy. apply Hbody. right; exact Hy.
        -- exists a', s'. rewrite EA. split; [exact E|exact R].
      * destruct (Hbody done x s (or_introl eq_refl) HQ Ex) as (s1 & E1 & HQ1). rewrite E1. cbn [bind].
        assert (NI : ~ In (F x) added) by (intros Hin; apply EX in Hin; discriminate).
        destruct (IH (done ++ [x]) (F x :: added) s1) as (a' & s' & E & R).
        -- constructor; [exact NI|exact ND].
        -- intros z. cbn [In]. rewrite HA. split.
           ++ intros [<-|(y & Hy & H1 & H2)]; [exists x; split; [apply in_or_app; right; left; reflexivity|auto]|exists y; split; [apply in_or_app; left; exact Hy|auto]].
           ++ intros (y & Hy & H1 & H2). apply in_app_or in Hy. destruct Hy as [Hy|[<-|[]]]; [right; exists y; auto|left; exact H2].
        -- exact HQ1.
        -- intros d y t Hy. apply Hsame. right; exact Hy.
        -- intros d y t Hy. apply Hskip. right; exact Hy.
        -- intros d y t Hy. apply Hbody. right; exact Hy.
        -- exists a', s'. rewrite EA. split; [exact E|exact R].
    + cbn [bind]. destruct (IH (done ++ [x]) added s ND) as (a' & s' & E & R).
      -- intros z. rewrite HA. split; intros (y & Hy & H1 & H2).
         ++ exists y. split; [apply in_or_app; left; exact Hy|auto].
         ++ apply in_app_or in Hy. destruct Hy as [Hy|[<-|[]]]; [exists y; auto|congruence].
      -- apply Hskip; [left; reflexivity|exact HQ|exact Ex].
      -- intros d y t Hy. apply Hsame. right; exact Hy.
      -- intros d y t Hy. apply Hskip. right; exact Hy.
      -- intros d y t Hy. apply Hbody. right; exact Hy.
      -- exists a', s'. rewrite EA. split; [exact E|exact R].
Qed.
