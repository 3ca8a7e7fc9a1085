(** Renumbering and scattering loops. *)
From Verif Require Import Util Lin CSRModel AssemblyProofs TransferProofs2 SubMapModel SubMapSpec.
Local Open Scope Z_scope.
Set Default Proof Using "Type".

(** Nested loops as one loop over positions. *)
Definition positions (is ks : list nat) : list (nat * nat) := flat_map (fun i => map (pair i) ks) is.
Lemma in_positions is ks i k : In (i, k) (positions is ks) <-> In i is /\ In k ks.
Proof.
  unfold positions. rewrite in_flat_map. split.
  - intros (j & Hj & H). apply in_map_iff in H. destruct H as (k' & E & Hk). injection E as <- <-. auto.
  - intros (Hi & Hk). exists i. split; [exact Hi|]. apply in_map. exact Hk.
Qed.
Lemma for_list_map {A B S} (g : A -> B) (f : B -> S -> res S) l s : for_list (map g l) f s = for_list l (fun x => f (g x)) s.
Proof. revert s; induction l as [|x l IH]; intros s; cbn [map for_list]; [reflexivity|]. destruct (f (g x) s) as [s'|e]; cbn [bind]; auto. Qed.
Lemma nested_list {S} (f : nat -> nat -> S -> res S) is ks s :
  for_list is (fun i s => for_list ks (f i) s) s = for_list (positions is ks) (fun '(i, k) => f i k) s.
Proof. unfold positions. rewrite for_list_flat. apply for_list_ext. intros i s' _. rewrite for_list_map. reflexivity. Qed.
Lemma nested_range {S} (f : nat -> nat -> S -> res S) nc dpe s :
  for_range 0 nc (fun i s => for_range 0 dpe (f i) s) s = for_list (positions (seq 0 nc) (seq 0 dpe)) (fun '(i, k) => f i k) s.
Proof.
  rewrite for_range_list, Nat.sub_0_r, <- nested_list. apply for_list_ext. intros i s' _. rewrite for_range_list, Nat.sub_0_r. reflexivity.
Qed.
Lemma in_grid nc dpe i k : In (i, k) (positions (seq 0 nc) (seq 0 dpe)) <-> (i < nc)%nat /\ (k < dpe)%nat.
Proof. rewrite in_positions, !in_seq. lia. Qed.

Lemma at_pos_ok nc dpe i k : (i < nc)%nat -> (k < dpe)%nat -> at_pos nc dpe i k = Ok (i * dpe + k)%nat.
Proof. intros Hi Hk. unfold at_pos. rewrite (proj2 (Nat.ltb_lt _ _) Hi), (proj2 (Nat.ltb_lt _ _) Hk). reflexivity. Qed.
Lemma pos_lt nc dpe i k : (i < nc)%nat -> (k < dpe)%nat -> (i * dpe + k < nc * dpe)%nat.
Proof. intros Hi Hk. pose proof (Nat.mul_le_mono_r (S i) nc dpe Hi) as H. cbn [Nat.mul] in H. lia. Qed.
Lemma pos_inj dpe i k i' k' : (k < dpe)%nat -> (k' < dpe)%nat -> (i * dpe + k = i' * dpe + k')%nat -> i = i' /\ k = k'.
Proof.
  intros Hk Hk' E. rewrite !(Nat.mul_comm _ dpe) in E. pose proof (Nat.div_mod_unique dpe i i' k k' Hk Hk' E) as [H1 H2]. auto.
Qed.
Lemma cell2dof_ok dm i k : shaped dm -> (i < num_cells dm)%nat -> (k < dofs_per_element dm)%nat -> cell2dof dm i k = Ok (the_grid dm i k).
Proof.
  intros Hs Hi Hk. unfold cell2dof. rewrite at_pos_ok by auto. cbn [bind]. unfold the_grid. apply aget_nth. rewrite Hs. apply pos_lt; auto.
Qed.

(** The renumbering loop: [G] says which become degrees of freedom. *)
Section Number.
  Context {X : Type} (D : X -> Z) (pos : X -> nat) (G : Z -> Prop) (N : nat).
  Definition ninv (done : list X) (st : nstate) : Prop :=
    let '(d, n, b, a) := st in
    length a = N /\ 0 <= n /\ b <= -1 /\
    (forall x, In x done -> exists v, lookup d (D x) = Some v /\ nth_error a (pos x) = Some (Some v)) /\
    (forall z v, lookup d z = Some v -> exists x, In x done /\ D x = z) /\
    (forall z v, lookup d z = Some v -> b < v < n /\ (0 <= v <-> G z)) /\
    (forall z z' v, lookup d z = Some v -> lookup d z' = Some v -> z = z') /\
    (forall v, b < v < n -> exists z, lookup d z = Some v).
  Lemma number_inv done x st cond :
    ninv done st -> (pos x < N)%nat -> (forall y, In y done -> pos y = pos x -> D y = D x) ->
    (lookup (fst (fst (fst st))) (D x) = None -> exists c, cond (D x) = Ok c /\ (c = true <-> G (D x))) ->
    exists st', number cond (D x) (pos x) st = Ok st' /\ ninv (done ++ [x]) st'.
  Proof.
    destruct st as [[[d n] b] a]. cbn [fst]. intros (La & Hn & Hb & Hd & Hk & Hr & Hi & Hs) Hp Hpos Hc. unfold number.
    destruct (lookup d (D x)) as [v|] eqn:E.
    - rewrite wr_ok by lia. cbn [bind]. eexists; split; [reflexivity|]. unfold ninv. rewrite upd_length.
      split; [exact La|]. split; [exact Hn|]. split; [exact Hb|]. split; [|split; [|split; [exact Hr|split; [exact Hi|exact Hs]]]].
      + intros y Hy. apply in_app_or in Hy. destruct Hy as [Hy|[<-|[]]].
        * destruct (Hd y Hy) as (w & Ew & Na). exists w. split; [exact Ew|]. rewrite nth_error_upd.
          destruct (Nat.eqb_spec (pos x) (pos y)) as [Ep|Np]; cbn [andb]; [|exact Na].
          rewrite (Hpos y Hy (eq_sym Ep)) in Ew. destruct (_ <? _)%nat; [congruence|exact Na].
        * exists v. split; [exact E|]. apply nth_error_upd_eq. lia.
      + intros z w Hz. destruct (Hk z w Hz) as (y & Hy & Ey). exists y. split; [apply in_or_app; left; exact Hy|exact Ey].
    - destruct (Hc eq_refl) as (c & Ec & Hcg). rewrite Ec. cbn [bind].
      assert (GEN : forall w n' b', (0 <= w <-> G (D x)) -> (w = n /\ n' = n + 1 /\ b' = b \/ w = b /\ n' = n /\ b' = b - 1) ->
        ninv (done ++ [x]) ((D x, w) :: d, n', b', upd a (pos x) (Some w))).
      { intros w n' b' HG Hw. unfold ninv. rewrite upd_length.
        assert (OLD : forall z v, lookup d z = Some v -> D x =? z = false).
        { intros z v Hz. apply Z.eqb_neq. intros <-. congruence. }
        split; [exact La|]. split; [lia|]. split; [lia|]. split; [|split; [|split; [|split]]].
        - intros y Hy. apply in_app_or in Hy. destruct Hy as [Hy|[<-|[]]].
          + destruct (Hd y Hy) as (v & Ev & Na). exists v. cbn [lookup]. rewrite (OLD _ _ Ev). split; [exact Ev|].
            rewrite nth_error_upd. destruct (Nat.eqb_spec (pos x) (pos y)) as [Ep|Np]; cbn [andb]; [|exact Na].
            exfalso. rewrite (Hpos y Hy (eq_sym Ep)) in Ev. congruence.
          + exists w. cbn [lookup]. rewrite Z.eqb_refl. split; [reflexivity|]. apply nth_error_upd_eq. lia.
        - intros z v. cbn [lookup]. destruct (Z.eqb_spec (D x) z) as [Ez|Nz].
          + intros _. exists x. split; [apply in_or_app; right; left; reflexivity|exact Ez].
          + intros Hz. destruct (Hk z v Hz) as (y & Hy & Ey). exists y. split; [apply in_or_app; left; exact Hy|exact Ey].
        - intros z v. cbn [lookup]. destruct (Z.eqb_spec (D x) z) as [Ez|Nz].
          + intros Ev. injection Ev as <-. rewrite <- Ez. split; [lia|exact HG].
          + intros Hz. destruct (Hr z v Hz) as (H1 & H2). split; [lia|exact H2].
        - intros z z' v. cbn [lookup]. destruct (Z.eqb_spec (D x) z) as [Ez|Nz], (Z.eqb_spec (D x) z') as [Ez'|Nz'].
          + congruence.
          + intros Ev Hz'. injection Ev as <-. pose proof (proj1 (Hr z' w Hz')). lia.
          + intros Hz Ev. injection Ev as <-. pose proof (proj1 (Hr z w Hz)). lia.
          + apply Hi.
        - intros v Hv. assert (v = w \/ b < v < n) as [->|Hv'] by lia.
          + exists (D x). cbn [lookup]. rewrite Z.eqb_refl. reflexivity.
          + destruct (Hs v Hv') as (z & Hz). exists z. cbn [lookup]. rewrite (OLD _ _ Hz). exact Hz. }
      destruct c; rewrite wr_ok by lia; cbn [bind]; eexists; (split; [reflexivity|]); apply GEN; try lia.
      + split; [intros _; apply Hcg; reflexivity|intros _; lia].
      + split; [intros; lia|]. intros HG. apply Hcg in HG. discriminate.
  Qed.
  Lemma number_loop cond l : forall done st, ninv done st -> (forall x, In x (done ++ l) -> (pos x < N)%nat) ->
    (forall x y, In x (done ++ l) -> In y (done ++ l) -> pos x = pos y -> D x = D y) ->
    (forall x p q, l = p ++ x :: q -> (forall y, In y (done ++ p) -> D y <> D x) -> exists c, cond (D x) = Ok c /\ (c = true <-> G (D x))) ->
    exists st', for_list l (fun x st => number cond (D x) (pos x) st) st = Ok st' /\ ninv (done ++ l) st'.
  Proof.
    induction l as [|x l IH]; intros done st Hinv Hp Hpos Hc; cbn [for_list].
    - exists st. rewrite app_nil_r. auto.
    - assert (IX : In x (done ++ x :: l)) by (apply in_or_app; right; left; reflexivity).
      destruct (number_inv done x st cond Hinv) as (st1 & E1 & I1).
      + apply Hp. exact IX.
      + intros y Hy Ep. apply Hpos; [apply in_or_app; left; exact Hy|exact IX|exact Ep].
      + intros HN. apply (Hc x [] l eq_refl). intros y Hy. rewrite app_nil_r in Hy. destruct st as [[[d n] b] a]. cbn [fst] in HN.
        destruct Hinv as (_ & _ & _ & Hd & _). destruct (Hd y Hy) as (v & Ev & _). congruence.
      + rewrite E1. cbn [bind]. assert (EA : done ++ x :: l = (done ++ [x]) ++ l) by (rewrite <- app_assoc; reflexivity).
        rewrite EA in *. apply IH; try assumption. intros y p q El Hy. apply (Hc y (x :: p) q); [rewrite El; reflexivity|].
        intros w Hw. apply Hy. rewrite <- app_assoc. exact Hw.
  Qed.
End Number.
Lemma ninv_start {X} (D : X -> Z) pos G nc dpe : ninv D pos G (nc * dpe) [] (start nc dpe).
Proof.
  unfold ninv, start. rewrite alloc_length. split; [reflexivity|]. split; [lia|]. split; [lia|]. split; [intros x []|].
  split; [intros z v H; discriminate H|]. split; [intros z v H; discriminate H|]. split; [intros z z' v H; discriminate H|]. intros v Hv. lia.
Qed.

(** The end of the loop. *)
Lemma new_map_ok (D : grid) G nc dpe l st :
  ninv (fun '(i, k) => D i k) (fun '(i, k) => (i * dpe + k)%nat) G (nc * dpe) l st ->
  (forall i k, In (i, k) l <-> (i < nc)%nat /\ (k < dpe)%nat) ->
  exists dm, new_map nc dpe st = Ok dm /\ renumbers nc dpe D G dm.
Proof.
  destruct st as [[[d n] b] a]. intros (La & Hn & Hb & Hd & Hk & Hr & Hi & Hs) HL. unfold new_map.
  assert (AT : forall i k, (i < nc)%nat -> (k < dpe)%nat -> exists v, lookup d (D i k) = Some v /\ nth_error a (i * dpe + k) = Some (Some v)).
  { intros i k Hi' Hk'. apply (Hd (i, k)). apply HL. auto. }
  destruct (all_init_ok 0 a) as (lst & E & Ea).
  { intros p Hp. rewrite La in Hp. assert (Hdpe : (0 < dpe)%nat) by nia.
    destruct (AT (p / dpe)%nat (p mod dpe)%nat) as (v & _ & Ev).
    - apply Nat.div_lt_upper_bound; lia.
    - apply Nat.mod_upper_bound. lia.
    - rewrite Nat.mul_comm, <- Nat.div_mod in Ev by lia. exists v. exact Ev. }
  rewrite E. cbn [bind]. eexists; split; [reflexivity|].
  assert (LL : length lst = (nc * dpe)%nat) by (rewrite <- La, Ea, map_length; reflexivity).
  assert (VAL : forall i k, (i < nc)%nat -> (k < dpe)%nat -> lookup d (D i k) = Some (nth (i * dpe + k) lst 0)).
  { intros i k Hi' Hk'. destruct (AT i k Hi' Hk') as (v & Ev & Na). rewrite Ev. f_equal. rewrite Ea, nth_error_map in Na.
    destruct (nth_error lst (i * dpe + k)) as [w|] eqn:Ew; cbn [option_map] in Na; [|discriminate]. injection Na as ->.
    symmetry. apply nth_error_nth with (1 := Ew). }
  unfold renumbers, is_dofmap, shaped, the_grid. cbn [num_cells dofs_per_element dofs num_dofs num_boundary_dofs].
  split; [reflexivity|]. split; [reflexivity|]. split; [|split].
  - split; [exact LL|]. split; [lia|]. split; [lia|]. split.
    + intros i k Hi' Hk'. pose proof (proj1 (Hr _ _ (VAL i k Hi' Hk'))). lia.
    + intros v Hv. destruct (Hs v ltac:(lia)) as (z & Hz). destruct (Hk z v Hz) as ([i k] & Hx & <-).
      apply HL in Hx. destruct Hx as (Hi' & Hk'). exists i, k. split; [exact Hi'|]. split; [exact Hk'|].
      rewrite (VAL i k Hi' Hk') in Hz. congruence.
  - intros i k i' k' H1 H2 H3 H4. split.
    + intros EQ. pose proof (VAL i k H1 H2) as V1. pose proof (VAL i' k' H3 H4) as V2. rewrite EQ in V1. congruence.
    + intros EQ. apply (Hi _ _ (nth (i * dpe + k) lst 0)); [apply VAL; assumption|]. rewrite EQ. apply VAL; assumption.
  - intros i k H1 H2. apply (proj2 (Hr _ _ (VAL i k H1 H2))).
Qed.
