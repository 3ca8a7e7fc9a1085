(** The irregular partitions. *)
From Verif Require Import Util Lin AssemblyProofs TransferProofs2 SubMapProofs6 SubMapProofs PartitionModel PartitionSpec PartitionProofs PartitionProofs2 PartitionProofs3.
Local Open Scope nat_scope.
Set Default Proof Using "Type".

Lemma for_list_ok {A S} (f : A -> S -> res S) (Inv : list A -> S -> Prop) l : forall done s s',
  Inv done s -> (forall d x rest s s', done ++ l = d ++ x :: rest -> Inv d s -> f x s = Ok s' -> Inv (d ++ [x]) s') ->
  for_list l f s = Ok s' -> Inv (done ++ l) s'.
Proof.
  induction l as [|x l IH]; intros done s s' H0 HS E; cbn [for_list] in E.
  - rewrite app_nil_r. congruence.
  - apply bind_ok in E. destruct E as (s1 & E1 & E2). replace (done ++ x :: l) with ((done ++ [x]) ++ l) by (rewrite <- app_assoc; reflexivity).
    apply (IH (done ++ [x]) s1 s'); [apply (HS done x l s s1 eq_refl H0 E1)| |exact E2].
    intros d y rest t t' Hd. rewrite <- app_assoc in Hd. apply (HS d y rest t t' Hd).
Qed.
Lemma coord_inv vs i j x : coord vs i j = Ok x -> x = at_vertex vs i j.
Proof.
  intros E. unfold coord, aget in E. unfold at_vertex. destruct (nth_error vs i) as [v|] eqn:E1; cbn [bind] in E; [|discriminate]. rewrite (nth_error_nth _ _ _ E1).
  destruct (nth_error v j) as [y|] eqn:E2; [|discriminate]. rewrite (nth_error_nth _ _ _ E2). congruence.
Qed.
Lemma slot_spec x bs : forall fuel j r, slot x bs j fuel = Ok r -> j <= r <= j + fuel /\ (forall i, j <= i < r -> ~ (x < nth i bs 0)%Qc) /\ (r < j + fuel -> (x < nth r bs 0)%Qc).
Proof.
  induction fuel as [|fuel IH]; intros j r E; cbn [slot] in E; [injection E as <-; split; [lia|split; intros; lia]|].
  unfold aget in E. destruct (nth_error bs j) as [b|] eqn:Eb; cbn [bind] in E; [|discriminate]. destruct (Qclt_le_dec x b) as [L|L].
  - injection E as <-. split; [lia|]. split; [intros; lia|]. intros _. rewrite (nth_error_nth _ _ _ Eb). exact L.
  - destruct (IH (S j) r E) as (A & B & C). split; [lia|]. split; [|intros H; apply C; lia]. intros i Hi. destruct (Nat.eq_dec i j) as [->|]; [|apply B; lia].
    rewrite (nth_error_nth _ _ _ Eb). apply Qcle_not_lt. exact L.
Qed.
Lemma slot_mono x y bs fuel r r' : (x <= y)%Qc -> slot x bs 0 fuel = Ok r -> slot y bs 0 fuel = Ok r' -> r <= r'.
Proof.
  intros H E E'. destruct (slot_spec x bs fuel 0 r E) as (A & B & _). destruct (slot_spec y bs fuel 0 r' E') as (A' & _ & C').
  destruct (le_lt_dec r r') as [|L]; [assumption|exfalso]. apply (B r' ltac:(lia)). apply (Qcle_lt_trans _ y); [exact H|apply C'; lia].
Qed.

Lemma product_ext n n' d : (forall e, e < d -> n e = n' e) -> product n d = product n' d.
Proof. induction d as [|d IH]; intros H; cbn [product]; [reflexivity|]. rewrite IH by (intros e He; apply H; lia). rewrite (H d) by lia. reflexivity. Qed.
Lemma last_fastest_ext n n' z z' d : (forall e, e < d -> n e = n' e /\ z e = z' e) -> last_fastest n z d = last_fastest n' z' d.
Proof. induction d as [|d IH]; intros H; cbn [last_fastest]; [reflexivity|]. rewrite IH by (intros e He; apply H; lia). destruct (H d ltac:(lia)) as (-> & ->). reflexivity. Qed.
Lemma last_fastest_S n z d : last_fastest n z (S d) = z 0 * product (fun e => n (S e)) d + last_fastest (fun e => n (S e)) (fun e => z (S e)) d.
Proof.
  induction d as [|d IH]; [cbn; lia|]. change (last_fastest n z (S (S d))) with (last_fastest n z (S d) * n (S d) + z (S d)). rewrite IH. cbn [product last_fastest]. ring.
Qed.
Lemma last_fastest_lt n z d : (forall e, e < d -> z e < n e) -> last_fastest n z d < product n d.
Proof.
  induction d as [|d IH]; intros H; cbn [last_fastest product]; [lia|]. pose proof (IH ltac:(intros e He; apply H; lia)) as L. pose proof (H d ltac:(lia)) as Z.
  pose proof (Nat.mul_le_mono_r _ _ (n d) L) as M. cbn [Nat.mul] in M. lia.
Qed.
Lemma last_fastest_inj n z z' d : (forall e, e < d -> z e < n e) -> (forall e, e < d -> z' e < n e) -> last_fastest n z d = last_fastest n z' d -> forall e, e < d -> z e = z' e.
Proof.
  induction d as [|d IH]; intros H H' E e He; cbn [last_fastest] in E; [lia|].
  destruct (Nat.div_mod_unique (n d) (last_fastest n z d) (last_fastest n z' d) (z d) (z' d) (H d ltac:(lia)) (H' d ltac:(lia)) ltac:(lia)) as (E1 & E2).
  destruct (Nat.eq_dec e d) as [->|]; [exact E2|]. apply IH; [| |exact E1|lia]; intros i Hi; [apply H|apply H']; lia.
Qed.

Section Irregular.
  Variables (Q : list Qc -> nat -> res (list Qc)) (vs : list (list Qc)) (per : list nat).
  Let nd d := fun e => nth (d + e) per 0.
  Definition sl d bs m k := match slot (at_vertex vs k d) bs 0 (m - 1) with Ok j => j | Err _ => 0 end.
  (** [s k e] is the number of the interval of vertex [k] in dimension [d + e] *)
  Definition slots_ok rem d offset (idx : list nat) (part' : list (option nat)) (s : nat -> nat -> nat) : Prop :=
    (forall k, In k idx -> (forall e, e <= rem -> s k e < nd d e) /\ nth_error part' k = Some (Some (offset + last_fastest (nd d) (s k) (S rem)))) /\
    (forall k k' e, In k idx -> In k' idx -> e <= rem -> (forall e', e' < e -> s k e' = s k' e') -> (at_vertex vs k (d + e) <= at_vertex vs k' (d + e))%Qc -> s k e <= s k' e).
  Lemma nd_S d e : nd d (S e) = nd (d + 1) e.
  Proof. unfold nd. f_equal. lia. Qed.

  Lemma dim_ok : forall rem part idx d offset num part', partitionDim Q vs per rem part idx d offset = Ok (num, part') ->
    num = product (nd d) (S rem) /\ length part' = length part /\ (forall k, ~ In k idx -> nth_error part' k = nth_error part k) /\
    exists s, slots_ok rem d offset idx part' s.
  Proof using.
    induction rem as [|rem IH]; intros part idx d offset num part' E; cbn [partitionDim] in E.
    - apply bind_ok in E. destruct E as (m & Em & E). apply bind_ok in E. destruct E as (u & Eg & E). apply bind_ok in E. destruct E as (c & _ & E). apply bind_ok in E. destruct E as (bs & _ & E).
      apply bind_ok in E. destruct E as (p1 & EL & E). injection E as <- <-.
      assert (ND : nd d 0 = m) by (unfold nd; rewrite Nat.add_0_r; unfold aget in Em; destruct (nth_error per d) eqn:E0; [|discriminate]; rewrite (nth_error_nth _ _ _ E0); congruence).
      assert (M0 : 0 < m) by (destruct (Nat.eqb_spec m 0); cbn in Eg; [discriminate|lia]).
      set (Inv := fun (done : list nat) (p : list (option nat)) => length p = length part /\ (forall k, ~ In k done -> nth_error p k = nth_error part k) /\
        forall k, In k done -> slot (at_vertex vs k d) bs 0 (m - 1) = Ok (sl d bs m k) /\ nth_error p k = Some (Some (offset + sl d bs m k))).
      assert (HI : Inv ([] ++ idx) p1).
      { refine (for_list_ok _ Inv idx [] part p1 _ _ EL).
        - split; [reflexivity|]. split; [reflexivity|intros k []].
        - intros dn k rest p p' _ (L & U & H) E. apply bind_ok in E. destruct E as (x & Ex & E). apply coord_inv in Ex. subst x. apply bind_ok in E. destruct E as (j & Ej & E).
          assert (SJ : sl d bs m k = j) by (unfold sl; rewrite Ej; reflexivity). unfold wr, aset in E. destruct (Nat.ltb_spec k (length p)) as [Lk|Lk]; [|discriminate]. injection E as <-.
          split; [rewrite upd_length; exact L|]. split.
          + intros i Hi. rewrite nth_error_upd_neq; [apply U|]; intros Hx; apply Hi; apply in_or_app; [left; exact Hx|right; left; exact Hx].
          + intros i Hi. destruct (Nat.eq_dec i k) as [->|Ni].
            * split; [rewrite SJ; exact Ej|]. rewrite nth_error_upd_eq by exact Lk. rewrite SJ. reflexivity.
            * apply in_app_or in Hi. destruct Hi as [Hi|[<-|[]]]; [|congruence]. rewrite nth_error_upd_neq by congruence. apply H. exact Hi. }
      destruct HI as (L & U & H). cbn [app] in U, H. split; [cbn [product]; rewrite ND; lia|]. split; [exact L|]. split; [exact U|]. exists (fun k _ => sl d bs m k). split.
      + intros k Hk. destruct (H k Hk) as (S1 & V1). split; [intros e He; replace e with 0 by lia; rewrite ND; destruct (slot_spec _ _ _ _ _ S1); lia|]. rewrite V1. cbn [last_fastest]. rewrite Nat.mul_0_l. reflexivity.
      + intros k k' e Hk Hk' He _ Hx. replace e with 0 in Hx by lia. rewrite Nat.add_0_r in Hx. exact (slot_mono _ _ bs (m - 1) _ _ Hx (proj1 (H k Hk)) (proj1 (H k' Hk'))).
    - apply bind_ok in E. destruct E as (m & Em & E). apply bind_ok in E. destruct E as (u & Eg & E). apply bind_ok in E. destruct E as (c & _ & E). apply bind_ok in E. destruct E as (bs & _ & E).
      apply bind_ok in E. destruct E as (lists & EL & E). apply bind_ok in E. destruct E as (((off & created) & p1) & EP & E). injection E as <- <-.
      assert (ND : nd d 0 = m) by (unfold nd; rewrite Nat.add_0_r; unfold aget in Em; destruct (nth_error per d) eqn:E0; [|discriminate]; rewrite (nth_error_nth _ _ _ E0); congruence).
      assert (M0 : 0 < m) by (destruct (Nat.eqb_spec m 0); cbn in Eg; [discriminate|lia]).
      set (LInv := fun (done : list nat) (ls : list (list nat)) => length ls = m /\ (forall j, j < m -> nth j ls [] = filter (fun k => sl d bs m k =? j) done) /\
        forall k, In k done -> slot (at_vertex vs k d) bs 0 (m - 1) = Ok (sl d bs m k)).
      assert (HL : LInv ([] ++ idx) lists).
      { refine (for_list_ok _ LInv idx [] (repeat [] m) lists _ _ EL).
        - split; [apply repeat_length|]. split; [intros j Hj; apply nth_repeat|intros k []].
        - intros dn k rest p p' _ (L & U & H) E. apply bind_ok in E. destruct E as (x & Ex & E). apply coord_inv in Ex. subst x. apply bind_ok in E. destruct E as (j & Ej & E).
          assert (SJ : sl d bs m k = j) by (unfold sl; rewrite Ej; reflexivity). destruct (slot_spec _ _ _ _ _ Ej) as (JB & _).
          rewrite (aget_nth p j []) in E by lia. cbn [bind] in E. destruct (aset_nth p j (nth j p [] ++ [k]) [] ltac:(lia)) as (p2 & E2 & L2 & V2). rewrite E2 in E. injection E as <-.
          split; [lia|]. split.
          + intros i Hi. rewrite V2, filter_app. cbn [filter]. rewrite SJ, (Nat.eqb_sym j i). destruct (Nat.eqb_spec i j) as [->|]; [rewrite U by exact Hi; reflexivity|]. rewrite app_nil_r. apply U. exact Hi.
          + intros i Hi. apply in_app_or in Hi. destruct Hi as [Hi|[<-|[]]]; [apply H; exact Hi|]. rewrite SJ. exact Ej. }
      destruct HL as (LL & FL & SL). cbn [app] in FL, SL.
      assert (EQL : lists = map (fun j => filter (fun k => sl d bs m k =? j) idx) (seq 0 m)).
      { apply (nth_ext _ _ [] []); [rewrite map_length, seq_length; exact LL|]. intros j Hj. rewrite FL by lia. rewrite (nth_indep _ [] (filter (fun k => sl d bs m k =? 0) idx)) by (rewrite map_length, seq_length; lia).
        rewrite (map_nth (fun j => filter (fun k => sl d bs m k =? j) idx) (seq 0 m) 0 j), seq_nth by lia. reflexivity. }
      rewrite EQL, for_list_map in EP. set (W := product (nd (d + 1)) (S rem)).
      set (Inv := fun (done : list nat) (st : nat * nat * list (option nat)) => let '(o, cr, p) := st in o = offset + length done * W /\ cr = length done * W /\ length p = length part /\
        (forall k, (~ In k idx \/ ~ In (sl d bs m k) done) -> nth_error p k = nth_error part k) /\
        exists s, (forall k, In k idx -> In (sl d bs m k) done -> (forall e, e <= rem -> s k e < nd (d + 1) e) /\ nth_error p k = Some (Some (offset + sl d bs m k * W + last_fastest (nd (d + 1)) (s k) (S rem)))) /\
          (forall k k' e, In k idx -> In k' idx -> In (sl d bs m k) done -> sl d bs m k = sl d bs m k' -> e <= rem -> (forall e', e' < e -> s k e' = s k' e') ->
             (at_vertex vs k (d + 1 + e) <= at_vertex vs k' (d + 1 + e))%Qc -> s k e <= s k' e)).
      assert (HP : Inv ([] ++ seq 0 m) (off, created, p1)).
      { refine (for_list_ok _ Inv (seq 0 m) [] (offset, 0, part) (off, created, p1) _ _ EP).
        - unfold Inv. cbn [length]. split; [lia|]. split; [lia|]. split; [reflexivity|]. split; [reflexivity|]. exists (fun _ _ => 0). split; [intros k _ []|intros k k' e _ _ []].
        - intros dn j rest [[o cr] p] [[o' cr'] p'] ES (EO & EC & L & U & s & H1 & H2) E. cbn [app] in ES. apply bind_ok in E. destruct E as ((num & p2) & E2 & E). injection E as <- <- <-.
          assert (EJ : j = length dn).
          { pose proof (f_equal (fun l => nth (length dn) l 0) ES) as Q0. cbn beta in Q0. rewrite app_nth2, Nat.sub_diag in Q0 by lia. cbn [nth] in Q0. rewrite <- Q0.
            pose proof (f_equal (@length nat) ES) as Q1. rewrite seq_length, app_length in Q1. cbn [length] in Q1. rewrite seq_nth by lia. reflexivity. }
          assert (NJ : ~ In j dn).
          { pose proof (seq_NoDup m 0) as NDs. rewrite ES in NDs. apply NoDup_remove_2 in NDs. intros Hx. apply NDs. apply in_or_app. left. exact Hx. }
          destruct (IH p (filter (fun k => sl d bs m k =? j) idx) (d + 1) o num p2 E2) as (N2 & L2 & U2 & s2 & V2 & O2). unfold Inv. rewrite app_length. cbn [length]. fold W in N2.
          assert (INF : forall k, In k (filter (fun k => sl d bs m k =? j) idx) <-> In k idx /\ sl d bs m k = j) by (intros k; rewrite filter_In, Nat.eqb_eq; reflexivity).
          split; [lia|]. split; [lia|]. split; [lia|]. split.
          + intros k Hk. rewrite U2.
            * apply U. destruct Hk as [Hk|Hk]; [left; exact Hk|]. right. intros Hx. apply Hk. apply in_or_app. left. exact Hx.
            * intros Hx. apply INF in Hx. destruct Hx as (A & B). destruct Hk as [Hk|Hk]; [exact (Hk A)|]. apply Hk. rewrite B. apply in_or_app. right. left. reflexivity.
          + exists (fun k e => if sl d bs m k =? j then s2 k e else s k e). split.
            * intros k Hk Hs. destruct (Nat.eqb_spec (sl d bs m k) j) as [Ek|Nk].
              -- destruct (V2 k (proj2 (INF k) (conj Hk Ek))) as (A & B). split; [exact A|]. rewrite B. f_equal. f_equal. rewrite EO, Ek, EJ. reflexivity.
              -- rewrite U2 by (rewrite INF; intros (_ & Hx); exact (Nk Hx)). apply H1; [exact Hk|]. apply in_app_or in Hs. destruct Hs as [Hs|[Hs|[]]]; [exact Hs|congruence].
            * intros k k' e Hk Hk' Hs Es He. rewrite <- Es. destruct (Nat.eqb_spec (sl d bs m k) j) as [Ek|Nk].
              -- intros He' Hx. apply O2; [apply INF; auto|apply INF; split; [exact Hk'|congruence]|exact He|exact He'|exact Hx].
              -- intros He' Hx. apply H2; try assumption. apply in_app_or in Hs. destruct Hs as [Hs|[Hs|[]]]; [exact Hs|congruence]. }
      unfold Inv in HP. cbn [app] in HP. rewrite seq_length in HP. destruct HP as (_ & EC & L & U & s & H1 & H2).
      assert (SB : forall k, In k idx -> In (sl d bs m k) (seq 0 m) /\ sl d bs m k < m) by (intros k Hk; destruct (slot_spec _ _ _ _ _ (SL k Hk)); split; [apply in_seq|]; lia).
      split; [rewrite EC, product_S_l, ND; f_equal; apply product_ext; intros e _; symmetry; apply nd_S|]. split; [exact L|]. split; [intros k Hk; apply U; left; exact Hk|].
      exists (fun k e => match e with O => sl d bs m k | S e => s k e end). split.
      + intros k Hk. destruct (SB k Hk) as (I1 & B1). destruct (H1 k Hk I1) as (A & B). split.
        * intros [|e] He; [rewrite ND; exact B1|]. rewrite nd_S. apply A. lia.
        * rewrite B. f_equal. f_equal. rewrite (last_fastest_S (nd d) (fun e => match e with O => sl d bs m k | S e => s k e end) (S rem)). rewrite (product_ext (fun e => nd d (S e)) (nd (d + 1)) (S rem)) by (intros e _; apply nd_S). fold W.
          rewrite (last_fastest_ext (fun e => nd d (S e)) (nd (d + 1)) (fun e => s k e) (s k) (S rem)) by (intros e _; split; [apply nd_S|reflexivity]). lia.
      + intros k k' [|e] Hk Hk' He He' Hx.
        * rewrite Nat.add_0_r in Hx. exact (slot_mono _ _ bs (m - 1) _ _ Hx (SL k Hk) (SL k' Hk')).
        * apply H2; [exact Hk|exact Hk'|apply SB; exact Hk|exact (He' 0 ltac:(lia))|lia|intros e' Hl; exact (He' (S e') ltac:(lia))|].
          replace (d + 1 + e) with (d + S e) by lia. exact Hx.
  Qed.

  Lemma irregular_ok dim pd npd nparts part num : 0 < dim -> (match npd with Some p => Ok p | None => balancePartitions dim vs pd nparts end) = Ok per ->
    partitionVerticesIrregular Q dim vs pd npd nparts = Ok (part, num) ->
    num = product (fun d => nth d per 0) dim /\ length part = length vs /\
    exists s, (forall i d, i < length vs -> d < dim -> s i d < nth d per 0) /\
      (forall i, i < length vs -> nth i part num = last_fastest (fun d => nth d per 0) (s i) dim) /\
      (forall i i' d, i < length vs -> i' < length vs -> d < dim -> (forall e, e < d -> s i e = s i' e) -> (at_vertex vs i d <= at_vertex vs i' d)%Qc -> s i d <= s i' d).
  Proof using.
    intros Hd HP E. unfold partitionVerticesIrregular in E. replace (match npd with None => balancePartitions dim vs pd nparts | Some per => Ok per end) with (Ok per) in E by (rewrite <- HP; destruct npd; reflexivity).
    cbn [bind] in E. apply bind_ok in E. destruct E as ((num1 & p1) & E1 & E). apply bind_ok in E. destruct E as (p2 & E2 & E). injection E as <- <-.
    destruct (dim_ok _ _ _ _ _ _ _ E1) as (N1 & L1 & _ & s & V & O). replace (S (dim - 1)) with dim in N1 by lia. unfold nd in N1. cbn [Nat.add] in N1.
    unfold alloc in L1. rewrite repeat_length in L1. assert (EP : p1 = map Some p2).
    { clear -E2. revert p2 E2. induction p1 as [|[x|] p1 IH]; intros p2 E2; cbn [all_init] in E2; [injection E2 as <-; reflexivity| |discriminate].
      apply bind_ok in E2. destruct E2 as (l & El & E2). injection E2 as <-. cbn [map]. rewrite <- (IH l El). reflexivity. }
    assert (L2 : length p2 = length vs) by (rewrite <- L1, EP, map_length; reflexivity). split; [exact N1|]. split; [exact L2|]. exists s.
    assert (INS : forall i, i < length vs -> In i (seq 0 (length vs))) by (intros i Hi; apply in_seq; lia). split; [|split].
    - intros i d Hi Hdd. apply (proj1 (V i (INS i Hi)) d). lia.
    - intros i Hi. pose proof (proj2 (V i (INS i Hi))) as W. rewrite EP, nth_error_map in W. destruct (nth_error p2 i) as [x|] eqn:Ex; cbn [option_map] in W; [|discriminate].
      rewrite (nth_error_nth _ _ _ Ex). replace (S (dim - 1)) with dim in W by lia. injection W as ->. reflexivity.
    - intros i i' d Hi Hi' Hdd He Hx. apply (O i i' d); [apply INS; exact Hi|apply INS; exact Hi'|lia|exact He|exact Hx].
  Qed.
End Irregular.
