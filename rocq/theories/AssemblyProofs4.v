(** Renumbering, and the patterns of matrices. *)
From Coq Require Import Sorted Permutation.
From Verif Require Import Util Lin SparsityModel SparsitySpec SparsityProofs2 CSRModel CSRSpec CSRProofs Rows SSSProofs OpsProofs OpsProofs2 OpsProofs4 TriProofs3 MeshModel MeshSpec LocalSpec MeshProofs MeshProofs4 RestrictionProofs
  ReorderModel ReorderSpec ReorderProofs ReorderProofs2 AssemblyModel AssemblySpec AssemblyProofs AssemblyProofs2 AssemblyProofs3.
Set Default Proof Using "Type".

Lemma skipn_nth {A} (l : list A) k x : nth_error l k = Some x -> skipn k l = x :: skipn (S k) l.
Proof. revert k. induction l as [|y l IH]; intros [|k] H; cbn in *; try discriminate; [congruence|auto]. Qed.

(** A loop that replaces entries *)
Lemma map_loop {A} (f : A -> A) (step : nat -> list A -> res (list A)) l :
  (forall i s x, In x l -> nth_error s i = Some x -> step i s = Ok (upd s i (f x))) -> for_range 0 (length l) step l = Ok (map f l).
Proof.
  intros H. loop_inv (fun k s => s = map f (firstn k l) ++ skipn k l) s E HI.
  - lia.
  - reflexivity.
  - intros k s Hk ->. destruct (nth_error_lt l k) as (x & Hx); [lia|].
    assert (Hf : length (map f (firstn k l)) = k) by (rewrite map_length, firstn_length; lia).
    rewrite (skipn_nth l k x Hx). rewrite (H k _ x (nth_error_In _ _ Hx)).
    + eexists; split; [reflexivity|]. rewrite upd_at by auto. rewrite (firstn_S_nth l k x Hx), map_app, <- app_assoc. reflexivity.
    + rewrite nth_error_app2 by lia. rewrite Hf, Nat.sub_diag. reflexivity.
  - rewrite E, HI. rewrite firstn_all, skipn_all2 by lia. rewrite app_nil_r. reflexivity.
Qed.
Lemma upd_id {A} (l : list A) k x : nth_error l k = Some x -> upd l k x = l.
Proof. revert k. induction l as [|y l IH]; intros [|k] H; cbn in *; try discriminate; [congruence|]. f_equal. auto. Qed.

Lemma dm_reorder_ok perm dofs : (forall row d, In row dofs -> In d row -> (d < Z.of_nat (length perm))%Z) ->
  dm_reorder perm dofs = Ok (renumber (fun d => nth d perm 0) dofs).
Proof.
  intros H. unfold dm_reorder, renumber. apply map_loop. intros i s row Hr Hs. rewrite (aget_ok _ _ _ Hs), bind_Ok.
  rewrite (map_loop (fun d => if (0 <=? d)%Z then Z.of_nat (nth (Z.to_nat d) perm 0) else d)).
  - rewrite bind_Ok. apply aset_ok. apply nth_error_Some. rewrite Hs. discriminate.
  - intros j t d Hd Ht. rewrite (aget_ok _ _ _ Ht), bind_Ok. specialize (H row d Hr Hd). destruct (Z.leb_spec 0 d).
    + rewrite (aget_nth perm _ 0) by lia. rewrite bind_Ok. apply aset_ok. apply nth_error_Some. rewrite Ht. discriminate.
    + rewrite upd_id; auto.
Qed.

Section Perm.
  Variables (n : nat) (l : list nat).
  Hypothesis Hp : Permutation l (seq 0 n).
  Lemma perm_length : length l = n.
  Proof using Hp. rewrite (Permutation_length Hp). apply seq_length. Qed.
  Lemma perm_lt i : i < n -> nth i l 0 < n.
  Proof using Hp. intros Hi. assert (In (nth i l 0) l) by (apply nth_In; rewrite perm_length; auto). apply (Permutation_in _ Hp) in H. apply in_seq in H. lia. Qed.
  Lemma perm_inj i j : i < n -> j < n -> nth i l 0 = nth j l 0 -> i = j.
  Proof using Hp.
    intros Hi Hj. pose proof perm_length as HL. apply NoDup_nth; try lia. apply (Permutation_NoDup (Permutation_sym Hp)). apply seq_NoDup.
  Qed.
  Lemma perm_onto d : d < n -> exists i, i < n /\ nth i l 0 = d.
  Proof using Hp.
    intros Hd. assert (H : In d l) by (apply (Permutation_in _ (Permutation_sym Hp)); apply in_seq; lia).
    destruct (In_nth l d 0 H) as (i & Hi & E). rewrite perm_length in Hi. eauto.
  Qed.
  Lemma inverse_perm_ok : exists il, inverse_perm l = Ok il /\ length il = n /\ (forall i, i < n -> nth (nth i l 0) il 0 = i) /\
    (forall d, d < n -> nth d il 0 < n /\ nth (nth d il 0) l 0 = d).
  Proof using Hp.
    unfold inverse_perm. rewrite perm_length.
    loop_inv (fun k (b : buf nat) => length b = n /\ forall i, i < k -> nth_error b (nth i l 0) = Some (Some i)) b E HI.
    - lia.
    - split; [apply alloc_length|]. intros; lia.
    - intros k b Hk (Hl & Hb). rewrite (aget_nth l k 0) by (rewrite perm_length; lia). rewrite bind_Ok. pose proof (perm_lt k ltac:(lia)) as Hlt.
      rewrite wr_ok by lia. eexists; split; [reflexivity|]. split; [rewrite upd_length; auto|]. intros i Hi.
      destruct (Nat.eq_dec i k) as [->|Hne].
      + apply nth_error_upd_eq. lia.
      + rewrite nth_error_upd_neq; [apply Hb; lia|]. intros Q. apply perm_inj in Q; lia.
    - destruct HI as (Hl & Hb). rewrite E, bind_Ok. set (il := map (fun o => match o with Some x => x | None => 0 end) b).
      assert (Eb : b = map Some il).
      { apply nth_error_ext. intros d. unfold il. rewrite map_map, nth_error_map. destruct (Nat.lt_ge_cases d n) as [L|L].
        - destruct (perm_onto d L) as (i & Hi & <-). rewrite (Hb i Hi). reflexivity.
        - rewrite (proj2 (nth_error_None b d)) by lia. reflexivity. }
      rewrite Eb, all_init_some. exists il. split; [reflexivity|].
      assert (Hil : length il = n) by (unfold il; rewrite map_length; auto). split; [auto|].
      assert (H1 : forall i, i < n -> nth (nth i l 0) il 0 = i).
      { intros i Hi. specialize (Hb i Hi). rewrite Eb, nth_error_map in Hb. destruct (nth_error il (nth i l 0)) eqn:En; [|discriminate]. injection Hb as ->.
        apply nth_error_nth; auto. }
      split; [exact H1|]. intros d Hd. destruct (perm_onto d Hd) as (i & Hi & <-). rewrite H1; auto.
  Qed.
End Perm.

(** ** Renumbered degrees of freedom *)
Lemma dof_renumber p dofs i j : dof (renumber p dofs) i j = let d := dof dofs i j in if (0 <=? d)%Z then Z.of_nat (p (Z.to_nat d)) else d.
Proof.
  unfold dof, renumber. change ([] : list Z) with (map (fun d => if (0 <=? d)%Z then Z.of_nat (p (Z.to_nat d)) else d) []) at 1. rewrite map_nth.
  change (-1)%Z with ((fun d => if (0 <=? d)%Z then Z.of_nat (p (Z.to_nat d)) else d) (-1)%Z) at 1. rewrite map_nth. reflexivity.
Qed.
Lemma dof_pos nc dpe n nb dofs i j : dofs_ok nc dpe n nb dofs -> (0 <= dof dofs i j)%Z -> i < nc /\ j < dpe /\ (dof dofs i j < Z.of_nat n)%Z.
Proof.
  intros (Hl & Hr & Hd) H. unfold dof in *. destruct (Nat.lt_ge_cases i nc) as [Li|Li].
  - assert (Hin : In (nth i dofs []) dofs) by (apply nth_In; lia). rewrite <- (Hr _ Hin). destruct (Nat.lt_ge_cases j (length (nth i dofs []))) as [Lj|Lj].
    + split; [auto|split; [auto|]]. apply (Hd _ _ Hin). apply nth_In; auto.
    + rewrite (nth_overflow (nth i dofs [])) in H by lia. lia.
  - rewrite (nth_overflow dofs) in H by lia. destruct j; cbn in H; lia.
Qed.
Lemma renumber_ok nc dpe n nb dofs p : dofs_ok nc dpe n nb dofs -> is_permutation n p -> dofs_ok nc dpe n nb (renumber p dofs).
Proof.
  intros (Hl & Hr & Hd) [Hp _]. unfold renumber. split; [rewrite map_length; auto|]. split.
  - intros row Hrow. apply in_map_iff in Hrow as (r & <- & Hin). rewrite map_length. auto.
  - intros row d Hrow Hin. apply in_map_iff in Hrow as (r & <- & Hin'). apply in_map_iff in Hin as (e & <- & He). specialize (Hd r e Hin' He).
    destruct (Z.leb_spec 0 e); [|lia]. specialize (Hp (Z.to_nat e) ltac:(lia)). lia.
Qed.
Lemma renumber_distinct nc dpe n nb dofs p : dofs_ok nc dpe n nb dofs -> is_permutation n p -> dofs_distinct dpe dofs -> dofs_distinct dpe (renumber p dofs).
Proof.
  intros ok [Hp Hi] H i j k Hj Hk. rewrite !dof_renumber. cbv zeta.
  destruct (Z.leb_spec 0 (dof dofs i j)) as [A|A], (Z.leb_spec 0 (dof dofs i k)) as [B|B]; intros H0 E; try lia.
  destruct (dof_pos _ _ _ _ _ _ _ ok A) as (_ & _ & LA). destruct (dof_pos _ _ _ _ _ _ _ ok B) as (_ & _ & LB).
  apply (H i j k Hj Hk A). apply Nat2Z.inj in E. apply Hi in E; lia.
Qed.
Lemma coupled_renumber nc dpe n nb dofs p cs I J : dofs_ok nc dpe n nb dofs -> is_permutation n p -> I < n -> J < n ->
  (coupled (renumber p dofs) (renumber p dofs) dpe dpe cs (p I) (p J) <-> coupled dofs dofs dpe dpe cs I J).
Proof.
  intros ok [Hp Hi] HI HJ. unfold coupled. split; intros (i & j & k & H1 & H2 & H3 & H4 & H5); exists i, j, k; repeat split; auto.
  - rewrite dof_renumber in H4. cbv zeta in H4. destruct (Z.leb_spec 0 (dof dofs i j)) as [A|A]; [|lia]. destruct (dof_pos _ _ _ _ _ _ _ ok A) as (_ & _ & LA).
    apply Nat2Z.inj in H4. apply Hi in H4; lia.
  - rewrite dof_renumber in H5. cbv zeta in H5. destruct (Z.leb_spec 0 (dof dofs i k)) as [A|A]; [|lia]. destruct (dof_pos _ _ _ _ _ _ _ ok A) as (_ & _ & LA).
    apply Nat2Z.inj in H5. apply Hi in H5; lia.
  - rewrite dof_renumber. cbv zeta. rewrite H4. destruct (Z.leb_spec 0 (Z.of_nat I)); [|lia]. rewrite Nat2Z.id. reflexivity.
  - rewrite dof_renumber. cbv zeta. rewrite H5. destruct (Z.leb_spec 0 (Z.of_nat J)); [|lia]. rewrite Nat2Z.id. reflexivity.
Qed.
Lemma coupled_fit nc dpe n nb dofs dpe' m nb' dofs' cs I J : dofs_ok nc dpe n nb dofs -> dofs_ok nc dpe' m nb' dofs' -> coupled dofs dofs' dpe dpe' cs I J -> I < n /\ J < m.
Proof.
  intros ok ok' (i & j & k & H1 & H2 & H3 & H4 & H5).
  destruct (dof_pos _ _ _ _ _ i j ok) as (_ & _ & A); [lia|]. destruct (dof_pos _ _ _ _ _ i k ok') as (_ & _ & B); [lia|]. lia.
Qed.
Lemma coupled_sym dofs dpe cs I J : coupled dofs dofs dpe dpe cs I J -> coupled dofs dofs dpe dpe cs J I.
Proof. intros (i & j & k & H). exists i, k, j. tauto. Qed.

(** ** Patterns of matrices *)
Definition cell_list (nc : nat) (st en : option nat) : list nat := seq (first_cell st) (last_cell en nc - first_cell st).
Definition cells_fit (nc : nat) (st en : option nat) : Prop := last_cell en nc <= nc.
Lemma in_cell_list nc st en i : cells_fit nc st en -> In i (cell_list nc st en) -> i < nc.
Proof. unfold cells_fit, cell_list. intros H Hi. apply in_seq in Hi. lia. Qed.

(** What pattern_arrays returns. *)
Definition pattern_of (n : nat) (symmetric : bool) (dofs : list (list Z)) (dpe : nat) (cs : list nat) (ip ind : list nat) : Prop :=
  exists ps indz, ind = map Z.to_nat indz /\ is_csr_of n (map zpair ps) ip indz /\
    forall I J, In (I, J) ps <-> coupled dofs dofs dpe dpe cs I J /\ (symmetric = true -> J < I).

Section PatternArrays.
  Variables (argsort : list nat -> list nat) (nc nb : nat) (dm : dofmap) (st en : option nat) (symmetric : bool).
  Hypothesis Hsort : is_argsort argsort.
  Hypothesis ok : dofs_ok nc (dm_dpe dm) (dm_num dm) nb (dm_dofs dm).
  Hypothesis fit : cells_fit nc st en.
  Let cs := cell_list nc st en.
  Let n := dm_num dm.
  Hypothesis few : few_coupled (dm_dofs dm) (dm_dofs dm) (dm_dpe dm) (dm_dpe dm) cs.

  Lemma first_pattern skip : let ps := cell_pairs skip (dm_dofs dm) (dm_dofs dm) (dm_dpe dm) (dm_dpe dm) cs in
    exists s ip indz, for_range (first_cell st) (last_cell en nc) (fun i s => for_pairs dm dm i (fun I J s => if (skip I J : bool) then Ok s else add_pair I J s) s) (new_pattern n) = Ok s /\
      freeze s = Ok (ip, map Z.to_nat indz) /\ is_csr_of n (map zpair ps) ip indz.
  Proof using ok fit few.
    intros ps. destruct (build_ok n n ps) as (s & ip & indz & E & H).
    - intros I J H. apply in_cell_pairs in H as [H _]. apply (coupled_fit _ _ _ _ _ _ _ _ _ _ _ _ ok ok H).
    - intros I Js ND H. apply (few I Js ND). intros J HJ. apply H in HJ. apply in_cell_pairs in HJ. tauto.
    - exists s, ip, indz. split; [|exact H]. rewrite <- E. rewrite for_range_list. unfold ps, cell_pairs. rewrite for_list_flat. apply for_list_ext.
      intros i s0 Hi. apply (for_pairs_ok nc nb nb); auto. apply (in_cell_list nc st en); auto.
  Qed.

  Definition row_pairs (l il ip ind : list nat) (i : nat) : list (nat * nat) :=
    flat_map (fun jj => let j := nth (nth jj ind 0) il 0 in
      if symmetric then if j <? i then [(i, j)] else if i <? j then [(j, i)] else [] else [(i, j)])
      (seq (nth (nth i l 0) ip 0) (nth (S (nth i l 0)) ip 0 - nth (nth i l 0) ip 0)).

  Lemma permuted_pattern_ok l il ip ind s : Permutation l (seq 0 n) -> length il = n -> wf_rows n n ip ind (repeat 0%Qc (length ind)) ->
    permuted_pattern symmetric l il ip ind s = for_list (flat_map (row_pairs l il ip ind) (seq 0 n)) (fun p => add_pair (fst p) (snd p)) s.
  Proof using Type.
    clear Hsort ok fit few cs. intros Hp Hil wf. unfold permuted_pattern. rewrite (perm_length n l Hp), for_range_list, Nat.sub_0_r, for_list_flat.
    apply for_list_ext. intros i s0 Hi. apply in_seq in Hi. pose proof (perm_lt n l Hp i ltac:(lia)) as Hlt.
    rewrite (aget_nth l i 0) by (rewrite (perm_length n l Hp); lia). rewrite bind_Ok. unfold for_row.
    pose proof wf as (W1 & W2 & W3 & W4 & W5). rewrite (aget_nth ip _ 0) by lia. rewrite bind_Ok, Nat.add_1_r, (aget_nth ip _ 0) by lia. rewrite bind_Ok.
    unfold row_pairs. rewrite for_list_flat, for_range_list. apply for_list_ext. intros jj s1 Hjj. apply in_seq in Hjj.
    pose proof (wf_hi n n _ _ _ wf (nth i l 0) Hlt) as Hhi. rewrite (combine_len n n _ _ _ wf) in Hhi.
    rewrite (aget_nth ind jj 0) by lia. rewrite bind_Ok.
    assert (HJ : nth jj ind 0 < n) by (apply W5, nth_In; lia).
    rewrite (aget_nth il _ 0) by lia. rewrite bind_Ok. cbv zeta. set (j := nth (nth jj ind 0) il 0).
    destruct symmetric; [destruct (j <? i); [|destruct (i <? j)]|]; cbn [for_list fst snd]; try reflexivity; destruct (add_pair _ _ s1); reflexivity.
  Qed.

  Lemma pattern_arrays_ok reorder : (reorder = true -> 0 < n) ->
    exists ip ind dm', pattern_arrays argsort dm nc st en symmetric reorder = Ok (ip, ind, dm') /\ renumbered dm dm' /\
      pattern_of n symmetric (dm_dofs dm') (dm_dpe dm) cs ip ind /\
      ((reorder = false \/ dm_reordered dm = true) -> dm' = dm) /\ (reorder = true -> dm_reordered dm' = true).
  Proof using Hsort ok fit few.
    intros Hn. unfold pattern_arrays. set (r := if dm_reordered dm then false else reorder).
    assert (Hr : r = true -> reorder = true /\ dm_reordered dm = false) by (unfold r; destruct (dm_reordered dm); [discriminate|auto]).
    destruct r eqn:Er.
    - destruct (Hr eq_refl) as [-> Hre]. specialize (Hn eq_refl).
      destruct (first_pattern (fun I J => symmetric && negb true && (I <=? J))) as (s & ip & indz & E1 & E2 & HP).
      unfold n in E1 at 1. rewrite E1, bind_Ok, E2, bind_Ok. cbv beta iota.
      set (ps := cell_pairs _ _ _ _ _ _) in HP. set (ind := map Z.to_nat indz).
      assert (Hin : forall I J, In (I, J) ps <-> coupled (dm_dofs dm) (dm_dofs dm) (dm_dpe dm) (dm_dpe dm) cs I J).
      { intros I J. unfold ps. rewrite in_cell_pairs, andb_false_r. cbn [andb]. tauto. }
      assert (Hfit : pairs_fit n n ps). { intros I J H. apply Hin in H. apply (coupled_fit _ _ _ _ _ _ _ _ _ _ _ _ ok ok H). }
      pose proof HP as HPv. rewrite <- with_values_pairs in HPv. pose proof (with_values_range n n ps Hfit) as HR.
      pose proof (pat_wf n n (with_values ps) ip indz HR HPv (repeat 0%Qc (length ind)) (repeat_length _ _)) as wf. fold ind in wf.
      assert (Hip : length ip = n + 1) by (destruct HP as (H & _); auto). rewrite Hip, Nat.add_sub.
      assert (Hg : graph_ok n ind ip).
      { destruct wf as (W1 & W2 & W3 & W4 & W5). split; [lia|]. split; [auto|]. split; [auto|]. intros k Hk. apply W5, nth_In; auto. }
      destruct (cuthill_mckee_ok argsort n ind ip (alloc n) false Hsort Hg Hn) as (l & rr & Ec & Hl & HO). { rewrite alloc_length; auto. }
      rewrite alloc_length in Hl. assert (rr = []) as -> by (destruct rr; [auto|cbn in Hl; lia]). rewrite app_nil_r in Ec.
      rewrite Ec, bind_Ok, all_init_some, bind_Ok. destruct HO as (Hp & _).
      destruct (inverse_perm_ok n l Hp) as (il & Ei & Hil & HI1 & HI2). rewrite Ei, bind_Ok.
      assert (HPm : is_permutation n (fun d => nth d il 0)).
      { split; [intros d Hd; apply HI2; auto|]. intros d d' Hd Hd' E. destruct (HI2 d Hd) as [_ A]. destruct (HI2 d' Hd') as [_ B]. congruence. }
      set (dofs' := renumber (fun d => nth d il 0) (dm_dofs dm)).
      set (ps' := flat_map (row_pairs l il ip ind) (seq 0 n)).
      assert (Hrow : forall I J, I < n -> ((exists jj, nth I ip 0 <= jj < nth (S I) ip 0 /\ nth jj ind 0 = J) <-> coupled (dm_dofs dm) (dm_dofs dm) (dm_dpe dm) (dm_dpe dm) cs I J)).
      { intros I J HI. rewrite <- Hin. split.
        - intros (jj & Hjj & <-). destruct (pat_slot_in n n (with_values ps) ip indz HR HPv I jj HI Hjj) as (v & Hv).
          unfold with_values in Hv. apply in_map_iff in Hv as ([x y] & Exy & Hv). cbn in Exy. injection Exy as -> -> _. exact Hv.
        - intros H. destruct (pat_find n n (with_values ps) ip indz HR HPv I J HI) as (k & lin & _ & Hk & Ek); [|exists k; auto].
          rewrite with_values_pairs. apply in_map_iff. exists (I, J). auto. }
      assert (Hcr : forall i j, i < n -> j < n -> (coupled dofs' dofs' (dm_dpe dm) (dm_dpe dm) cs i j <-> coupled (dm_dofs dm) (dm_dofs dm) (dm_dpe dm) (dm_dpe dm) cs (nth i l 0) (nth j l 0))).
      { intros i j Hi Hj. rewrite <- (coupled_renumber nc (dm_dpe dm) n nb (dm_dofs dm) (fun d => nth d il 0) cs (nth i l 0) (nth j l 0) ok HPm) by (apply (perm_lt n l Hp); auto).
        rewrite !HI1 by auto. reflexivity. }
      assert (ok' : dofs_ok nc (dm_dpe dm) n nb dofs') by (apply renumber_ok; auto).
      assert (Hin' : forall I J, In (I, J) ps' <-> coupled dofs' dofs' (dm_dpe dm) (dm_dpe dm) cs I J /\ (symmetric = true -> J < I)).
      { intros I J. unfold ps', row_pairs. rewrite in_flat_map. split.
        - intros (i & Hi & H). apply in_seq in Hi. apply in_flat_map in H as (jj & Hjj & H). apply in_seq in Hjj.
          pose proof (perm_lt n l Hp i ltac:(lia)) as Hlt.
          assert (Hjj' : nth (nth i l 0) ip 0 <= jj < nth (S (nth i l 0)) ip 0) by lia.
          pose proof (proj1 (Hrow (nth i l 0) (nth jj ind 0) Hlt) (ex_intro _ jj (conj Hjj' eq_refl))) as HC.
          destruct (coupled_fit _ _ _ _ _ _ _ _ _ _ _ _ ok ok HC) as [_ HJ]. fold n in HJ. destruct (HI2 _ HJ) as [HJ1 HJ2]. cbv zeta in H.
          set (j := nth (nth jj ind 0) il 0) in *. rewrite <- HJ2 in HC. apply Hcr in HC; [|lia|auto].
          destruct symmetric.
          + destruct (Nat.ltb_spec j i); [destruct H as [H|[]]; injection H as <- <-; auto|]. destruct (Nat.ltb_spec i j); [|destruct H].
            destruct H as [H|[]]; injection H as <- <-. split; auto. apply coupled_sym; auto.
          + destruct H as [H|[]]; injection H as <- <-. split; [auto|discriminate].
        - intros [HC Hlow]. destruct (coupled_fit _ _ _ _ _ _ _ _ _ _ _ _ ok' ok' HC) as [HI HJ]. apply Hcr in HC; auto.
          apply Hrow in HC; [|apply (perm_lt n l Hp); auto]. destruct HC as (jj & Hjj & Ejj). exists I. split; [apply in_seq; lia|].
          apply in_flat_map. exists jj. split; [apply in_seq; lia|]. cbv zeta. rewrite Ejj, HI1 by auto. destruct symmetric.
          + specialize (Hlow eq_refl). destruct (Nat.ltb_spec J I); [|lia]. left; reflexivity.
          + left; reflexivity. }
      rewrite (permuted_pattern_ok l il ip ind) by auto. fold ps'.
      destruct (build_ok n n ps') as (s' & ip' & indz' & E1' & E2' & HP').
      { intros I J H. apply Hin' in H as [H _]. apply (coupled_fit _ _ _ _ _ _ _ _ _ _ _ _ ok' ok' H). }
      { intros I Js ND H. rewrite <- (map_length (fun j => nth j l 0) Js). destruct Js as [|J0 Js]; [change (length (map (fun j => nth j l 0) [])) with 0; apply Nat.lt_le_trans with (2 ^ 0); [cbn; lia|apply Nat.pow_le_mono_r; lia]|].
        assert (HB : forall J, In J (J0 :: Js) -> I < n /\ J < n /\ coupled dofs' dofs' (dm_dpe dm) (dm_dpe dm) cs I J).
        { intros J HJ. apply H in HJ. apply Hin' in HJ as [HJ _]. destruct (coupled_fit _ _ _ _ _ _ _ _ _ _ _ _ ok' ok' HJ). auto. }
        apply (few (nth I l 0)).
        - clear - HB ND Hp. set (L := J0 :: Js) in *. clearbody L. clear J0 Js. induction L as [|x L IH]; [constructor|]. inversion ND; subst. cbn. constructor.
          + intros Hx. apply in_map_iff in Hx as (y & E & Hy). apply (perm_inj n l Hp) in E; [subst; contradiction| |]; apply HB; [right|left]; auto.
          + apply IH; auto. intros J HJ. apply HB. right; auto.
        - intros J HJ. apply in_map_iff in HJ as (y & <- & Hy). destruct (HB y Hy) as (A & B & D). apply Hcr; auto. }
      unfold n in E1' at 1. rewrite E1', bind_Ok, E2', bind_Ok. cbv beta iota.
      rewrite dm_reorder_ok.
      + rewrite bind_Ok. fold dofs'. exists ip', (map Z.to_nat indz'), (DM dofs' n (dm_dpe dm) true). split; [reflexivity|]. cbn [dm_dofs dm_num dm_dpe dm_reordered].
        split; [right; split; [reflexivity|split; [reflexivity|]]; exists (fun d => nth d il 0); auto|].
        split; [exists ps', indz'; auto|]. split; [|auto]. intros [Q|Q]; congruence.
      + intros row d Hrw Hd. rewrite Hil. apply ok in Hd; auto. unfold n. lia.
    - set (skip := fun I J => symmetric && negb false && (I <=? J)).
      destruct (first_pattern skip) as (s & ip & indz & E1 & E2 & HP).
      unfold skip in E1. unfold n in E1 at 1. rewrite E1, bind_Ok, E2, bind_Ok. cbv beta iota.
      exists ip, (map Z.to_nat indz), dm. split; [reflexivity|]. split; [left; reflexivity|]. split; [|split; auto].
      + eexists _, indz. split; [reflexivity|]. split; [exact HP|]. intros I J. rewrite in_cell_pairs. unfold skip. cbn [negb]. rewrite andb_true_r.
        destruct symmetric; cbn [andb].
        * rewrite Nat.leb_gt. split; intros [A B]; split; auto.
        * split; intros [A B]; split; auto. discriminate.
      + intros ->. unfold r in Er. destruct (dm_reordered dm); congruence.
  Qed.
End PatternArrays.
