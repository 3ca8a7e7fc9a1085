(** Matrices with different rows and columns. *)
From Coq Require Import Sorted Permutation.
From Verif Require Import Util Lin CSRModel CSRSpec SSSProofs OpsProofs OpsProofs4 MeshModel MeshSpec BaryModel BarySpec BaryProofs LocalSpec MeshProofs RestrictionProofs
  ReorderModel ReorderSpec ReorderProofs AssemblyModel AssemblySpec AssemblyProofs AssemblyProofs2 AssemblyProofs3 AssemblyProofs4 AssemblyProofs5 AssemblyProofs6.
Set Default Proof Using "Type".

(** ** Unpacking a symmetric matrix *)
Lemma full_matrix_length {A B C} (f : A -> B -> C) ps qs : length (full_matrix f ps qs) = length ps * length qs.
Proof. unfold full_matrix. induction ps as [|p ps IH]; [reflexivity|]. cbn [flat_map length]. rewrite app_length, map_length, IH. reflexivity. Qed.
Lemma full_matrix_nth n m (f : nat -> nat -> Qc) p j k : j < n -> k < m -> nth_error (full_matrix f (seq p n) (seq 0 m)) (j * m + k) = Some (f (p + j) k).
Proof.
  revert p j. induction n as [|n IH]; intros p j Hj Hk; [lia|]. unfold full_matrix. cbn [seq flat_map]. fold (full_matrix f (seq (S p) n) (seq 0 m)).
  destruct j as [|j].
  - cbn [Nat.mul plus]. rewrite nth_error_app1 by (rewrite map_length, seq_length; auto). rewrite nth_error_map.
    rewrite (nth_error_nth' (seq 0 m) 0) by (rewrite seq_length; auto). rewrite seq_nth by auto. cbn. rewrite Nat.add_0_r. reflexivity.
  - rewrite nth_error_app2 by (rewrite map_length, seq_length; cbn; lia). rewrite map_length, seq_length.
    replace (S j * m + k - m) with (j * m + k) by (cbn; lia). rewrite IH by lia. f_equal. f_equal. lia.
Qed.

Lemma div_eucl_pos n a : a < n * n -> exists j k, j < n /\ k < n /\ a = j * n + k.
Proof.
  intros H. assert (n <> 0) by (intros ->; cbn in H; lia). exists (a / n), (a mod n).
  split; [apply Nat.div_lt_upper_bound; lia|]. split; [apply Nat.mod_upper_bound; auto|]. rewrite Nat.mul_comm. apply Nat.div_mod; auto.
Qed.
Lemma pos_inj n j k j' k' : k < n -> k' < n -> j * n + k = j' * n + k' -> j = j' /\ k = k'.
Proof.
  intros Hk Hk' E. assert (j = j').
  { destruct (Nat.lt_trichotomy j j') as [L|[L|L]]; auto.
    - assert ((S j) * n <= j' * n) by (apply Nat.mul_le_mono_r; lia). cbn in H. lia.
    - assert ((S j') * n <= j * n) by (apply Nat.mul_le_mono_r; lia). cbn in H. lia. }
  subst. split; auto. lia.
Qed.

Lemma unpack_ok n (f : nat -> nat -> Qc) cs rest contrib : (forall j k, j < n -> k < n -> f j k = f k j) ->
  cs = map Some (upper_triangle f (seq 0 n)) ++ rest -> length contrib = n * n ->
  unpack n n cs contrib = Ok (map Some (full_matrix f (seq 0 n) (seq 0 n))).
Proof.
  intros Hsym Hc Hl. unfold unpack.
  set (row := fun (j : nat) (st : nat * buf Qc) => _).
  set (step := fun j k (v : Qc) (c : buf Qc) => c <- wr c (j * n + k) v ;; wr c (k * n + j) v).
  destruct (tri_loop n f cs rest step row contrib Hc) as (s & E).
  { intros j s A0 t Hj Hs. unfold row. rewrite for_range_list. apply (tri_inner n f cs rest step j) with (t := t); auto; [|lia].
    intros k s1 A1 Hk Hjk Hr. rewrite Hr, bind_Ok. unfold step. rewrite bind_assoc. reflexivity. }
  rewrite E, bind_assoc. etransitivity; [apply (drop_pos _ s)|]. clear E row.
  assert (pos : forall j k, j < n -> k < n -> j * n + k < n * n).
  { intros j k Hj Hk. assert (S j * n <= n * n) by (apply Nat.mul_le_mono_r; lia). cbn in H. lia. }
  set (inv := fun (done : nat -> nat -> Prop) (c : buf Qc) => length c = n * n /\ forall j k, j < n -> k < n -> done j k -> nth_error c (j * n + k) = Some (Some (f j k))).
  assert (inner : forall j m k c done, j < n -> k + m = n -> j <= k -> inv done c ->
    exists c', for_list (seq k m) (fun k => step j k (f j k)) c = Ok c' /\ inv (fun a b => done a b \/ (a = j /\ k <= b) \/ (b = j /\ k <= a)) c').
  { intros j. induction m as [|m IH]; intros k c done Hj Hk Hjk (HL & HI).
    - exists c. split; [reflexivity|]. split; [auto|]. intros a b Ha Hb [H|[[_ H]|[_ H]]]; [auto|lia|lia].
    - cbn [seq for_list]. unfold step at 1. pose proof (pos j k Hj ltac:(lia)) as P1. pose proof (pos k j ltac:(lia) Hj) as P2.
      rewrite wr_ok by lia. rewrite bind_Ok, wr_ok by (rewrite upd_length; lia). rewrite bind_Ok.
      destruct (IH (S k) (upd (upd c (j * n + k) (Some (f j k))) (k * n + j) (Some (f j k))) (fun a b => done a b \/ (a = j /\ b = k) \/ (a = k /\ b = j)) Hj ltac:(lia) ltac:(lia)) as (c' & E & HL' & HI').
      { split; [rewrite !upd_length; auto|]. intros a b Ha Hb H.
        destruct (Nat.eq_dec (k * n + j) (a * n + b)) as [Q|Q].
        - apply pos_inj in Q as [<- <-]; auto. rewrite nth_error_upd_eq by (rewrite upd_length; lia). rewrite Hsym; auto; lia.
        - rewrite nth_error_upd_neq by auto. destruct (Nat.eq_dec (j * n + k) (a * n + b)) as [Q'|Q'].
          + apply pos_inj in Q' as [<- <-]; auto; [|lia]. rewrite nth_error_upd_eq by lia. reflexivity.
          + rewrite nth_error_upd_neq by auto. apply HI; auto. destruct H as [H|[[-> ->]|[-> ->]]]; auto; lia. }
      exists c'. split; [exact E|]. split; [auto|]. intros a b Ha Hb H. apply HI'; auto.
      destruct H as [H|[[-> H]|[-> H]]]; auto.
      + destruct (Nat.eq_dec b k) as [->|]; auto. right; left; split; auto; lia.
      + destruct (Nat.eq_dec a k) as [->|]; auto. right; right; split; auto; lia. }
  assert (outer : forall m j c, j + m = n -> inv (fun a b => a < j \/ b < j) c ->
    exists c', for_list (seq j m) (fun j A => for_list (seq j (n - j)) (fun k => step j k (f j k)) A) c = Ok c' /\ inv (fun a b => True) c').
  { induction m as [|m IH]; intros j c Hj HI.
    - exists c. split; [reflexivity|]. destruct HI as [HL HI]. split; [auto|]. intros a b Ha Hb _. apply HI; auto. left; lia.
    - cbn [seq for_list]. destruct (inner j (n - j) j c _ ltac:(lia) ltac:(lia) (le_n j) HI) as (c1 & E1 & HI1). rewrite E1. cbn [bind].
      apply IH; [lia|]. destruct HI1 as [HL1 HI1]. split; [auto|]. intros a b Ha Hb H. apply HI1; auto.
      destruct (Nat.lt_ge_cases a j), (Nat.lt_ge_cases b j); auto. destruct (Nat.eq_dec a j); [right; left; auto|]. right; right. split; [lia|auto]. }
  destruct (outer n 0 contrib eq_refl) as (c' & E & HL & HI). { split; [auto|]. intros; lia. }
  rewrite E. f_equal. apply nth_error_ext. intros a. destruct (Nat.lt_ge_cases a (n * n)) as [L|L].
  - destruct (div_eucl_pos n a L) as (j & k & Hj & Hk & ->). rewrite HI by auto. rewrite nth_error_map, full_matrix_nth by auto. reflexivity.
  - rewrite (proj2 (nth_error_None c' a)) by lia. symmetry. apply nth_error_None. rewrite map_length, full_matrix_length, !seq_length. auto.
Qed.

Section NonSym.
  Variables (dim mdim : nat) (V : list (list Qc)) (C : list (list nat)).
  Hypothesis mok : mesh_ok dim (mdim + 1) V C.
  Variables (dm dm' : dofmap) (nb nb' : nat).
  Let n := dm_num dm.
  Let n' := dm_num dm'.
  Let dpe := dm_dpe dm.
  Let dpe' := dm_dpe dm'.
  Let dofs := dm_dofs dm.
  Let dofs' := dm_dofs dm'.
  Hypothesis ok : dofs_ok (length C) dpe n nb dofs.
  Hypothesis ok' : dofs_ok (length C) dpe' n' nb' dofs'.
  Variables (lm : local_matrix) (packed : bool) (loc : nat -> nat -> nat -> Qc).
  Let vals i := if packed then upper_triangle (loc i) (seq 0 dpe) else full_matrix (loc i) (seq 0 dpe) (seq 0 dpe').
  Hypothesis ev : evaluates (lm_eval lm) (lm_dim lm) (lm_needsCellInfo lm) (dpe * dpe') V C vals.
  Hypothesis dims : lm_needsCellInfo lm = true -> lm_dim lm = mdim.
  Hypothesis sym : packed = true -> dpe' = dpe /\ forall i j k, i < length C -> j < dpe -> k < dpe -> loc i j k = loc i k j.

  Lemma nonsym_loop (enter : nat -> buf Qc -> csr -> res csr) (E : nat -> csr -> res csr) l w cs s s' :
    (forall i, In i l -> i < length C) ->
    (forall i rest s s1, In i l -> E i s = Ok s1 -> enter i (map Some (full_matrix (loc i) (seq 0 dpe) (seq 0 dpe')) ++ rest) s = Ok s1) ->
    scratch_ok dim mdim lm (dpe * dpe') w -> (packed = true -> length cs = dpe * dpe') -> for_list l E s = Ok s' ->
    exists w' cs', for_list l (nonsym_step dim V C lm dm dm' packed enter) (w, cs, s) = Ok (w', cs', s').
  Proof using mok ev dims sym.
    clear ok ok'. revert w cs s. induction l as [|i l IH]; intros w cs s Hl He Hw Hcs Hs; cbn [for_list] in *.
    - injection Hs as <-. eauto.
    - destruct (E i s) as [s1|] eqn:Es; [|discriminate]. cbn [bind] in Hs.
      pose proof (Hl i (or_introl eq_refl)) as Hi. destruct w as [[simplex contrib] cell]. destruct Hw as (Hs1 & Hk & Hlc). cbn [fst snd] in Hs1, Hk, Hlc.
      destruct (nth_error_lt C i Hi) as (c & Hc). pose proof (nth_error_In _ _ Hc) as Hin. destruct (proj2 mok c Hin) as [Hcl _].
      unfold nonsym_step at 1. rewrite (getSimplex_ok dim (mdim + 1) V C i c simplex mok Hc Hs1), bind_Ok.
      assert (Hcell : exists cell', (if lm_needsCellInfo lm then c <- aget C i ;; setCell lm c cell else Ok cell) = Ok cell' /\
        length cell' = S (lm_dim lm) /\ (lm_needsCellInfo lm = true -> cell' = map Some c)).
      { destruct (lm_needsCellInfo lm) eqn:Hn.
        - specialize (dims eq_refl). rewrite (aget_ok _ _ _ Hc), bind_Ok. rewrite (setCell_ok mdim lm) by auto. exists (map Some c).
          split; [reflexivity|]. split; [|auto]. rewrite map_length, dims. lia.
        - exists cell. repeat split; auto. discriminate. }
      destruct Hcell as (cell' & -> & Hl' & Hc'). rewrite bind_Ok.
      assert (Hev : exists contrib' cs' rest, (if packed then cs <- lm_eval lm cell' (map (map Some) (corners V c)) cs ;; contrib <- unpack (dm_dpe dm) (dm_dpe dm') cs contrib ;; Ok (contrib, cs)
          else contrib <- lm_eval lm cell' (map (map Some) (corners V c)) contrib ;; Ok (contrib, cs)) = Ok (contrib', cs') /\
          contrib' = map Some (full_matrix (loc i) (seq 0 dpe) (seq 0 dpe')) ++ rest /\ length contrib' = dpe * dpe' /\ (packed = true -> length cs' = dpe * dpe')).
      { unfold vals in ev. destruct packed.
        - destruct (sym eq_refl) as [Ed Hsym]. destruct (ev i c cell' cs Hc Hl' Hc' (Hcs eq_refl)) as (rest & Ev & Hsz). rewrite Ev, bind_Ok.
          fold dpe dpe'. rewrite Ed. rewrite (unpack_ok dpe (loc i) _ rest contrib) by (auto; rewrite ?Hk, ?Ed; auto). rewrite bind_Ok.
          eexists _, _, []. split; [reflexivity|]. rewrite app_nil_r. split; [reflexivity|]. split.
          + rewrite map_length, full_matrix_length, !seq_length. reflexivity.
          + intros _. rewrite app_length, map_length. rewrite Ed in Hsz. exact Hsz.
        - destruct (ev i c cell' contrib Hc Hl' Hc' Hk) as (rest & Ev & Hsz). rewrite Ev, bind_Ok. eexists _, _, rest. split; [reflexivity|]. split; [reflexivity|]. split; [|discriminate].
          rewrite app_length, map_length. exact Hsz. }
      destruct Hev as (contrib' & cs' & rest & -> & E2 & HL2 & Hcs2). rewrite bind_Ok. cbv beta iota. rewrite E2, (He i rest s s1 (or_introl eq_refl) Es), bind_Ok, <- E2. cbn [bind].
      apply (IH (map (map Some) (corners V c), contrib', cell') cs' s1); auto; intros; [apply Hl; right; auto|apply He; auto; right; auto|].
      split; [apply (corners_shape dim mdim V C mok c Hin)|]. split; auto.
  Qed.

  Variables (st en : option nat).
  Hypothesis fit : range_fits (length C) en.
  Let range := cell_range (length C) st en.
  Variables (A : option csr) (ci : option (list nat)).
  Let cs := match ci with Some l => l | None => range end.
  Hypothesis few : A = None -> few_coupled dofs dofs' dpe dpe' range.
  Hypothesis HA : forall A0, A = Some A0 -> wf_csr n n' A0 /\ sorted_csr n A0 /\ forall I J, coupled dofs dofs' dpe dpe' range I J -> stored A0 I J.
  Hypothesis Hci : forall l i, ci = Some l -> In i l -> In i range.

  Lemma nonsym_events_coupled a b v : In (a, b, v) (flat_map (full_events (events_nonsym dofs dofs' loc) dpe dpe') cs) -> 
    exists i j k, In i cs /\ j < dpe /\ k < dpe' /\ dof dofs i j = Z.of_nat a /\ dof dofs' i k = Z.of_nat b /\ v = loc i j k.
  Proof using Type.
    clear. intros H. apply in_flat_map in H as (i & Hi & H). unfold full_events in H. apply in_flat_map in H as (j & Hj & H). apply in_flat_map in H as (k & Hk & H).
    apply in_seq in Hj. apply in_seq in Hk. unfold events_nonsym in H.
    destruct (Z.ltb_spec (dof dofs i j) 0); [destruct H|]. destruct (Z.ltb_spec (dof dofs' i k) 0); [destruct H|]. cbn [orb] in H.
    destruct H as [H|[]]. injection H as <- <- <-. exists i, j, k. repeat split; auto; lia.
  Qed.
  Lemma in_nonsym_events i j k I J : In i cs -> j < dpe -> k < dpe' -> dof dofs i j = Z.of_nat I -> dof dofs' i k = Z.of_nat J ->
    In (I, J, loc i j k) (flat_map (full_events (events_nonsym dofs dofs' loc) dpe dpe') cs).
  Proof using Type.
    clear. intros Hi Hj Hk Ej Ek. apply in_flat_map. exists i. split; [auto|]. apply in_flat_map. exists j. split; [apply in_seq; lia|].
    apply in_flat_map. exists k. split; [apply in_seq; lia|]. unfold events_nonsym. rewrite Ej, Ek, !Nat2Z.id.
    destruct (Z.ltb_spec (Z.of_nat I) 0); [lia|]. destruct (Z.ltb_spec (Z.of_nat J) 0); [lia|]. left; reflexivity.
  Qed.

  Let old I J := match A with Some A0 => matrix A0 I J | None => 0%Qc end.
  Definition nonsym_pattern (B : csr) : Prop := A = None -> forall I J, I < n -> (stored B I J <-> coupled dofs dofs' dpe dpe' range I J).

  Lemma nonsym_general : exists B, assembleNonSymMatrix_CSR dim mdim V C lm dm dm' A st en ci packed = Ok B /\ wf_csr n n' B /\ sorted_csr n B /\ nonsym_pattern B /\
    forall I J, I < n -> matrix B I J =
      if lm_additive lm then (old I J + assembled dofs dofs' dpe dpe' cs loc I J)%Qc
      else match last_value (flat_map (full_events (events_nonsym dofs dofs' loc) dpe dpe') cs) I J with Some v => v | None => old I J end.
  Proof using All.
    assert (Hfit : cells_fit (length C) st en) by (unfold cells_fit; clear -fit; unfold range_fits in fit; destruct en; cbn in *; auto).
    assert (H0 : exists A0, match A with Some A => Ok A | None => buildNonSymmetricSparsityPattern dm dm' (length C) st en end = Ok A0 /\ wf_csr n n' A0 /\ sorted_csr n A0 /\
      (forall I J, coupled dofs dofs' dpe dpe' range I J -> stored A0 I J) /\ nonsym_pattern A0 /\ forall I J, I < n -> matrix A0 I J = old I J).
    { unfold old, nonsym_pattern. destruct A as [A0|] eqn:EA.
      - exists A0. destruct (HA A0 eq_refl) as (H1 & H2 & H3). repeat split; auto; try apply H1; discriminate.
      - destruct (buildNonSymmetric_ok (length C) nb nb' dm dm' st en ok ok' Hfit (few eq_refl)) as (A0 & E & (H1 & H2 & H3) & Hz).
        exists A0. split; [exact E|]. split; [auto|]. split; [auto|]. split; [|auto].
        intros I J H. destruct (coupled_fit _ _ _ _ _ _ _ _ _ _ _ _ ok ok' H) as [HI _]. apply H3; auto. }
    destruct H0 as (A0 & E0 & wf & srt & Hst & Hpat & Hold).
    assert (Hcs : forall i, In i cs -> In i range) by (unfold cs; destruct ci as [l|]; [intros i Hi; apply (Hci l i eq_refl Hi)|auto]).
    assert (Hlt : forall i, In i cs -> i < length C) by (intros i Hi; apply (in_cell_list (length C) st en i Hfit); apply Hcs; auto).
    set (evs := flat_map (full_events (events_nonsym dofs dofs' loc) dpe dpe') cs).
    set (add := if lm_additive lm then csr_addToEntry else csr_setEntry).
    assert (Hev : forall a b v, In (a, b, v) evs -> a < n /\ stored A0 a b).
    { intros a b v H. apply nonsym_events_coupled in H as (i & j & k & Hi & Hj & Hk & Ej & Ek & _).
      assert (HC : coupled dofs dofs' dpe dpe' range a b) by (exists i, j, k; repeat split; auto).
      destruct (coupled_fit _ _ _ _ _ _ _ _ _ _ _ _ ok ok' HC) as [HI _]. auto. }
    assert (HB : exists B, for_list evs (do_add add) A0 = Ok B /\ wf_csr n n' B /\ same_pattern n A0 B /\ forall I J, I < n -> matrix B I J =
      if lm_additive lm then (old I J + assembled dofs dofs' dpe dpe' cs loc I J)%Qc else match last_value evs I J with Some v => v | None => old I J end).
    { unfold add. destruct (lm_additive lm).
      - destruct (csr_adds n n' evs A0 wf srt Hev) as (B & E & wfB & sp & HM). exists B. repeat split; auto; try apply wfB; try apply sp.
        intros I J HI. rewrite HM, Hold by auto. unfold evs. rewrite nonsym_sum. reflexivity.
      - destruct (csr_sets n n' evs A0 wf srt Hev) as (B & E & wfB & sp & HM). exists B. repeat split; auto; try apply wfB; try apply sp.
        intros I J HI. rewrite HM, Hold by auto. reflexivity. }
    destruct HB as (B & EB & wfB & sp & HM).
    destruct (nonsym_loop (enter_nonsym add dm dm') (fun i A => for_list (full_events (events_nonsym dofs dofs' loc) dpe dpe' i) (do_add add) A) cs
      (new_scratch dim mdim (dpe * dpe') (alloc (lm_dim lm + 1))) (if packed then alloc (dpe * dpe') else []) A0 B Hlt) as (w' & cs' & E).
    { intros i rest s s1 Hi Es. rewrite <- Es. apply (enter_nonsym_ok add (length C) nb nb' dm dm' loc i _ rest s ok ok' (Hlt i Hi)). reflexivity. }
    { apply new_scratch_ok. rewrite alloc_length. lia. } { intros ->. apply alloc_length. } { rewrite <- EB. unfold evs. rewrite for_list_flat. reflexivity. }
    exists B. unfold assembleNonSymMatrix_CSR. rewrite E0, bind_Ok. cbv zeta. fold add.
    split; [|split; [auto|split; [apply (same_pattern_sorted n n' A0 B); auto|split; [|exact HM]]]].
    - unfold cs in E. destruct ci as [l|].
      + match type of E with ?t = _ => match goal with |- context [for_list ?l ?f ?s] => change (for_list l f s) with t end end. rewrite E. reflexivity.
      + rewrite for_range_list. match type of E with ?t = _ => match goal with |- context [for_list ?l ?f ?s] => change (for_list l f s) with t end end. rewrite E. reflexivity.
    - intros EA I J HI. rewrite (same_pattern_stored n n' A0 B) by auto. apply Hpat; auto.
  Qed.
End NonSym.
