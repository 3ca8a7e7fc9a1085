(** Proofs about encodings, python dictionaries and two-dimensional arrays. *)
From Coq Require Import Permutation.
From Verif Require Import Util Lin TupleDictModel MeshModel MeshSpec.

(** ** Encodings *)
Lemma signed_id bits z : (0 < bits)%Z -> (- 2 ^ (bits - 1) <= z < 2 ^ (bits - 1))%Z -> signed bits z = z.
Proof.
  intros Hb Hz. unfold signed. assert (E : (2 ^ bits = 2 * 2 ^ (bits - 1))%Z).
  { rewrite <- Z.pow_succ_r by lia. f_equal. lia. }
  rewrite E, Z.mod_small by lia. lia.
Qed.

Lemma encode_exact a b : (0 <= a < MAX_VAL_EDGE)%Z -> (0 <= b < MAX_VAL_EDGE)%Z ->
  encode_edge (a, b) = (MAX_VAL_EDGE * a + b)%Z /\ (0 <= MAX_VAL_EDGE * a + b < 2 ^ 62)%Z.
Proof.
  unfold MAX_VAL_EDGE. intros Ha Hb. split; [|change (2 ^ 62)%Z with 4611686018427387904%Z; lia].
  unfold encode_edge. cbn [fst snd]. apply signed_id; [lia|]. change (2 ^ (64 - 1))%Z with 9223372036854775808%Z.
  unfold MAX_VAL_EDGE. lia.
Qed.

Lemma split_exact a b : (0 <= a < MAX_VAL_EDGE)%Z -> (0 <= b < MAX_VAL_EDGE)%Z ->
  ((MAX_VAL_EDGE * a + b) / MAX_VAL_EDGE = a /\ (MAX_VAL_EDGE * a + b) mod MAX_VAL_EDGE = b)%Z.
Proof.
  intros Ha Hb. rewrite (Z.mul_comm MAX_VAL_EDGE a). assert (MAX_VAL_EDGE <> 0)%Z by (unfold MAX_VAL_EDGE; lia). split.
  - rewrite Z.div_add_l by auto. rewrite Z.div_small by lia. lia.
  - rewrite Z.add_comm, Z.mod_add by auto. apply Z.mod_small; lia.
Qed.

Lemma signed32 a : (0 <= a < MAX_VAL_EDGE)%Z -> signed 32 a = a.
Proof. intros H. apply signed_id; [lia|]. change (2 ^ (32 - 1))%Z with MAX_VAL_EDGE. lia. Qed.

Lemma decode_encode_edge a b : (0 <= a < MAX_VAL_EDGE)%Z -> (0 <= b < MAX_VAL_EDGE)%Z ->
  decode_edge 32 (encode_edge (a, b)) = (a, b).
Proof.
  intros Ha Hb. destruct (encode_exact a b Ha Hb) as [-> H]. unfold decode_edge.
  rewrite Z.quot_div_nonneg, Z.rem_mod_nonneg by (unfold MAX_VAL_EDGE in *; lia).
  destruct (split_exact a b Ha Hb) as [-> ->]. rewrite !signed32 by auto. reflexivity.
Qed.

Lemma decode_encode_face a b c : (0 <= a < MAX_VAL_EDGE)%Z -> (0 <= b < MAX_VAL_EDGE)%Z -> (0 <= c < MAX_VAL_EDGE)%Z ->
  decode_face 32 (encode_face (a, b, c)) = (a, b, c).
Proof.
  intros Ha Hb Hc. unfold encode_face, decode_face. cbn [fst snd].
  change (signed 64 (MAX_VAL_EDGE * b + c)) with (encode_edge (b, c)).
  destruct (encode_exact b c Hb Hc) as [-> H]. destruct (split_exact b c Hb Hc) as [-> ->].
  rewrite !signed32 by auto. reflexivity.
Qed.

Lemma sortEdge_z a b : sortEdge Z.ltb a b = (Z.min a b, Z.max a b).
Proof. unfold sortEdge. destruct (Z.ltb_spec a b); f_equal; lia. Qed.
Lemma sortE_minmax a b : sortE a b = (Nat.min a b, Nat.max a b).
Proof. unfold sortE, sortEdge. destruct (Nat.ltb_spec a b); f_equal; lia. Qed.

Lemma sortFace_z a b c : exists x y z, sortFace Z.ltb a b c = (x, y, z) /\ (x <= y <= z)%Z /\ Permutation [a; b; c] [x; y; z].
Proof.
  unfold sortFace.
  destruct (Z.ltb_spec a b), (Z.ltb_spec a c), (Z.ltb_spec b c); eexists _, _, _; (split; [reflexivity|]; split; [lia|]).
  all: try lia.
  all: try apply Permutation_refl.
  all: try (apply perm_skip; apply perm_swap).
  all: try (apply perm_swap).
  all: try (eapply perm_trans; [apply perm_swap|]; apply perm_skip; apply perm_swap).
  all: try (eapply perm_trans; [apply perm_skip; apply perm_swap|]; apply perm_swap).
  all: eapply perm_trans; [apply perm_swap|]; eapply perm_trans; [apply perm_skip; apply perm_swap|]; apply perm_swap.
Qed.

Definition small (a : nat) : Prop := (Z.of_nat a < MAX_VAL_EDGE)%Z.

Lemma dec_enc e : small (fst e) -> small (snd e) -> dec (enc e) = e.
Proof.
  destruct e as [a b]. unfold small, dec, enc. cbn [fst snd]. intros Ha Hb.
  rewrite decode_encode_edge by lia. cbn [fst snd]. rewrite !Nat2Z.id. reflexivity.
Qed.
Lemma enc_inj e f : small (fst e) -> small (snd e) -> small (fst f) -> small (snd f) -> enc e = enc f -> e = f.
Proof. intros He1 He2 Hf1 Hf2 E. rewrite <- (dec_enc e), <- (dec_enc f), E; auto. Qed.

(** ** Dictionaries *)
Section Dict.
  Context {K V : Type}.
  Variable eqb : K -> K -> bool.
  Hypothesis eqb_spec : forall a b, eqb a b = true <-> a = b.

  Lemma dget_notin (d : list (K * V)) k : ~ In k (map fst d) -> dget eqb d k = Err EKey.
  Proof using eqb_spec.
    induction d as [|[k' v] d IH]; cbn; intros H; auto. destruct (eqb k' k) eqn:E; [apply eqb_spec in E; tauto|]. apply IH; tauto.
  Qed.
  Lemma dget_in (d : list (K * V)) k v : NoDup (map fst d) -> In (k, v) d -> dget eqb d k = Ok v.
  Proof using eqb_spec.
    induction d as [|[k' w] d IH]; cbn; intros Hn H; [tauto|]. inversion Hn as [|? ? Hk Hd]; subst.
    destruct H as [H|H].
    - inversion H; subst. destruct (eqb k k) eqn:E; auto. exfalso. assert (k = k) as X by reflexivity. apply eqb_spec in X. congruence.
    - destruct (eqb k' k) eqn:E; [|apply IH; auto]. apply eqb_spec in E. subst. exfalso. apply Hk. apply in_map_iff. exists (k, v); auto.
  Qed.
  Lemma dget_dec (d : list (K * V)) k : (exists v, In (k, v) d /\ dget eqb d k = Ok v) \/ (~ In k (map fst d) /\ dget eqb d k = Err EKey).
  Proof using eqb_spec.
    induction d as [|[k' w] d IH]; cbn; [right; tauto|]. destruct (eqb k' k) eqn:E.
    - apply eqb_spec in E. subst. left. eauto.
    - destruct IH as [(v & H1 & H2)|(H1 & H2)]; [left; eauto|right]. split; auto. intros [->|H]; [|tauto].
      assert (k = k) as X by reflexivity. apply eqb_spec in X. congruence.
  Qed.
  Lemma dset_notin (d : list (K * V)) k v : ~ In k (map fst d) -> dset eqb d k v = d ++ [(k, v)].
  Proof using eqb_spec.
    induction d as [|[k' w] d IH]; cbn; intros H; auto. destruct (eqb k' k) eqn:E; [apply eqb_spec in E; tauto|].
    rewrite IH by tauto. reflexivity.
  Qed.
End Dict.

Lemma Zeqb_spec a b : (a =? b)%Z = true <-> a = b.
Proof. apply Z.eqb_eq. Qed.
Lemma edge_eqb_spec e f : edge_eqb e f = true <-> e = f.
Proof.
  unfold edge_eqb. destruct e, f. cbn. rewrite andb_true_iff, !Nat.eqb_eq. split; [intros []; subst; auto|intros E; inversion E; auto].
Qed.

(** ** Two-dimensional arrays *)
Lemma all_init_some {A} (l : list A) : all_init (map Some l) = Ok l.
Proof. induction l as [|x l IH]; cbn [map all_init]; auto. rewrite IH. reflexivity. Qed.
Lemma all_init2_some {A} (l : list (list A)) : all_init2 (map (map Some) l) = Ok l.
Proof. induction l as [|x l IH]; cbn [map all_init2]; auto. rewrite all_init_some. cbn [bind]. rewrite IH. reflexivity. Qed.

Lemma get2_ok {A} (l : list (list A)) i k r x : nth_error l i = Some r -> nth_error r k = Some x -> get2 l i k = Ok x.
Proof. intros H1 H2. unfold get2. rewrite (aget_ok _ _ _ H1). cbn [bind]. apply aget_ok; auto. Qed.
Lemma wr2_ok {A} (l : list (buf A)) i k r x : nth_error l i = Some r -> k < length r -> wr2 l i k x = Ok (upd l i (upd r k (Some x))).
Proof.
  intros H1 H2. unfold wr2. rewrite (aget_ok _ _ _ H1). cbn [bind]. rewrite wr_ok by auto. cbn [bind]. apply aset_ok.
  apply nth_error_Some. congruence.
Qed.
Lemma alloc2_S {A} n k : @alloc2 A (S n) k = alloc k :: alloc2 n k.
Proof. reflexivity. Qed.
Lemma alloc2_length {A} n k : length (@alloc2 A n k) = n.
Proof. apply repeat_length. Qed.

Lemma upd_row_id {A} (l : list A) i x : nth_error l i = Some x -> upd l i x = l.
Proof. apply upd_same. Qed.

(** Filling one row, in a loop over its entries. *)
Lemma fill_row {A} (n : nat) (f : nat -> list (buf A) -> res (list (buf A))) (g : nat -> A) i l r :
  nth_error l i = Some r -> length r = n ->
  (forall k l', k < n -> f k l' = wr2 l' i k (g k)) ->
  for_range 0 n f l = Ok (upd l i (map Some (tab n g))).
Proof.
  intros Hr Hn Hf.
  loop_inv (fun k l' => l' = upd l i (map Some (tab k g) ++ skipn k r)) st E HI.
  3: { intros k l' Hk ->. rewrite Hf by lia.
       rewrite (wr2_ok _ _ _ (map Some (tab k g) ++ skipn k r)).
       - eexists. split; [reflexivity|]. rewrite upd_upd. f_equal.
         assert (Hx : exists x, nth_error r k = Some x) by (apply nth_error_lt; lia). destruct Hx as [x Hx].
         destruct (cut_at _ _ _ Hx) as (_ & -> & _). rewrite upd_at by (rewrite map_length, tab_length; auto).
         rewrite tab_S, map_app, <- app_assoc. reflexivity.
       - apply nth_error_upd_eq. apply nth_error_Some. congruence.
       - rewrite app_length, map_length, tab_length, skipn_length. lia. }
  - lia.
  - cbn [tab seq map app skipn]. rewrite upd_same; auto.
  - rewrite E, HI. rewrite skipn_all2 by lia. rewrite app_nil_r. reflexivity.
Qed.

Lemma put_row_at {A} (l : list (buf A)) i c r : nth_error l i = Some r -> length r = length c ->
  put_row l i c = Ok (upd l i (map Some c)).
Proof.
  intros Hr Hn. unfold put_row. destruct c as [|c0 c'] eqn:Ec.
  - cbn. destruct r; [|discriminate]. cbn. rewrite upd_same; auto.
  - rewrite <- Ec in *. rewrite (fill_row (length c) _ (fun k => nth k c c0) i l r); auto.
    + rewrite <- list_eq_tab. reflexivity.
    + intros k l' Hk. rewrite (aget_nth _ _ c0) by auto. reflexivity.
Qed.

Lemma put_row_next {A} (done : list (list A)) m k c i : i = length done -> length c = k ->
  put_row (map (map Some) done ++ alloc2 (S m) k) i c = Ok (map (map Some) (done ++ [c]) ++ alloc2 m k).
Proof.
  intros -> Hc. rewrite alloc2_S. rewrite (put_row_at _ _ c (alloc k)).
  - rewrite upd_at by (rewrite map_length; auto). rewrite map_app, <- app_assoc. reflexivity.
  - rewrite nth_error_app2 by (rewrite map_length; lia). rewrite map_length, Nat.sub_diag. reflexivity.
  - rewrite alloc_length. auto.
Qed.

(** ** Vertices *)
Lemma copy_vertices_ok dim V m : (forall p, In p V -> length p = dim) ->
  copy_vertices dim V (alloc2 (length V + m) dim) = Ok (map (map Some) V ++ alloc2 m dim).
Proof.
  intros HV. unfold copy_vertices.
  loop_inv (fun i new => new = map (map Some) (firstn i V) ++ @alloc2 Qc (length V + m - i) dim) st E HI.
  3: { intros i new Hi ->. destruct (nth_error_lt V i) as [p Hp]; [lia|].
       assert (Hl : length p = dim) by (apply HV; eapply nth_error_In; eauto).
       replace (length V + m - i) with (S (length V + m - S i)) by lia. rewrite alloc2_S.
       rewrite (fill_row dim _ (fun k => vat p k) i _ (alloc dim)).
       - eexists. split; [reflexivity|]. destruct (cut_at _ _ _ Hp) as (-> & _ & _).
         rewrite upd_at by (rewrite map_length, firstn_length; lia). rewrite map_app, <- app_assoc. cbn [map app].
         do 3 f_equal. rewrite <- Hl. symmetry. apply (list_eq_tab p 0%Qc).
       - rewrite nth_error_app2 by (rewrite map_length, firstn_length; lia).
         rewrite map_length, firstn_length. replace (i - Nat.min i (length V)) with 0 by lia. reflexivity.
       - apply alloc_length.
       - intros k l' Hk. rewrite (get2_ok _ _ _ p (vat p k)); auto. apply nth_error_vat; lia. }
  - lia.
  - cbn [firstn map app]. f_equal. lia.
  - rewrite E, HI. rewrite firstn_all. do 3 f_equal. lia.
Qed.

Definition mid_row (V : list (list Qc)) (e : edge) : list Qc := midpoint (point V (fst e)) (point V (snd e)).

Lemma mid_row_length dim V e : (forall p, In p V -> length p = dim) -> fst e < length V -> length (mid_row V e) = dim.
Proof. intros HV He. unfold mid_row, midpoint. rewrite tab_length. apply HV. apply nth_In. auto. Qed.

Lemma half_div x : (x * one_half = x / (1 + 1))%Qc.
Proof.
  replace one_half with (/ (1 + 1))%Qc; [reflexivity|]. apply Qc_is_canon. reflexivity.
Qed.

Lemma set_midpoint_ok dim V e j new r : (forall p, In p V -> length p = dim) -> fst e < length V -> snd e < length V ->
  nth_error new j = Some r -> length r = dim ->
  set_midpoint dim V e j new = Ok (upd new j (map Some (mid_row V e))).
Proof.
  intros HV H1 H2 Hj Hr. unfold set_midpoint.
  destruct (nth_error_lt V (fst e) H1) as [p Hp]. destruct (nth_error_lt V (snd e) H2) as [q Hq].
  assert (Lp : length p = dim) by (apply HV; eapply nth_error_In; eauto).
  assert (Lq : length q = dim) by (apply HV; eapply nth_error_In; eauto).
  rewrite (fill_row dim _ (fun k => ((vat p k + vat q k) / (1 + 1))%Qc) j new r); auto.
  - do 3 f_equal. unfold mid_row, midpoint, point. rewrite (nth_error_nth _ _ _ Hp), (nth_error_nth _ _ _ Hq), Lp. reflexivity.
  - intros k l' Hk. rewrite (get2_ok _ _ _ p (vat p k)) by (auto; apply nth_error_vat; lia).
    rewrite (get2_ok _ _ _ q (vat q k)) by (auto; apply nth_error_vat; lia). cbn [bind]. rewrite half_div. reflexivity.
Qed.

Lemma midpoints_ok dim V (l : list (edge * nat)) new : (forall p, In p V -> length p = dim) ->
  (forall e j, In (e, j) l -> fst e < length V /\ snd e < length V /\ j < length new) ->
  (forall r, In r new -> length r = dim) -> NoDup (map snd l) ->
  exists new', for_list l (fun ej new => set_midpoint dim V (fst ej) (snd ej) new) new = Ok new' /\
    length new' = length new /\
    (forall e j, In (e, j) l -> nth_error new' j = Some (map Some (mid_row V e))) /\
    (forall j, ~ In j (map snd l) -> nth_error new' j = nth_error new j).
Proof.
  intros HV Hl Hr Hn.
  destruct (for_list_inv (fun done s => length s = length new /\ (forall r, In r s -> length r = dim) /\
     (forall e j, In (e, j) done -> nth_error s j = Some (map Some (mid_row V e))) /\
     (forall j, ~ In j (map snd done) -> nth_error s j = nth_error new j))
    (fun ej new => set_midpoint dim V (fst ej) (snd ej) new) l [] new) as (s & E & L & _ & H1 & H2).
  - repeat split; auto. intros e j [].
  - intros p [e j] q s Hs (L & Hd & H1 & H2). cbn [app] in *. cbn [fst snd].
    assert (Hin : In (e, j) l) by (rewrite Hs; apply in_or_app; right; left; auto).
    destruct (Hl e j Hin) as (A1 & A2 & A3). destruct (nth_error_lt s j) as [r Er]; [lia|].
    assert (Hjp : ~ In j (map snd p)).
    { rewrite Hs, map_app in Hn. cbn in Hn. apply NoDup_remove_2 in Hn. intros H. apply Hn. apply in_or_app; auto. }
    rewrite (set_midpoint_ok _ _ _ _ _ r); auto; [|apply Hd; eapply nth_error_In; eauto].
    eexists. split; [reflexivity|]. rewrite upd_length. split; [auto|]. split; [|split].
    + intros r' Hr'. apply In_nth_error in Hr' as [k Hk]. rewrite nth_error_upd in Hk.
      destruct ((j =? k) && (j <? length s)); [|apply Hd; eapply nth_error_In; eauto].
      inversion Hk. rewrite map_length. apply mid_row_length; auto.
    + intros e' j' H. apply in_app_or in H as [H|[H|[]]].
      * rewrite nth_error_upd_neq; [auto|]. intros ->. apply Hjp. apply in_map_iff. exists (e', j'); auto.
      * inversion H; subst. apply nth_error_upd_eq. lia.
    + intros k Hk. rewrite map_app in Hk. rewrite nth_error_upd_neq; [apply H2|].
      * intros H. apply Hk. apply in_or_app; auto.
      * intros ->. apply Hk. apply in_or_app. right. left. auto.
  - exists s. auto.
Qed.

Lemma nth_error_ext {A} (a b : list A) : (forall i, nth_error a i = nth_error b i) -> a = b.
Proof.
  revert b. induction a as [|x a IH]; intros [|y b] H; auto.
  - specialize (H 0). discriminate.
  - specialize (H 0). discriminate.
  - f_equal; [specialize (H 0); cbn in H; congruence|]. apply IH. intros i. apply (H (S i)).
Qed.

(** The items of an edge numbering, in any order. *)
Lemma vertices_ok dim V E l : (forall p, In p V -> length p = dim) ->
  (forall e, In e E -> fst e < length V /\ snd e < length V) ->
  Permutation l (combine E (seq (length V) (length E))) ->
  for_list l (fun ej new => set_midpoint dim V (fst ej) (snd ej) new) (map (map Some) V ++ alloc2 (length E) dim)
  = Ok (map (map Some) (refined_vertices V E)).
Proof.
  intros HV HE Hp.
  assert (Hc : forall e j, In (e, j) l <-> exists k, nth_error E k = Some e /\ j = length V + k).
  { intros e j. split.
    - intros H. apply (Permutation_in _ Hp) in H. apply In_nth_error in H as [k Hk].
      assert (Hlt : k < length (combine E (seq (length V) (length E)))) by (apply nth_error_Some; congruence).
      rewrite combine_length, seq_length in Hlt. exists k.
      destruct (nth_error_lt E k) as [e' He']; [lia|].
      assert (Hk' : nth_error (combine E (seq (length V) (length E))) k = Some (e', length V + k)).
      { rewrite (nth_error_nth' _ (e', 0)) by (rewrite combine_length, seq_length; lia).
        rewrite combine_nth by (rewrite seq_length; auto). rewrite (nth_error_nth _ _ _ He'), seq_nth by lia. reflexivity. }
      rewrite Hk in Hk'. inversion Hk'; subst. auto.
    - intros (k & Hk & ->). apply (Permutation_in _ (Permutation_sym Hp)).
      assert (Hlt : k < length E) by (apply nth_error_Some; congruence).
      apply (nth_error_In _ k). rewrite (nth_error_nth' _ (e, 0)) by (rewrite combine_length, seq_length; lia).
      rewrite combine_nth by (rewrite seq_length; auto). rewrite (nth_error_nth _ _ _ Hk), seq_nth by lia. reflexivity. }
  assert (Hsnd : Permutation (map snd l) (seq (length V) (length E))).
  { rewrite (Permutation_map snd Hp).
    assert (X : forall (a : list edge) (b : list nat), length a = length b -> map snd (combine a b) = b).
    { induction a as [|x a IH]; intros [|y b] H; cbn in *; try discriminate; auto. f_equal. apply IH. lia. }
    rewrite X by (rewrite seq_length; auto). apply Permutation_refl. }
  destruct (midpoints_ok dim V l (map (map Some) V ++ alloc2 (length E) dim)) as (new' & Eq & L & H1 & H2); auto.
  - intros e j H. apply Hc in H as (k & Hk & ->). assert (Hlt : k < length E) by (apply nth_error_Some; congruence).
    rewrite app_length, map_length, alloc2_length. destruct (HE e (nth_error_In _ _ Hk)). lia.
  - intros r Hr. apply in_app_or in Hr as [Hr|Hr].
    + apply in_map_iff in Hr as (p & <- & Hr). rewrite map_length. auto.
    + apply repeat_spec in Hr. subst. apply alloc_length.
  - apply (Permutation_NoDup (Permutation_sym Hsnd)). apply seq_NoDup.
  - etransitivity; [exact Eq|]. f_equal. rewrite app_length, map_length, alloc2_length in L.
    apply nth_error_ext. intros j. unfold refined_vertices. rewrite map_app.
    destruct (Nat.lt_ge_cases j (length V)).
    + rewrite H2. { rewrite !nth_error_app1 by (rewrite map_length; auto). auto. }
      intros Hin. apply (Permutation_in _ Hsnd) in Hin. apply in_seq in Hin. lia.
    + rewrite nth_error_app2 by (rewrite map_length; auto). rewrite map_length.
      destruct (nth_error E (j - length V)) as [e|] eqn:Ee.
      * rewrite (H1 e j) by (apply Hc; exists (j - length V); split; auto; lia).
        rewrite !nth_error_map, Ee. reflexivity.
      * apply nth_error_None in Ee. rewrite !nth_error_map. rewrite (proj2 (nth_error_None E _)) by auto. cbn.
        apply nth_error_None. lia.
Qed.
