(** The iterator over multi-indices, arrays that are written in places, transfer matrices. *)
From Verif Require Import Util Lin DenseModel DenseSpec DenseProofs H2Model H2Spec H2Proofs6 H2Proofs7 TransferModel TransferSpec TransferProofs.
Local Open Scope nat_scope.
Set Default Proof Using "Type".

(** ** The iterator *)
Definition zs (l : list nat) : list Z := map Z.of_nat l.
Lemma zs_length l : length (zs l) = length l. Proof. apply map_length. Qed.
Lemma aget_mid {A} (a b : list A) x k : k = length a -> aget (a ++ x :: b) k = Ok x.
Proof. intros ->. apply aget_ok. rewrite nth_error_app2, Nat.sub_diag by lia. auto. Qed.
Lemma aset_mid {A} (a b : list A) x y k : k = length a -> aset (a ++ x :: b) k y = Ok (a ++ y :: b).
Proof. intros E. rewrite aset_ok by (rewrite app_length; cbn; lia). rewrite upd_at; auto. Qed.

Lemma carry_ok m k : 1 <= m -> forall q r tail, q < m ^ k -> r <= m ->
  pit_carry m k (zs (digits m k q) ++ Z.of_nat r :: tail) =
  Ok (q * m + r <? m ^ S k, if q * m + r <? m ^ S k then zs (digits m (S k) (q * m + r)) ++ tail else repeat 0%Z (S k) ++ tail).
Proof.
  intros Hm. induction k as [|k IH]; intros q r tail Hq Hr.
  - cbn [Nat.pow] in *. assert (q = 0) as -> by lia. change (digits m 0 0) with (@nil nat). cbn [zs map app pit_carry aget nth_error bind].
    destruct (Z.eqb_spec (Z.of_nat r) (Z.of_nat m)) as [E|E].
    + assert (r = m) as -> by lia. destruct (Nat.ltb_spec (0 * m + m) (m * 1)); [lia|]. auto.
    + destruct (Nat.ltb_spec (0 * m + r) (m * 1)); [|lia]. rewrite digits_snoc by lia. auto.
  - cbn [pit_carry]. rewrite aget_mid by (rewrite zs_length, digits_length; auto). cbn [bind].
    destruct (Z.eqb_spec (Z.of_nat r) (Z.of_nat m)) as [E|E].
    + assert (r = m) as -> by lia. rewrite aset_mid by (rewrite zs_length, digits_length; auto). cbn [bind].
      set (q' := q / m). set (r' := q mod m).
      assert (Hq' : q = q' * m + r') by (unfold q', r'; rewrite (Nat.div_mod q m) at 1 by lia; lia).
      assert (Hr' : r' < m) by (apply Nat.mod_upper_bound; lia).
      assert (Hq2 : q' < m ^ k). { apply Nat.div_lt_upper_bound; [lia|]. exact Hq. }
      clearbody q' r'. subst q. rewrite digits_snoc by auto. unfold zs at 1 2. rewrite map_app. cbn [map]. rewrite <- app_assoc. cbn [app].
      fold (zs (digits m k q')). rewrite aget_mid by (rewrite zs_length, digits_length; auto). cbn [bind].
      rewrite aset_mid by (rewrite zs_length, digits_length; auto). cbn [bind].
      replace (Z.of_nat r' + 1)%Z with (Z.of_nat (S r')) by lia. rewrite IH by (auto; lia).
      assert (Hb : (q' * m + S r' <? m ^ S k) = ((q' * m + r') * m + m <? m ^ S (S k))).
      { assert (m ^ S (S k) = m * m ^ S k) by reflexivity.
        destruct (Nat.ltb_spec (q' * m + S r') (m ^ S k)), (Nat.ltb_spec ((q' * m + r') * m + m) (m ^ S (S k))); auto; nia. }
      rewrite Hb. destruct ((q' * m + r') * m + m <? m ^ S (S k)).
      * replace ((q' * m + r') * m + m) with ((q' * m + S r') * m + 0) by lia. rewrite (digits_snoc m (S k) _ 0) by lia.
        unfold zs. rewrite map_app, <- app_assoc. auto.
      * do 2 f_equal. change (repeat 0%Z (S (S k))) with (0%Z :: repeat 0%Z (S k)). rewrite repeat_cons, <- app_assoc. auto.
    + assert (Hlt : q * m + r < m ^ S (S k)). { assert (m ^ S (S k) = m * m ^ S k) by reflexivity. nia. }
      destruct (Nat.ltb_spec (q * m + r) (m ^ S (S k))); [|lia]. rewrite digits_snoc by lia. unfold zs. rewrite map_app, <- app_assoc. auto.
Qed.
Lemma carry_zero k : forall tail, pit_carry 0 k (repeat (-1)%Z k ++ 0%Z :: tail) = Ok (false, repeat 0%Z (S k) ++ tail).
Proof.
  induction k as [|k IH]; intros tail; [auto|]. cbn [pit_carry].
  rewrite aget_mid by (rewrite repeat_length; auto). cbn [bind]. cbn [Z.of_nat Z.eqb]. rewrite aset_mid by (rewrite repeat_length; auto). cbn [bind].
  change (repeat (-1)%Z (S k)) with ((-1)%Z :: repeat (-1)%Z k). rewrite (repeat_cons k (-1)%Z), <- app_assoc. cbn [app].
  rewrite aget_mid by (rewrite repeat_length; auto). cbn [bind]. rewrite aset_mid by (rewrite repeat_length; auto). cbn [bind].
  change (-1 + 1)%Z with 0%Z. rewrite IH. do 2 f_equal. change (repeat 0%Z (S (S k))) with (0%Z :: repeat 0%Z (S k)). rewrite repeat_cons, <- app_assoc. auto.
Qed.

Lemma fill_const (n : nat) (v : Z) (idx : list Z) : n <= length idx -> for_range 0 n (fun i idx => aset idx i v) idx = Ok (repeat v n ++ skipn n idx).
Proof.
  intros Hn. destruct (for_range_inv (fun k l => l = repeat v k ++ skipn k idx) (fun i idx => aset idx i v) 0 n idx) as (s & E & H); [lia|auto| |rewrite E, H; auto].
  intros k s Hk ->. destruct (nth_error_lt idx k) as (c & Ec); [lia|]. destruct (cut_at _ _ _ Ec) as (_ & Hs & _). rewrite Hs.
  exists (repeat v k ++ v :: skipn (S k) idx). split; [apply aset_mid; rewrite repeat_length; auto|].
  change (repeat v (S k)) with (v :: repeat v k). rewrite repeat_cons, <- app_assoc. auto.
Qed.
Lemma reset_ok m k idx : length idx = S k -> pit_reset m idx = Ok (if m =? 0 then repeat (-1)%Z (S k) else repeat 0%Z k ++ [(-1)%Z]).
Proof.
  intros Hl. unfold pit_reset. rewrite Hl. destruct (m =? 0).
  - rewrite fill_const by lia. rewrite skipn_all2 by lia. rewrite app_nil_r. auto.
  - replace (S k - 1) with k by lia. rewrite fill_const by lia. cbn [bind].
    destruct (nth_error_lt idx k) as (c & Ec); [lia|]. destruct (cut_at _ _ _ Ec) as (_ & Hs & _). rewrite Hs.
    rewrite aset_mid by (rewrite repeat_length; auto). rewrite skipn_all2 by lia. auto.
Qed.
Lemma zs_back l : map Z.to_nat (zs l) = l.
Proof. unfold zs. rewrite map_map. rewrite <- (map_id l) at 2. apply map_ext. intros. apply Nat2Z.id. Qed.

Section Loop.
  Context {St : Type} (m k : nat) (body : list nat -> nat -> St -> res St).
  Hypothesis Hm : 1 <= m.
  Lemma step_ok q r : q < m ^ k -> r <= m ->
    pit_step m (zs (digits m k q) ++ [(Z.of_nat r - 1)%Z]) =
    Ok (q * m + r <? m ^ S k, if q * m + r <? m ^ S k then zs (digits m (S k) (q * m + r)) else repeat 0%Z (S k)).
  Proof using Hm.
    intros Hq Hr. unfold pit_step. rewrite app_length, zs_length, digits_length. cbn [length]. replace (k + 1 - 1) with k by lia.
    rewrite aget_mid by (rewrite zs_length, digits_length; auto). cbn [bind]. rewrite aset_mid by (rewrite zs_length, digits_length; auto). cbn [bind].
    replace (Z.of_nat r - 1 + 1)%Z with (Z.of_nat r) by lia. rewrite carry_ok by auto. rewrite !app_nil_r. auto.
  Qed.
  Lemma while_ok fuel : forall q r s, q < m ^ k -> r <= m -> m ^ S k < fuel + (q * m + r) ->
    pit_while m body fuel (zs (digits m k q) ++ [(Z.of_nat r - 1)%Z]) (q * m + r) s =
    (s' <- for_n (m ^ S k - (q * m + r)) (q * m + r) (fun I s => body (digits m (S k) I) I s) s ;; Ok (repeat 0%Z (S k), s')).
  Proof using Hm.
    induction fuel as [|fuel IH]; intros q r s Hq Hr Hf.
    - exfalso. assert (m ^ S k = m * m ^ k) by reflexivity. nia.
    - cbn [pit_while]. rewrite step_ok by auto. cbn [bind].
      assert (Hp : m ^ S k = m * m ^ k) by reflexivity.
      destruct (Nat.ltb_spec (q * m + r) (m ^ S k)) as [Hlt|Hge].
      + rewrite zs_back. replace (m ^ S k - (q * m + r)) with (S (m ^ S k - S (q * m + r))) by lia. cbn [for_n].
        destruct (body (digits m (S k) (q * m + r)) (q * m + r) s) as [s'|e]; cbn [bind]; [|auto].
        set (p := q * m + r) in *.
        assert (Ep : p = p / m * m + p mod m) by (rewrite (Nat.div_mod p m) at 1 by lia; lia).
        assert (Hr2 : p mod m < m) by (apply Nat.mod_upper_bound; lia).
        assert (Hq2 : p / m < m ^ k) by (apply Nat.div_lt_upper_bound; lia).
        rewrite Ep at 1. rewrite digits_snoc by auto. unfold zs. rewrite map_app. cbn [map].
        replace (Z.of_nat (p mod m)) with (Z.of_nat (S (p mod m)) - 1)%Z by lia.
        replace (S p) with (p / m * m + S (p mod m)) by lia. rewrite IH by (auto; lia). auto.
      + replace (m ^ S k - (q * m + r)) with 0 by lia. reflexivity.
  Qed.
End Loop.
(** The loop visits every multi-index once, in order. *)
Lemma pit_loop_ok {St} (m d : nat) (body : list nat -> nat -> St -> res St) idx s : 1 <= d -> length idx = d ->
  pit_loop m body idx s = (s' <- for_range 0 (m ^ d) (fun I s => body (digits m d I) I s) s ;; Ok (repeat 0%Z d, s')).
Proof.
  intros Hd Hl. destruct d as [|k]; [lia|]. unfold pit_loop. rewrite (reset_ok m k) by auto. cbn [bind]. rewrite Hl.
  destruct (Nat.eqb_spec m 0) as [->|Hm].
  - cbn [Nat.pow Nat.mul]. cbn [pit_while]. unfold pit_step. rewrite repeat_length. replace (S k - 1) with k by lia.
    change (repeat (-1)%Z (S k)) with ((-1)%Z :: repeat (-1)%Z k). rewrite repeat_cons. rewrite aget_mid by (rewrite repeat_length; auto). cbn [bind].
    rewrite aset_mid by (rewrite repeat_length; auto). cbn [bind]. change (-1 + 1)%Z with 0%Z. rewrite carry_zero. cbn [bind]. rewrite app_nil_r. auto.
  - assert (E : repeat 0%Z k ++ [(-1)%Z] = zs (digits m k 0) ++ [(Z.of_nat 0 - 1)%Z]).
    { f_equal. unfold digits, tab, zs. rewrite map_map.
      assert (H : forall a n, map (fun x => Z.of_nat (digit m k 0 x)) (seq a n) = repeat 0%Z n).
      { intros a n. revert a. induction n as [|n IH]; intros a; [auto|]. cbn [seq map repeat]. rewrite IH. f_equal.
        unfold digit. rewrite Nat.div_0_l by (apply Nat.pow_nonzero; lia). rewrite Nat.mod_0_l by lia. auto. }
      rewrite H. auto. }
    rewrite E. pose proof (while_ok m k body ltac:(lia) (S (m ^ S k)) 0 0 s) as Hw. cbn [Nat.mul Nat.add] in Hw. assert (0 < m ^ k) by (pose proof (Nat.pow_nonzero m k Hm); lia).
    rewrite Hw by lia. unfold for_range. reflexivity.
Qed.

(** ** Arrays of which some places have been written *)
Definition obuf (n m : nat) (b : buf Qc) (P : nat -> nat -> option Qc) : Prop :=
  length b = n * m /\ forall r c, r < n -> c < m -> nth_error b (r * m + c) = Some (P r c).
Definition put (P : nat -> nat -> option Qc) (r c : nat) (v : Qc) : nat -> nat -> option Qc :=
  fun r' c' => if (r' =? r) && (c' =? c) then Some v else P r' c'.
Lemma put_same P r c v : put P r c v r c = Some v.
Proof. unfold put. rewrite !Nat.eqb_refl. auto. Qed.
Lemma put_other P r c v r' c' : r' <> r \/ c' <> c -> put P r c v r' c' = P r' c'.
Proof. intros H. unfold put. destruct (Nat.eqb_spec r' r), (Nat.eqb_spec c' c); auto; lia. Qed.
Lemma obuf_wr n m b P r c v : obuf n m b P -> r < n -> c < m -> exists b', wr b (r * m + c) v = Ok b' /\ obuf n m b' (put P r c v).
Proof.
  intros (Hl & H) Hr Hc. exists (upd b (r * m + c) (Some v)). split; [apply wr_ok; rewrite Hl; apply ix_lt; auto|].
  split; [rewrite upd_length; auto|]. intros r' c' Hr' Hc'. unfold put.
  destruct (Nat.eqb_spec r' r) as [->|Nr]; cbn [andb].
  - destruct (Nat.eqb_spec c' c) as [->|Nc]; [apply nth_error_upd_eq; rewrite Hl; apply ix_lt; auto|]. rewrite nth_error_upd_neq by lia. auto.
  - rewrite nth_error_upd_neq; auto. intros E. apply ix_inj in E; auto. lia.
Qed.
Lemma obuf_rd n m b P r c v : obuf n m b P -> r < n -> c < m -> P r c = Some v -> rd b (r * m + c) = Ok v.
Proof. intros (Hl & H) Hr Hc E. apply rd_ok. rewrite H, E; auto. Qed.
Lemma obuf_multo n m b P r c v o : obuf n m b P -> r < n -> c < m -> P r c = Some o ->
  exists b', multo b (r * m + c) v = Ok b' /\ obuf n m b' (put P r c (o * v)%Qc).
Proof. intros H Hr Hc E. unfold multo. rewrite (obuf_rd n m b P r c o) by auto. cbn [bind]. apply obuf_wr; auto. Qed.
Lemma obuf_addto n m b P r c v o : obuf n m b P -> r < n -> c < m -> P r c = Some o ->
  exists b', addto b (r * m + c) v = Ok b' /\ obuf n m b' (put P r c (o + v)%Qc).
Proof. intros H Hr Hc E. unfold addto. rewrite (obuf_rd n m b P r c o) by auto. cbn [bind]. apply obuf_wr; auto. Qed.
Lemma obuf_ext n m b P Q : obuf n m b P -> (forall r c, r < n -> c < m -> P r c = Q r c) -> obuf n m b Q.
Proof. intros (Hl & H) E. split; auto. intros r c Hr Hc. rewrite H, E; auto. Qed.
Lemma obuf_any n m b : length b = n * m -> exists P, obuf n m b P.
Proof.
  intros Hl. exists (fun r c => nth (r * m + c) b None). split; auto. intros r c Hr Hc.
  apply nth_error_nth'. rewrite Hl. apply ix_lt; auto.
Qed.
Lemma obuf_repeat n m v : obuf n m (repeat v (n * m)) (fun _ _ => v).
Proof.
  split; [apply repeat_length|]. intros r c Hr Hc. rewrite (nth_error_nth' _ v); [|rewrite repeat_length; apply ix_lt; auto]. f_equal. apply nth_repeat.
Qed.
Lemma all_init_ok {A} (d : A) (b : buf A) : (forall i, i < length b -> exists v, nth_error b i = Some (Some v)) -> exists l, all_init b = Ok l /\ b = map Some l.
Proof.
  induction b as [|[x|] b IH]; intros H.
  - exists []. auto.
  - destruct IH as (l & E & Hl). { intros i Hi. apply (H (S i)). cbn. lia. } exists (x :: l). cbn [all_init]. rewrite E. cbn [bind map]. rewrite <- Hl. auto.
  - destruct (H 0) as (v & Ev); [cbn; lia|]. discriminate.
Qed.
(** Once every place has been written the array can be read. *)
Definition is_array (n m : nat) (D : dense) (A : mat) : Prop := wf_dense n m D /\ forall r c, r < n -> c < m -> dmat D r c = A r c.
Lemma obuf_dense n m b A : obuf n m b (fun r c => Some (A r c)) -> exists D, as_dense n m b = Ok D /\ is_array n m D A.
Proof.
  intros (Hl & H). destruct (all_init_ok 0%Qc b) as (l & E & Hb).
  { intros i Hi. rewrite Hl in Hi. destruct (ix_onto n m i Hi) as (r & c & Hr & Hc & ->). exists (A r c). auto. }
  exists (Dense n m l). unfold as_dense. rewrite E. split; [auto|]. split.
  - repeat split; auto. cbn [d_data]. rewrite <- Hl, Hb, map_length. auto.
  - intros r c Hr Hc. unfold dmat. cbn [d_data d_m]. specialize (H r c Hr Hc). rewrite Hb in H. rewrite nth_error_map in H.
    unfold vat. destruct (nth_error l (r * m + c)) as [x|] eqn:Ex; [|discriminate]. injection H as H. rewrite <- H. apply nth_error_nth. auto.
Qed.
Lemma array_get n m D A r c : is_array n m D A -> r < n -> c < m -> dget D r c = Ok (A r c).
Proof. intros (Hw & H) Hr Hc. rewrite (dget_ok n m) by auto. rewrite H; auto. Qed.

(** Loops over all places, row by row. *)
Lemma obuf_loop n m (P0 : nat -> nat -> option Qc) (A : mat) (body : nat -> nat -> buf Qc -> res (buf Qc)) b :
  obuf n m b P0 ->
  (forall i j b P, i < n -> j < m -> obuf n m b P -> P i j = P0 i j -> exists b', body i j b = Ok b' /\ obuf n m b' (put P i j (A i j))) ->
  exists b', for_range 0 n (fun i b => for_range 0 m (fun j b => body i j b) b) b = Ok b' /\ obuf n m b' (fun r c => Some (A r c)).
Proof.
  intros Hb Hs.
  destruct (for_range_inv (fun k b => obuf n m b (fun r c => if r <? k then Some (A r c) else P0 r c)) (fun i b => for_range 0 m (fun j b => body i j b) b) 0 n b) as (b' & E & H).
  - lia.
  - eapply obuf_ext; [exact Hb|]. intros r c _ _. cbn beta. destruct (Nat.ltb_spec r 0); [lia|auto].
  - intros i b1 Hi H1.
    destruct (for_range_inv (fun k b => obuf n m b (fun r c => if (r <? i) || (r =? i) && (c <? k) then Some (A r c) else P0 r c)) (fun j b => body i j b) 0 m b1) as (b2 & E & H).
    + lia.
    + eapply obuf_ext; [exact H1|]. intros r c _ _. cbn beta. destruct (Nat.ltb_spec c 0); [lia|]. rewrite andb_false_r, orb_false_r. auto.
    + intros j b3 Hj H3. destruct (Hs i j b3 _ ltac:(lia) ltac:(lia) H3) as (b4 & E4 & H4).
      { rewrite Nat.ltb_irrefl, Nat.eqb_refl, Nat.ltb_irrefl. auto. }
      exists b4. split; auto. eapply obuf_ext; [exact H4|]. intros r c Hr Hc. cbn beta. unfold put.
      destruct (Nat.eqb_spec r i) as [->|Nr]; cbn [andb orb].
      * destruct (Nat.eqb_spec c j) as [->|Nc]; [destruct (Nat.ltb_spec j (S j)); [|lia]; rewrite orb_true_r; auto|].
        destruct (Nat.ltb_spec c j), (Nat.ltb_spec c (S j)); auto; lia.
      * auto.
    + exists b2. split; auto. eapply obuf_ext; [exact H|]. intros r c Hr Hc. cbn beta.
      destruct (Nat.ltb_spec c m); [|lia]. rewrite andb_true_r.
      destruct (Nat.ltb_spec r i), (Nat.ltb_spec r (S i)), (Nat.eqb_spec r i); auto; lia.
  - exists b'. split; auto. eapply obuf_ext; [exact H|]. intros r c Hr Hc. cbn beta. destruct (Nat.ltb_spec r n); [auto|lia].
Qed.
