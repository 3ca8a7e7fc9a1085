From Coq Require Import Permutation.
From Verif Require Import Util Lin MeshModel MeshProofs MeshProofs2 BoundaryProofs BoundaryProofs2 MeshOpsModel MeshOpsSpec.

Lemma zget_nat {A} (l : list A) u x : nth_error l u = Some x -> zget l (Z.of_nat u) = Ok x.
Proof. intros H. unfold zget. destruct (Z.ltb_spec (Z.of_nat u) 0); [lia|]. rewrite Nat2Z.id. unfold aget. rewrite H. reflexivity. Qed.
Lemma zset_nat {A} (l : list A) u x : u < length l -> zset l (Z.of_nat u) x = Ok (upd l u x).
Proof. intros H. unfold zset. destruct (Z.ltb_spec (Z.of_nat u) 0); [lia|]. rewrite Nat2Z.id. unfold aset. destruct (Nat.ltb_spec u (length l)); [reflexivity|lia]. Qed.
Lemma z_nat v n : (0 <= v < Z.of_nat n)%Z -> exists u, v = Z.of_nat u /\ u < n.
Proof. intros H. exists (Z.to_nat v). lia. Qed.

Lemma range_list {A S} (c : list A) (body : nat -> S -> res S) (f : A -> S -> res S) s :
  (forall i x s, nth_error c i = Some x -> body i s = f x s) -> for_range 0 (length c) body s = for_list c f s.
Proof.
  intros H. rewrite (range_flat c body (fun _ x => [x]) f).
  - f_equal. rewrite (flat_map_snd (fun x => [x]) c). clear. induction c as [|x c IH]; [reflexivity|]. cbn [flat_map app]. rewrite IH. reflexivity.
  - intros i x s' Hi. cbn [for_list]. rewrite (H i x s' Hi). destruct (f x s'); reflexivity.
Qed.
Lemma range_rows {A S} w (C : list (list A)) (body : nat -> nat -> S -> res S) (f : A -> S -> res S) s :
  (forall c, In c C -> length c = w) ->
  (forall i j c x s, nth_error C i = Some c -> nth_error c j = Some x -> body i j s = f x s) ->
  for_range 0 (length C) (fun i s => for_range 0 w (body i) s) s = for_list (concat C) f s.
Proof.
  intros HC H. rewrite (range_flat C _ (fun _ c => c) f).
  - f_equal. rewrite (flat_map_snd (fun c => c) C). rewrite flat_map_concat_map, map_id. reflexivity.
  - intros i c s' Hi. rewrite <- (HC c (nth_error_In C i Hi)). apply range_list. intros j x s0 Hj. exact (H i j c x s0 Hi Hj).
Qed.

(** ** The numbering *)
Lemma renamed_fun U v a b : NoDup U -> renamed U v a -> renamed U v b -> a = b.
Proof.
  intros N (k & u & Hk & -> & ->) (l & w & Hl & E & ->). apply Nat2Z.inj in E. subst w. f_equal.
  rewrite NoDup_nth_error in N. apply N; [apply nth_error_Some; congruence|congruence].
Qed.
Lemma renamed_inj U v w a : renamed U v a -> renamed U w a -> v = w.
Proof. intros (k & u & Hk & -> & ->) (l & x & Hl & -> & E). apply Nat2Z.inj in E. subst l. congruence. Qed.
Lemma renamed_in U u : In u U <-> exists v', renamed U (Z.of_nat u) v'.
Proof.
  split.
  - intros H. apply In_nth_error in H as [k Hk]. exists (Z.of_nat k), k, u. auto.
  - intros (v' & k & w & Hk & E & _). apply Nat2Z.inj in E. subst w. exact (nth_error_In U k Hk).
Qed.
Lemma renamed_snoc U u v v' : ~ In u U -> (renamed (U ++ [u]) v v' <-> renamed U v v' \/ (v = Z.of_nat u /\ v' = Z.of_nat (length U))).
Proof.
  intros Hu. split.
  - intros (k & w & Hk & -> & ->). destruct (Nat.lt_ge_cases k (length U)) as [L|L].
    + rewrite nth_error_app1 in Hk by exact L. left. exists k, w. auto.
    + rewrite nth_error_app2 in Hk by exact L. destruct (k - length U) as [|m] eqn:Ek; [|destruct m; discriminate].
      injection Hk as <-. right. split; [reflexivity|]. f_equal. lia.
  - intros [(k & w & Hk & -> & ->)|[-> ->]].
    + exists k, w. split; [|auto]. rewrite nth_error_app1; [exact Hk|]. apply nth_error_Some. congruence.
    + exists (length U), u. split; [|auto]. rewrite nth_error_app2, Nat.sub_diag by lia. reflexivity.
Qed.

Definition mapping_ok (n : nat) (U : list nat) (mapping : list Z) : Prop :=
  length mapping = n /\ forall u z, nth_error mapping u = Some z -> renamed_or_gone U (Z.of_nat u) z.

Lemma renamed_pos U v v' : renamed U v v' -> (v' =? -1)%Z = false.
Proof. intros (k & u & _ & _ & ->). apply Z.eqb_neq. lia. Qed.

Lemma mapping_get n U mapping v : mapping_ok n U mapping -> (0 <= v < Z.of_nat n)%Z ->
  exists z, zget mapping v = Ok z /\ renamed_or_gone U v z.
Proof.
  intros [L H] Hv. destruct (z_nat v n Hv) as (u & -> & Hu). destruct (nth_error_lt mapping u) as [z Hz]; [lia|].
  exists z. split; [exact (zget_nat mapping u z Hz)|]. apply H, Hz.
Qed.

Definition firsts (U : list nat) (done : list Z) : Prop :=
  NoDup U /\ (forall u, In u U <-> In (Z.of_nat u) done) /\
  forall k l u w, k < l -> nth_error U k = Some u -> nth_error U l = Some w ->
    exists p q, done = p ++ Z.of_nat u :: q /\ ~ In (Z.of_nat w) p.

Lemma firsts_old U done u : firsts U done -> In u U -> firsts U (done ++ [Z.of_nat u]).
Proof.
  intros (N & H & O) Hu. split; [exact N|]. split.
  - intros w. rewrite in_app_iff, H. cbn [In]. split; [auto|]. intros [Hw|[E|[]]]; [exact Hw|]. apply Nat2Z.inj in E. subst w. apply H, Hu.
  - intros k l a b Hkl Ha Hb. destruct (O k l a b Hkl Ha Hb) as (p & q & -> & Hp). exists p, (q ++ [Z.of_nat u]). split; [rewrite <- app_assoc; reflexivity|exact Hp].
Qed.
Lemma firsts_new U done u : firsts U done -> ~ In u U -> firsts (U ++ [u]) (done ++ [Z.of_nat u]).
Proof.
  intros (N & H & O) Hu. split; [|split].
  - apply Permutation_NoDup with (u :: U); [apply Permutation_cons_append|]. constructor; assumption.
  - intros w. rewrite !in_app_iff, H. cbn [In]. split; intros [Hw|[E|[]]]; auto; right; left; first [congruence|apply Nat2Z.inj, E].
  - intros k l a b Hkl Ha Hb. assert (k < length U) as Lk.
    { assert (l < length (U ++ [u])) by (apply nth_error_Some; congruence). rewrite app_length in H0. cbn [length] in H0. lia. }
    rewrite nth_error_app1 in Ha by exact Lk. destruct (Nat.lt_ge_cases l (length U)) as [L|L].
    + rewrite nth_error_app1 in Hb by exact L. destruct (O k l a b Hkl Ha Hb) as (p & q & -> & Hp). exists p, (q ++ [Z.of_nat u]). split; [rewrite <- app_assoc; reflexivity|exact Hp].
    + rewrite nth_error_app2 in Hb by exact L. destruct (l - length U) as [|m]; [|destruct m; discriminate]. injection Hb as <-.
      assert (In (Z.of_nat a) done) as Hd by (apply H, (nth_error_In U k Ha)). apply in_split in Hd as (p & q & Ed).
      exists p, (q ++ [Z.of_nat u]). split; [rewrite Ed, <- app_assoc; reflexivity|]. intros Hp. apply Hu, H. rewrite Ed, in_app_iff. left. exact Hp.
Qed.

Lemma number_vertices_ok w C n : rows_below w n C ->
  exists U mapping, number_vertices w C n = Ok (mapping, length U) /\ mapping_ok n U mapping /\ first_use U C /\ forall u, In u U -> u < n.
Proof.
  intros HC. unfold number_vertices.
  rewrite (range_rows w C _ (fun v (st : list Z * nat) => let '(mapping, k) := st in mv <- zget mapping v ;;
      if (mv =? -1)%Z then mapping <- zset mapping v (Z.of_nat k) ;; Ok (mapping, S k) else Ok (mapping, k))).
  2: { intros c Hc. apply (HC c Hc). }
  2: { intros i j c x [mapping k] Hi Hj. rewrite (get2_ok C i j c x Hi Hj). reflexivity. }
  destruct (for_list_inv (fun done (st : list Z * nat) => exists U, snd st = length U /\ mapping_ok n U (fst st) /\ firsts U done)
    (fun v (st : list Z * nat) => let '(mapping, k) := st in mv <- zget mapping v ;;
      if (mv =? -1)%Z then mapping <- zset mapping v (Z.of_nat k) ;; Ok (mapping, S k) else Ok (mapping, k)) (concat C) [] (repeat (-1)%Z n, 0)) as (st & E & U & Hk & HM & HF).
  - exists []. split; [reflexivity|]. split.
    + split; [apply repeat_length|]. intros u z Hz. cbn [fst] in Hz. apply nth_error_In, repeat_spec in Hz. subst z.
      right. split; [|reflexivity]. intros v (k & x & Hx & _). destruct k; discriminate.
    + split; [constructor|]. split; [intros u; split; intros []|]. intros k l u w0 _ Hu. destruct k; discriminate.
  - intros p v q [mapping k] Hp (U & Hk & HM & HF). cbn [app fst snd] in *. subst k.
    assert (0 <= v < Z.of_nat n)%Z as Hv.
    { assert (In v (concat C)) as Hv by (rewrite Hp, in_app_iff; right; left; reflexivity). apply in_concat in Hv as (c & Hc & Hv). apply (HC c Hc), Hv. }
    destruct (mapping_get n U mapping v HM Hv) as (z & Ez & Hz). destruct (z_nat v n Hv) as (u & -> & Hu). rewrite Ez. cbn [bind].
    destruct Hz as [Hz|[Hz ->]].
    + rewrite (renamed_pos U _ z Hz). eexists. split; [reflexivity|]. exists U. cbn [fst snd]. split; [reflexivity|]. split; [exact HM|].
      apply firsts_old; [exact HF|]. apply renamed_in. eauto.
    + cbn [Z.eqb Pos.eqb]. assert (~ In u U) as HU by (intros Hi; apply renamed_in in Hi as (v' & Hi); exact (Hz v' Hi)).
      destruct HM as [L HM]. rewrite zset_nat by lia. cbn [bind]. eexists. split; [reflexivity|]. exists (U ++ [u]). cbn [fst snd].
      split; [rewrite app_length; cbn [length]; lia|]. split; [|apply firsts_new; assumption]. split; [rewrite upd_length; exact L|].
      intros x z Hx. destruct (Nat.eq_dec x u) as [->|D].
      * rewrite nth_error_upd_eq in Hx by lia. injection Hx as <-. left. apply renamed_snoc; [exact HU|]. right. auto.
      * rewrite nth_error_upd_neq in Hx by lia. destruct (HM x z Hx) as [H1|[H1 H2]].
        -- left. apply renamed_snoc; [exact HU|]. left. exact H1.
        -- right. split; [|exact H2]. intros v' Hv'. apply renamed_snoc in Hv' as [H3|[H3 _]]; [exact (H1 v' H3)| |exact HU]. apply Nat2Z.inj in H3. contradiction.
  - rewrite E. destruct st as [mapping k]. cbn [fst snd] in *. subst k. exists U, mapping. split; [reflexivity|]. split; [exact HM|].
    destruct HF as (N & H & O). cbn [app] in *.
    assert (forall v, In v (concat C) <-> used C v) as Hin by (intros v; rewrite in_concat; unfold used; split; intros (c & Hc & Hv); eauto).
    split.
    + split; [exact N|]. split; [|exact O]. intros u. rewrite H. apply Hin.
    + intros u Hu. apply H in Hu. apply in_concat in Hu as (c & Hc & Hu). pose proof (proj2 (HC c Hc) _ Hu). lia.
Qed.

(** ** The arrays *)
Lemma kept_vertices_ok dim V U mapping : (forall p, In p V -> length p = dim) -> NoDup U -> (forall u, In u U -> u < length V) ->
  mapping_ok (length V) U mapping -> kept_vertices dim V mapping (length U) = Ok (map (fun u => nth u V []) U).
Proof.
  intros HV N HU [L HM]. unfold kept_vertices. rewrite L.
  loop_inv (fun i (b : list (buf Qc)) => length b = length U /\ forall r u, nth_error U r = Some u -> nth_error b r = Some (if u <? i then map Some (nth u V []) else alloc dim)) b E HI.
  3: { intros i b Hi [Lb Hb]. destruct (nth_error_lt mapping i) as [z Hz]; [lia|]. unfold aget. rewrite Hz. cbn [bind].
       destruct (HM i z Hz) as [(k & u & Hk & Eu & ->)|[Hg ->]].
       - apply Nat2Z.inj in Eu. subst u. destruct (Z.eqb_spec (Z.of_nat k) (-1)); [lia|]. rewrite Nat2Z.id.
         assert (nth_error b k = Some (alloc dim)) as Hbk by (rewrite (Hb k i Hk), Nat.ltb_irrefl; reflexivity).
         destruct (nth_error_lt V i) as [p Hp]; [lia|]. assert (length p = dim) as Lp by (apply HV, (nth_error_In V i Hp)).
         rewrite (fill_row dim _ (fun j => nth j p 0%Qc) k b (alloc dim) Hbk).
         + assert (tab dim (fun j => nth j p 0%Qc) = p) as -> by (rewrite <- Lp; symmetry; apply list_eq_tab).
           eexists. split; [reflexivity|]. split; [rewrite upd_length; exact Lb|]. intros r u Hr.
           assert (k < length b) by (rewrite Lb; apply nth_error_Some; congruence).
           destruct (Nat.eq_dec r k) as [->|D].
           * rewrite nth_error_upd_eq by assumption. rewrite Hk in Hr. injection Hr as <-.
             destruct (Nat.ltb_spec i (S i)); [|lia]. rewrite (nth_error_nth V i [] Hp). reflexivity.
           * rewrite nth_error_upd_neq by lia. rewrite (Hb r u Hr).
             assert (u <> i) by (intros ->; apply D; rewrite NoDup_nth_error in N; apply N; [apply nth_error_Some; congruence|congruence]).
             destruct (Nat.ltb_spec u i), (Nat.ltb_spec u (S i)); try lia; reflexivity.
         + apply alloc_length.
         + intros j l' Hj. rewrite (get2_ok V i j p (nth j p 0%Qc) Hp) by (apply nth_error_nth'; lia). reflexivity.
       - cbn [Z.eqb Pos.eqb]. exists b. split; [reflexivity|]. split; [exact Lb|]. intros r u Hr. rewrite (Hb r u Hr).
         assert (u <> i) by (intros ->; apply (Hg (Z.of_nat r)); exists r, i; auto).
         destruct (Nat.ltb_spec u i), (Nat.ltb_spec u (S i)); try lia; reflexivity. }
  { lia. }
  { split; [apply alloc2_length|]. intros r u Hr. unfold alloc2. cbn [Nat.ltb Nat.leb].
    replace (u <? 0) with false by (symmetry; apply Nat.ltb_ge; lia). apply nth_error_repeat. apply nth_error_Some. congruence. }
  rewrite E. cbn [bind]. destruct HI as [Lb Hb].
  assert (b = map (map Some) (map (fun u => nth u V []) U)) as ->; [|apply all_init2_some].
  apply nth_error_ext. intros r. rewrite map_map, nth_error_map. destruct (nth_error U r) as [u|] eqn:Er; cbn [option_map].
  - rewrite (Hb r u Er). assert (u < length V) by (apply HU, (nth_error_In U r Er)). destruct (Nat.ltb_spec u (length V)); [reflexivity|lia].
  - apply nth_error_None in Er. apply nth_error_None. lia.
Qed.

Lemma gather_like n U mapping c : mapping_ok n U mapping -> (forall v, In v c -> (0 <= v < Z.of_nat n)%Z) ->
  exists c', length c' = length c /\ (forall j v, nth_error c j = Some v -> exists z, nth_error c' j = Some z /\ zget mapping v = Ok z) /\ Forall2 (renamed_or_gone U) c c'.
Proof.
  intros HM. induction c as [|v c IH]; intros Hc.
  - exists []. split; [reflexivity|]. split; [intros [|j] v Hv; discriminate|constructor].
  - destruct IH as (c' & L & H & F); [intros w Hw; apply Hc; right; exact Hw|].
    destruct (mapping_get n U mapping v HM (Hc v (or_introl eq_refl))) as (z & Ez & Hz). exists (z :: c'). split; [cbn [length]; lia|].
    split; [|constructor; assumption]. intros [|j] w Hw; [injection Hw as <-; exists z; auto|]. exact (H j w Hw).
Qed.

Lemma renumbered_cells_ok w C n U mapping : rows_below w n C -> mapping_ok n U mapping ->
  exists C', renumbered_cells w C mapping = Ok C' /\ Forall2 (Forall2 (renamed_or_gone U)) C C'.
Proof.
  intros HC HM. unfold renumbered_cells.
  assert (exists C', length C' = length C /\ Forall2 (Forall2 (renamed_or_gone U)) C C' /\
     forall i c, nth_error C i = Some c -> exists c', nth_error C' i = Some c' /\ length c' = w /\ forall j v, nth_error c j = Some v -> exists z, nth_error c' j = Some z /\ zget mapping v = Ok z) as (C' & L & F & H).
  { induction C as [|c C IH].
    - exists []. split; [reflexivity|]. split; [constructor|]. intros [|i] c Hc; discriminate.
    - destruct IH as (C' & L & F & H); [intros d Hd; apply HC; right; exact Hd|].
      destruct (HC c (or_introl eq_refl)) as [Lc Hc]. destruct (gather_like n U mapping c HM Hc) as (c' & Lc' & Hc' & Fc). exists (c' :: C').
      split; [cbn [length]; lia|]. split; [constructor; assumption|]. intros [|i] d Hd; [|exact (H i d Hd)]. injection Hd as <-. exists c'. split; [reflexivity|]. split; [lia|exact Hc']. }
  loop_inv (fun i (b : list (buf Z)) => b = map (map Some) (firstn i C') ++ alloc2 (length C - i) w) b E HI.
  3: { intros i b Hi ->. destruct (nth_error_lt C i) as [c Hc]; [lia|]. destruct (H i c Hc) as (c' & Hc' & Lc' & Hg). destruct (cut_at C' i c' Hc') as (C1 & _ & _).
       destruct (HC c (nth_error_In C i Hc)) as [Lc _].
       replace (length C - i) with (S (length C - S i)) by lia. rewrite alloc2_S.
       rewrite (fill_row w _ (fun j => nth j c' 0%Z) i _ (alloc w)).
       - rewrite upd_at by (rewrite map_length, firstn_length; lia). eexists. split; [reflexivity|].
         assert (tab w (fun j => nth j c' 0%Z) = c') as -> by (rewrite <- Lc'; symmetry; apply list_eq_tab).
         rewrite C1, map_app, <- app_assoc. reflexivity.
       - rewrite nth_error_app2 by (rewrite map_length, firstn_length; lia). rewrite map_length, firstn_length, Nat.min_l, Nat.sub_diag by lia. reflexivity.
       - apply alloc_length.
       - intros j l' Hj. destruct (nth_error_lt c j) as [v Hv]; [lia|]. destruct (Hg j v Hv) as (z & Hz & Ez).
         rewrite (get2_ok C i j c v Hc Hv). cbn [bind]. rewrite Ez. cbn [bind]. rewrite (nth_error_nth c' j 0%Z Hz). reflexivity. }
  { lia. } { rewrite Nat.sub_0_r. reflexivity. }
  rewrite E, HI. cbn [bind]. rewrite Nat.sub_diag, firstn_all2 by lia. cbn [alloc2 repeat]. rewrite app_nil_r. exists C'. split; [apply all_init2_some|exact F].
Qed.

Lemma map_rows_ok w R n U mapping : rows_below w n R -> mapping_ok n U mapping ->
  exists R', map_rows w R mapping = Ok R' /\ Forall2 (Forall2 (renamed_or_gone U)) R R'.
Proof.
  intros HR HM. unfold map_rows.
  assert (exists R', length R' = length R /\ Forall2 (Forall2 (renamed_or_gone U)) R R' /\
     forall i c, nth_error R i = Some c -> exists c', nth_error R' i = Some c' /\ length c' = w /\ forall j v, nth_error c j = Some v -> exists z, nth_error c' j = Some z /\ zget mapping v = Ok z) as (R' & L & F & H).
  { induction R as [|c R IH].
    - exists []. split; [reflexivity|]. split; [constructor|]. intros [|i] c Hc; discriminate.
    - destruct IH as (C' & L & F & H); [intros d Hd; apply HR; right; exact Hd|].
      destruct (HR c (or_introl eq_refl)) as [Lc Hc]. destruct (gather_like n U mapping c HM Hc) as (c' & Lc' & Hc' & Fc). exists (c' :: C').
      split; [cbn [length]; lia|]. split; [constructor; assumption|]. intros [|i] d Hd; [|exact (H i d Hd)]. injection Hd as <-. exists c'. split; [reflexivity|]. split; [lia|exact Hc']. }
  loop_inv (fun i (b : list (list Z)) => b = firstn i R' ++ skipn i R) b E HI.
  3: { intros i b Hi ->. destruct (nth_error_lt R i) as [c Hc]; [lia|]. destruct (H i c Hc) as (c' & Hc' & Lc' & Hg). destruct (cut_at R' i c' Hc') as (C1 & _ & _).
       destruct (cut_at R i c Hc) as (_ & C2 & _). destruct (HR c (nth_error_In R i Hc)) as [Lc _].
       assert (length (firstn i R') = i) as Lf by (rewrite firstn_length; lia).
       loop_inv (fun j (b : list (list Z)) => b = firstn i R' ++ (firstn j c' ++ skipn j c) :: skipn (S i) R) b E HI.
       3: { intros j b Hj ->. destruct (nth_error_lt c j) as [v Hv]; [lia|]. destruct (Hg j v Hv) as (z & Hz & Ez).
            destruct (cut_at c' j z Hz) as (D1 & _ & _). destruct (cut_at c j v Hv) as (_ & D2 & _). assert (length (firstn j c') = j) as Lj by (rewrite firstn_length; lia).
            assert (nth_error (firstn i R' ++ (firstn j c' ++ skipn j c) :: skipn (S i) R) i = Some (firstn j c' ++ skipn j c)) as G
              by (rewrite nth_error_app2 by lia; rewrite Lf, Nat.sub_diag; reflexivity).
            assert (nth_error (firstn j c' ++ skipn j c) j = Some v) as G2 by (rewrite nth_error_app2 by lia; rewrite Lj, Nat.sub_diag, D2; reflexivity).
            rewrite (get2_ok _ i j _ v G G2). cbn [bind]. rewrite Ez. cbn [bind]. unfold set2, aget. rewrite G. cbn [bind]. unfold aset.
            destruct (Nat.ltb_spec j (length (firstn j c' ++ skipn j c))) as [_|Hl]; [|rewrite app_length, Lj, skipn_length in Hl; lia]. cbn [bind].
            destruct (Nat.ltb_spec i (length (firstn i R' ++ (firstn j c' ++ skipn j c) :: skipn (S i) R))) as [_|Hl]; [|rewrite app_length, Lf in Hl; cbn [length] in Hl; lia].
            eexists. split; [reflexivity|]. rewrite upd_at by (symmetry; exact Lf). f_equal. f_equal. rewrite D2, upd_at by (symmetry; exact Lj).
            rewrite D1, <- app_assoc. reflexivity. }
       { lia. } { cbn [firstn skipn app]. rewrite C2. reflexivity. }
       rewrite E, HI. eexists. split; [reflexivity|]. rewrite C1, (firstn_all2 c'), (skipn_all2 c), app_nil_r by lia. rewrite <- app_assoc. reflexivity. }
  { lia. } { reflexivity. }
  rewrite E, HI. rewrite firstn_all2, skipn_all, app_nil_r by lia. exists R'. split; [reflexivity|exact F].
Qed.

Definition keeps (mapping : list Z) (vt : Z * Z) : list (Z * Z) :=
  match zget mapping (fst vt) with
  | Ok j => if (j =? -1)%Z then [] else [(j, snd vt)]
  | Err _ => []
  end.

Lemma kept_boundaryVertices_ok bv bt n U mapping : mapping_ok n U mapping -> NoDup U -> (forall v, In v bv -> (0 <= v < Z.of_nat n)%Z) -> length bt = length bv ->
  exists bv' bt', kept_boundaryVertices bv bt mapping = Ok (bv', bt') /\ kept U bv bt bv' bt'.
Proof.
  intros HM N Hb Lb. unfold kept_boundaryVertices.
  set (l := combine bv bt). assert (length bv = length l) as Ll by (unfold l; rewrite combine_length; lia).
  assert (forall vt, In vt l -> exists j, zget mapping (fst vt) = Ok j /\ renamed_or_gone U (fst vt) j) as Hz.
  { intros [v t] H. apply in_combine_l in H. exact (mapping_get n U mapping v HM (Hb v H)). }
  assert (forall i vt, nth_error l i = Some vt -> nth_error bv i = Some (fst vt) /\ nth_error bt i = Some (snd vt)) as Hn.
  { unfold l. clear. revert bt. induction bv as [|v bv IH]; intros bt i vt H; [destruct i; discriminate|].
    destruct bt as [|t bt]; [destruct i; discriminate|]. destruct i as [|i]; [injection H as <-; auto|]. exact (IH bt i vt H). }
  rewrite Ll.
  rewrite (range_list l _ (fun vt n => j <- zget mapping (fst vt) ;; Ok (if (j =? -1)%Z then n else S n))).
  2: { intros i vt s Hi. destruct (Hn i vt Hi) as [H1 _]. unfold aget. rewrite H1. reflexivity. }
  destruct (for_list_inv (fun done k => k = length (flat_map (keeps mapping) done)) (fun vt n => j <- zget mapping (fst vt) ;; Ok (if (j =? -1)%Z then n else S n)) l [] 0) as (k & Ek & Hk).
  { reflexivity. }
  { intros p x q k Hp ->. cbn [app]. destruct (Hz x) as (j & Ej & _); [rewrite Hp, in_app_iff; right; left; reflexivity|]. rewrite Ej. cbn [bind].
    eexists. split; [reflexivity|]. rewrite flat_map_app, app_length. cbn [flat_map]. rewrite app_nil_r. assert (keeps mapping x = if (j =? -1)%Z then [] else [(j, snd x)]) as -> by (unfold keeps; rewrite Ej; reflexivity). destruct (j =? -1)%Z; cbn [length]; lia. }
  rewrite Ek. cbn [bind app] in *. set (K := flat_map (keeps mapping) l) in *.
  rewrite (range_list l _ (fun vt (st : buf Z * buf Z * nat) => let '(bv, bt, k) := st in j <- zget mapping (fst vt) ;;
     if (j =? -1)%Z then Ok (bv, bt, k) else bv <- wr bv k j ;; bt <- wr bt k (snd vt) ;; Ok (bv, bt, S k))).
  2: { intros i vt [[b t] s] Hi. destruct (Hn i vt Hi) as [H1 H2]. unfold aget. rewrite H1, H2. reflexivity. }
  destruct (for_list_inv (fun done (st : buf Z * buf Z * nat) => let D := flat_map (keeps mapping) done in
      st = (map Some (map fst D) ++ alloc (length K - length D), map Some (map snd D) ++ alloc (length K - length D), length D))
    (fun vt (st : buf Z * buf Z * nat) => let '(bv, bt, k) := st in j <- zget mapping (fst vt) ;;
     if (j =? -1)%Z then Ok (bv, bt, k) else bv <- wr bv k j ;; bt <- wr bt k (snd vt) ;; Ok (bv, bt, S k)) l [] (alloc k, alloc k, 0)) as (st & Es & Hs).
  { cbn. rewrite Nat.sub_0_r, Hk. reflexivity. }
  { intros p x q st Hp. cbn zeta. cbn [app]. intros ->. destruct (Hz x) as (j & Ej & _); [rewrite Hp, in_app_iff; right; left; reflexivity|]. rewrite Ej. cbn [bind].
    eexists. split; [|reflexivity]. rewrite flat_map_app. cbn [flat_map]. rewrite app_nil_r.
    assert (keeps mapping x = if (j =? -1)%Z then [] else [(j, snd x)]) as Ex by (unfold keeps; rewrite Ej; reflexivity).
    rewrite Ex. destruct (j =? -1)%Z eqn:Ejj.
    - rewrite app_nil_r. reflexivity.
    - assert (length (flat_map (keeps mapping) p) < length K) as Lk.
      { unfold K. rewrite Hp, flat_map_app, app_length. cbn [flat_map]. rewrite Ex. cbn [app length]. lia. }
      replace (length K - length (flat_map (keeps mapping) p)) with (S (length K - length (flat_map (keeps mapping) p ++ [(j, snd x)]))) by (rewrite app_length; cbn [length]; lia).
      rewrite wr_next_at by (rewrite map_length; reflexivity). cbn [bind]. rewrite wr_next_at by (rewrite map_length; reflexivity). cbn [bind].
      rewrite !(map_app _ (flat_map (keeps mapping) p)), app_length. cbn [map fst snd length]. rewrite Nat.add_1_r. reflexivity. }
  rewrite Es, Hs. cbn [app bind]. fold K. rewrite Nat.sub_diag. cbn [alloc repeat]. rewrite !app_nil_r, !all_init_some. cbn [bind].
  exists (map fst K), (map snd K). split; [reflexivity|]. unfold K, l in *. clear - Hz Lb N. revert bt Lb Hz.
  induction bv as [|v bv IH]; intros bt Lb Hz; destruct bt as [|t bt]; try discriminate; [constructor|]. cbn [combine flat_map].
  destruct (Hz (v, t) (or_introl eq_refl)) as (j & Ej & Hj). cbn [fst] in Ej, Hj. assert (keeps mapping (v, t) = if (j =? -1)%Z then [] else [(j, t)]) as -> by (unfold keeps; cbn [fst snd]; rewrite Ej; reflexivity).
  specialize (IH bt (eq_add_S _ _ Lb) (fun vt H => Hz vt (or_intror H))).
  destruct Hj as [Hj|[Hj ->]].
  - rewrite (renamed_pos U v j Hj). cbn [app map fst snd]. apply kept_used; assumption.
  - cbn [Z.eqb Pos.eqb app]. apply kept_unused; assumption.
Qed.

(** ** The whole *)
Lemma Forall2_impl {A B} (P Q : A -> B -> Prop) l l' : (forall a b, In a l -> P a b -> Q a b) -> Forall2 P l l' -> Forall2 Q l l'.
Proof.
  intros H F. induction F as [|a b l l' Hab F IH]; [constructor|]. constructor; [apply H; [left; reflexivity|exact Hab]|]. apply IH. intros x y Hx. apply H. right. exact Hx.
Qed.

Lemma removeUnusedVertices_ok m : mesh_fine m ->
  exists m' U, removeUnusedVertices m = Ok m' /\ first_use U (m_cells m) /\
    m_vertices m' = map (fun u => nth u (m_vertices m) []) U /\
    Forall2 (Forall2 (renamed U)) (m_cells m) (m_cells m') /\
    Forall2 (Forall2 (fun v v' => zpoint (m_vertices m') v' = zpoint (m_vertices m) v)) (m_cells m) (m_cells m') /\
    m_dim m' = m_dim m /\ m_manifold_dim m' = m_manifold_dim m /\
    match m_boundaryVertices m with
    | Some bv => exists bv' bt', m_boundaryVertices m' = Some bv' /\ m_boundaryVertexTags m' = Some bt' /\ kept U bv (tags_of m bv) bv' bt'
    | None => m_boundaryVertices m' = None /\ m_boundaryVertexTags m' = m_boundaryVertexTags m
    end /\
    renames_rows U (m_boundaryEdges m) (m_boundaryEdges m') /\ renames_rows U (m_boundaryFaces m) (m_boundaryFaces m') /\
    m_interiorVertices m' = None.
Proof.
  intros (HV & HC & HB & HE & HF). unfold removeUnusedVertices. cbn zeta.
  destruct (number_vertices_ok _ _ _ HC) as (U & mapping & EN & HM & HU & Hlt). rewrite EN. cbn [bind].
  pose proof HU as (N & HIn & _).
  rewrite (kept_vertices_ok _ _ U mapping HV N Hlt HM). cbn [bind].
  destruct (renumbered_cells_ok _ _ _ U mapping HC HM) as (C' & EC & FC). rewrite EC. cbn [bind].
  assert (exists b, (match m_boundaryVertices m with
       | Some bv => b <- kept_boundaryVertices bv (vertex_tags m bv) mapping ;; Ok (Some (fst b), Some (snd b))
       | None => Ok (None, m_boundaryVertexTags m) end) = Ok b /\
    match m_boundaryVertices m with
    | Some bv => exists bv' bt', fst b = Some bv' /\ snd b = Some bt' /\ kept U bv (tags_of m bv) bv' bt'
    | None => fst b = None /\ snd b = m_boundaryVertexTags m
    end) as (b & Eb & Hb).
  { destruct (m_boundaryVertices m) as [bv|]; [|eexists; split; [reflexivity|auto]]. destruct HB as [HB1 HB2].
    destruct (kept_boundaryVertices_ok bv (vertex_tags m bv) _ U mapping HM N HB1 HB2) as (bv' & bt' & E & K). rewrite E. cbn [bind fst snd]. eexists. split; [reflexivity|].
    exists bv', bt'. auto. }
  rewrite Eb. cbn [bind].
  assert (forall w o, (forall R, o = Some R -> rows_below w (length (m_vertices m)) R) -> exists o', opt (fun l => map_rows w l mapping) o = Ok o' /\ renames_rows U o o') as HO.
  { intros w [R|] H; cbn [opt].
    - destruct (map_rows_ok w R _ U mapping (H R eq_refl) HM) as (R' & E & F). rewrite E. cbn [bind]. exists (Some R'). split; [reflexivity|exact F].
    - exists None. split; reflexivity. }
  destruct (HO 2 (m_boundaryEdges m) HE) as (be & Ee & He). rewrite Ee. cbn [bind].
  destruct (HO 3 (m_boundaryFaces m) HF) as (bf & Ef & Hf). rewrite Ef. cbn [bind].
  eexists _, U. split; [reflexivity|]. cbn [m_vertices m_cells m_dim m_manifold_dim m_boundaryVertices m_boundaryVertexTags m_boundaryEdges m_boundaryFaces m_interiorVertices].
  assert (Forall2 (Forall2 (renamed U)) (m_cells m) C') as FR.
  { apply (Forall2_impl (Forall2 (renamed_or_gone U))); [|exact FC]. intros c c' Hc. apply Forall2_impl. intros v v' Hv [Hr|[Hg _]]; [exact Hr|].
    exfalso. destruct (z_nat v _ (proj2 (HC c Hc) v Hv)) as (u & -> & _). assert (In u U) as Hu by (apply HIn; exists c; auto).
    apply renamed_in in Hu as (w & Hw). exact (Hg w Hw). }
  split; [exact HU|]. split; [reflexivity|]. split; [exact FR|]. split.
  { apply (Forall2_impl (Forall2 (renamed U))); [|exact FR]. intros c c' _. apply Forall2_impl. intros v v' _ (k & u & Hk & -> & ->).
    unfold zpoint. rewrite !Nat2Z.id. apply nth_error_nth. rewrite nth_error_map, Hk. reflexivity. }
  auto 10.
Qed.

(** ** Reordering *)
Lemma scatter_ok idx n : length idx = n -> NoDup idx -> (forall u, In u idx -> u < n) ->
  exists inv, scatter idx n = Ok inv /\ length inv = n /\ forall k u, nth_error idx k = Some u -> nth_error inv u = Some (Z.of_nat k).
Proof.
  intros L N H. unfold scatter.
  loop_inv (fun i (b : buf Z) => length b = n /\ forall k u, k < i -> nth_error idx k = Some u -> nth_error b u = Some (Some (Z.of_nat k))) b E HI.
  3: { intros i b Hi [Lb Hb]. destruct (nth_error_lt idx i) as [u Hu]; [lia|]. unfold aget. rewrite Hu. cbn [bind].
       assert (u < n) as Lu by (apply H, (nth_error_In idx i Hu)). rewrite wr_ok by lia. eexists. split; [reflexivity|]. split; [rewrite upd_length; exact Lb|].
       intros k w Hk Hw. destruct (Nat.eq_dec k i) as [->|D].
       - rewrite Hu in Hw. injection Hw as <-. apply nth_error_upd_eq. lia.
       - assert (w <> u) by (intros ->; apply D; rewrite NoDup_nth_error in N; apply N; [apply nth_error_Some; congruence|congruence]).
         rewrite nth_error_upd_neq by lia. apply Hb; [lia|exact Hw]. }
  { lia. } { split; [apply alloc_length|]. intros k u Hk. lia. }
  rewrite E. cbn [bind]. destruct HI as [Lb Hb].
  assert (forall u, u < n -> exists k, nth_error idx k = Some u) as Hs.
  { intros u Hu. assert (incl (seq 0 n) idx) as I.
    { apply NoDup_length_incl; [exact N|rewrite seq_length; lia|]. intros x Hx. apply in_seq. specialize (H x Hx). lia. }
    apply In_nth_error. apply I, in_seq. lia. }
  assert (exists inv, b = map Some inv) as [inv ->].
  { assert (forall o, In o b -> o <> None) as G.
    { intros o Ho. apply In_nth_error in Ho as [u Hu]. destruct (Hs u) as [k Hk]; [rewrite <- Lb; apply nth_error_Some; congruence|].
      rewrite (Hb k u) in Hu; [congruence| |exact Hk]. apply nth_error_Some. congruence. }
    clear - G. induction b as [|[z|] b IH].
    - exists []. reflexivity.
    - destruct IH as [inv ->]; [intros o Ho; apply G; right; exact Ho|]. exists (z :: inv). reflexivity.
    - exfalso. apply (G None); [left; reflexivity|reflexivity]. }
  rewrite map_length in Lb. exists inv. split; [apply all_init_some|]. split; [exact Lb|]. intros k u Hk.
  specialize (Hb k u). rewrite nth_error_map in Hb. destruct (nth_error inv u) as [z|].
  - cbn [option_map] in Hb. f_equal. assert (Some (Some z) = Some (Some (Z.of_nat k))) as Ez by (apply Hb; [apply nth_error_Some; congruence|exact Hk]). congruence.
  - exfalso. assert (@None (option Z) = Some (Some (Z.of_nat k))); [|discriminate]. apply Hb; [apply nth_error_Some; congruence|exact Hk].
Qed.

Lemma gather_ok (x : list Z) (P : Z -> Z -> Prop) c : (forall v, In v c -> exists z, zget x v = Ok z /\ P v z) ->
  exists c', gather x c = Ok c' /\ Forall2 P c c'.
Proof.
  induction c as [|v c IH]; intros H; [exists []; split; [reflexivity|constructor]|]. destruct (H v (or_introl eq_refl)) as (z & Ez & Pz).
  destruct IH as (c' & E & F); [intros w Hw; apply H; right; exact Hw|]. cbn [gather]. rewrite Ez. cbn [bind]. rewrite E. cbn [bind]. exists (z :: c'). split; [reflexivity|constructor; assumption].
Qed.
Lemma gather2_ok (x : list Z) (P : Z -> Z -> Prop) R : (forall c v, In c R -> In v c -> exists z, zget x v = Ok z /\ P v z) ->
  exists R', gather2 x R = Ok R' /\ Forall2 (Forall2 P) R R'.
Proof.
  induction R as [|c R IH]; intros H; [exists []; split; [reflexivity|constructor]|].
  destruct (gather_ok x P c) as (c' & E & F); [intros v Hv; exact (H c v (or_introl eq_refl) Hv)|].
  destruct IH as (R' & E' & F'); [intros d v Hd Hv; exact (H d v (or_intror Hd) Hv)|]. cbn [gather2]. rewrite E. cbn [bind]. rewrite E'. cbn [bind]. exists (c' :: R'). split; [reflexivity|constructor; assumption].
Qed.
Lemma gather_points (V : list (list Qc)) idx : (forall u, In u idx -> u < length V) -> gather V (map Z.of_nat idx) = Ok (map (fun u => nth u V []) idx).
Proof.
  induction idx as [|u idx IH]; intros H; [reflexivity|]. cbn [map gather]. destruct (nth_error_lt V u) as [p Hp]; [apply H; left; reflexivity|].
  rewrite (zget_nat V u p Hp). cbn [bind]. rewrite IH by (intros w Hw; apply H; right; exact Hw). cbn [bind]. rewrite (nth_error_nth V u [] Hp). reflexivity.
Qed.

Lemma reorderVertices_ok m idx : mesh_fine m -> m_boundaryFaces m = None -> NoDup idx -> length idx = length (m_vertices m) ->
  (forall u, In u idx -> u < length (m_vertices m)) ->
  exists m', reorderVertices m idx = Ok m' /\
    m_vertices m' = map (fun u => nth u (m_vertices m) []) idx /\
    Forall2 (Forall2 (renamed idx)) (m_cells m) (m_cells m') /\
    Forall2 (Forall2 (fun v v' => zpoint (m_vertices m') v' = zpoint (m_vertices m) v)) (m_cells m) (m_cells m') /\
    match m_boundaryVertices m, m_boundaryVertices m' with
    | Some bv, Some bv' => Forall2 (renamed idx) bv bv'
    | None, None => True
    | _, _ => False
    end /\ m_boundaryVertexTags m' = m_boundaryVertexTags m /\
    match m_boundaryEdges m, m_boundaryEdges m' with
    | Some R, Some R' => Forall2 (Forall2 (renamed idx)) R R'
    | None, None => True
    | _, _ => False
    end.
Proof.
  intros (HV & HC & HB & HE & HF) Hf N L H. unfold reorderVertices. rewrite L, Nat.eqb_refl. cbn [guard bind].
  destruct (scatter_ok idx (length (m_vertices m)) L N H) as (inv & Ei & Li & Hi). rewrite Ei. cbn [bind].
  rewrite (gather_points _ idx H). cbn [bind].
  assert (forall v, (0 <= v < Z.of_nat (length (m_vertices m)))%Z -> exists z, zget inv v = Ok z /\ renamed idx v z) as G.
  { intros v Hv. destruct (z_nat v _ Hv) as (u & -> & Hu).
    assert (incl (seq 0 (length (m_vertices m))) idx) as I.
    { apply NoDup_length_incl; [exact N|rewrite seq_length; lia|]. intros x Hx. apply in_seq. specialize (H x Hx). lia. }
    assert (In u idx) as Hin by (apply I, in_seq; lia). apply In_nth_error in Hin as [k Hk]. exists (Z.of_nat k). split; [apply zget_nat, Hi, Hk|]. exists k, u. auto. }
  assert (exists bv', opt (gather inv) (m_boundaryVertices m) = Ok bv' /\ match m_boundaryVertices m, bv' with
    | Some bv, Some bv' => Forall2 (renamed idx) bv bv'
    | None, None => True
    | _, _ => False
    end) as (bv' & Eb & Hb).
  { destruct (m_boundaryVertices m) as [bv|]; [|exists None; split; [reflexivity|exact I]]. destruct HB as [HB _].
    destruct (gather_ok inv (renamed idx) bv) as (bv' & E & F); [intros v Hv; apply G, HB, Hv|]. cbn [opt]. rewrite E. exists (Some bv'). split; [reflexivity|exact F]. }
  rewrite Eb. cbn [bind].
  assert (exists be', opt (gather2 inv) (m_boundaryEdges m) = Ok be' /\ match m_boundaryEdges m, be' with
    | Some R, Some R' => Forall2 (Forall2 (renamed idx)) R R'
    | None, None => True
    | _, _ => False
    end) as (be' & Ee & He).
  { destruct (m_boundaryEdges m) as [R|]; [|exists None; split; [reflexivity|exact I]]. specialize (HE R eq_refl).
    destruct (gather2_ok inv (renamed idx) R) as (R' & E & F); [intros c v Hc Hv; apply G, (HE c Hc), Hv|]. cbn [opt]. rewrite E. exists (Some R'). split; [reflexivity|exact F]. }
  rewrite Ee. cbn [bind]. rewrite Hf. cbn [bind].
  destruct (gather2_ok inv (renamed idx) (m_cells m)) as (C' & EC & FC); [intros c v Hc Hv; apply G, (HC c Hc), Hv|]. rewrite EC. cbn [bind].
  eexists. split; [reflexivity|]. cbn [m_vertices m_cells m_dim m_manifold_dim m_boundaryVertices m_boundaryVertexTags m_boundaryEdges m_boundaryFaces m_interiorVertices].
  split; [reflexivity|]. split; [exact FC|]. split.
  { apply (Forall2_impl (Forall2 (renamed idx))); [|exact FC]. intros c c' _. apply Forall2_impl. intros v v' _ (k & u & Hk & -> & ->).
    unfold zpoint. rewrite !Nat2Z.id. apply nth_error_nth. rewrite nth_error_map, Hk. reflexivity. }
  auto.
Qed.
