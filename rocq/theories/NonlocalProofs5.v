(** Sparse nonlocal assembly over the cells of the near field. *)
From Verif Require Import Util Lin MeshModel MeshProofs LocalSpec FormsProofs2 ReorderProofs SparsityModel SparsitySpec SparsityProofs SparsityProofs2 CSRModel CSRSpec CSRProofs Rows SSSProofs OpsProofs OpsProofs4
  AssemblyModel AssemblySpec AssemblyProofs AssemblyProofs2 AssemblyProofs7
  RestrictionProofs DenseModel DenseSpec DenseProofs NonlocalModel NonlocalModel2 NonlocalSpec NonlocalProofs NonlocalProofs2 NonlocalProofs3.
From Coq Require Import Lia Sorted Permutation.
Set Default Proof Using "Type".
Local Open Scope nat_scope.

Definition cell_pair_eq : forall a b : nat * nat, {a = b} + {a <> b}.
Proof. decide equality; apply Nat.eq_dec. Defined.
(** The elements of l that are neither in [done] nor earlier in l. *)
Fixpoint news (done l : list (nat * nat)) : list (nat * nat) :=
  match l with [] => [] | x :: t => (if in_dec cell_pair_eq x done then [] else [x]) ++ news (done ++ [x]) t end.
Lemma news_app a : forall done b, news done (a ++ b) = news done a ++ news (done ++ a) b.
Proof.
  induction a as [|x a IH]; intros done b; cbn [app news]; [rewrite app_nil_r; reflexivity|].
  rewrite IH, <- !app_assoc. reflexivity.
Qed.
Lemma news_in l : forall done x, In x (news done l) <-> In x l /\ ~ In x done.
Proof.
  induction l as [|y l IH]; intros done x; cbn [news In]; [tauto|]. rewrite in_app_iff, IH, in_app_iff. cbn [In].
  destruct (in_dec cell_pair_eq y done) as [H|H]; cbn [In].
  - split.
    + intros [[]|[H1 H2]]. tauto.
    + intros [[->|H1] H2]; [tauto|]. right. split; [exact H1|]. intros [K|[->|[]]]; tauto.
  - split.
    + intros [[->|[]]|[H1 H2]]; [tauto|]. split; [tauto|]. tauto.
    + intros [[->|H1] H2]; [tauto|]. destruct (cell_pair_eq y x) as [->|Hne]; [tauto|]. right. split; [exact H1|]. intros [K|[K|[]]]; tauto.
Qed.
Lemma news_nodup l : forall done, NoDup (news done l).
Proof.
  induction l as [|y l IH]; intros done; cbn [news]; [constructor|].
  destruct (in_dec cell_pair_eq y done) as [H|H]; cbn [app]; [apply IH|]. constructor; [|apply IH].
  rewrite news_in, in_app_iff. cbn [In]. tauto.
Qed.

Section Sparse.
  Context {M : Type}.
  Variables (add : M -> nat -> nat -> Qc -> res M) (B nc nb : nat) (dm : dofmap) (L : double_local) (C : nat -> nat -> nat -> nat -> Qc)
    (Pnear : list (list nat * list nat)).
  Hypothesis ok : dofs_ok nc (dm_dpe dm) (dm_num dm) nb (dm_dofs dm).
  Notation dpe := (dm_dpe dm).
  Hypothesis HL : evaluates_pairs true L nc nc (2 * dpe) C.
  Hypothesis HB : stored_size (dl_symLocal L) (2 * dpe) <= B.
  Hypothesis Hrange : forall K1 K2, near_cells Pnear K1 K2 -> K1 < nc /\ K2 < nc.
  Hypothesis Hfew : forall K1 Ks, NoDup Ks -> (forall K2, In K2 Ks -> near_cells Pnear K1 K2) -> length Ks < 2 ^ 16.

  (** The pattern holds the pairs done so far. *)
  Definition rep (pr : spat) (done : list (nat * nat)) : Prop :=
    (exists rows, RSp (2 ^ 16) 9 pr rows /\ sp_num_dofs pr = nc /\ Holds rows (map (fun x => (fst x, Z.of_nat (snd x))) done)) /\
    forall x, In x done -> near_cells Pnear (fst x) (snd x).
  Lemma w_small : 0 < 9 < 2 ^ 16.
  Proof using Type. clear. split; [lia|]. apply Nat.lt_trans with (2 ^ 4); [cbn; lia|]. apply Nat.pow_lt_mono_r; lia. Qed.
  Lemma rep_row pr done K1 : rep pr done -> K1 < nc -> exists rows r, RSp (2 ^ 16) 9 pr rows /\ sp_num_dofs pr = nc /\
    Holds rows (map (fun x => (fst x, Z.of_nat (snd x))) done) /\ nth_error rows K1 = Some r /\ StronglySorted Z.lt r /\
    (forall j, In j r <-> In (K1, j) (map (fun x => (fst x, Z.of_nat (snd x))) done)) /\ length r < 2 ^ 16.
  Proof using Hfew.
    clear ok HL HB Hrange. clear add M C L B dm nb.
    intros ((rows & R1 & R2 & R3) & Hn) HK. destruct (nth_error_lt rows K1) as (r & Er); [rewrite (q_nr _ _ _ _ R1); lia|].
    destruct (R3 _ _ Er) as [Hs Hin]. exists rows, r. do 6 (split; [assumption|]).
    rewrite <- (map_length Z.to_nat). apply (Hfew K1).
    - assert (G : forall l : list Z, NoDup l -> (forall x, In x l -> (0 <= x)%Z) -> NoDup (map Z.to_nat l)).
      { induction l as [|x l IH]; intros Hd Hp; [constructor|]. inversion Hd; subst. cbn [map]. constructor.
        - intros K. apply in_map_iff in K. destruct K as (y & Ey & Hy). assert (x = y) by (pose proof (Hp x (or_introl eq_refl)); pose proof (Hp y (or_intror Hy)); lia). subst. contradiction.
        - apply IH; [assumption|]. intros z Hz. apply Hp. right. exact Hz. }
      apply G; [apply Zsorted_nodup; exact Hs|]. intros x Hx. apply Hin in Hx. apply in_map_iff in Hx. destruct Hx as ([a b] & E & _). injection E as _ <-. lia.
    - intros K2 HK2. apply in_map_iff in HK2. destruct HK2 as (j & <- & Hj). apply Hin in Hj. apply in_map_iff in Hj. destruct Hj as ([a b] & E & Hd).
      cbn [fst snd] in E. injection E as <- <-. rewrite Nat2Z.id. apply (Hn _ Hd).
  Qed.
  Lemma rep_find pr done K1 K2 : rep pr done -> K1 < nc ->
    exists m, sp_findIndex (2 ^ 16) pr K1 (Z.of_nat K2) = Ok ((if in_dec cell_pair_eq (K1, K2) done then true else false), m).
  Proof using Hfew.
    clear ok HL HB Hrange. clear add M C L B dm nb.
    intros R HK. destruct (rep_row pr done K1 R HK) as (rows & r & R1 & R2 & R3 & Er & Hs & Hin & Hlen).
    destruct (q_row _ _ _ _ R1 _ _ Er) as (c & l & ib & Ec & El & Ei & [Hcl (ji & Hib) _]).
    destruct (search_ok (2 ^ 16) r ji (Z.of_nat K2) Hs Hlen) as (b & m & E & (r1 & r2 & Hr12 & Hm & H1 & H2)).
    exists m. unfold sp_findIndex. rewrite (aget_ok _ _ _ Ec), bind_Ok, (aget_ok _ _ _ Ei), bind_Ok. rewrite Hib, Hcl. rewrite E. do 2 f_equal.
    assert (Iff : In (Z.of_nat K2) r <-> In (K1, K2) done).
    { rewrite Hin, in_map_iff. split.
      - intros ([a d] & Ee & Hd). cbn [fst snd] in Ee. injection Ee as -> Ed. apply Nat2Z.inj in Ed. subst. exact Hd.
      - intros Hd. exists (K1, K2). split; [reflexivity|exact Hd]. }
    destruct b.
    - destruct H2 as (r2' & ->). destruct (in_dec cell_pair_eq (K1, K2) done) as [_|Hn]; [reflexivity|]. exfalso. apply Hn, Iff. rewrite Hr12. apply in_or_app. right. left. reflexivity.
    - destruct (in_dec cell_pair_eq (K1, K2) done) as [Hd|_]; [|reflexivity]. exfalso. apply Iff in Hd. rewrite Hr12 in Hd. apply in_app_or in Hd.
      destruct Hd as [Hd|Hd]; [specialize (H1 _ Hd)|specialize (H2 _ Hd)]; lia.
  Qed.
  Lemma rep_add pr done K1 K2 : rep pr done -> near_cells Pnear K1 K2 -> exists pr', add_pair K1 K2 pr = Ok pr' /\ rep pr' (done ++ [(K1, K2)]).
  Proof using Hfew Hrange.
    clear ok HL HB. clear add M C L B dm nb.
    intros R Hn. destruct (Hrange _ _ Hn) as [HK _]. destruct (rep_row pr done K1 R HK) as (rows & r & R1 & R2 & R3 & Er & Hs & Hin & Hlen).
    destruct (sp_add_ok (2 ^ 16) 9 pr rows K1 (Z.of_nat K2) r R1 w_small Er Hs Hlen) as (pr' & r' & E & R1' & Hnum & Hs' & Hin').
    exists pr'. split; [exact E|]. split.
    - exists (upd rows K1 r'). split; [exact R1'|]. split; [congruence|]. intros I0 rr Err. rewrite nth_error_upd in Err.
      destruct (Nat.eqb_spec K1 I0) as [<-|Hne]; cbn [andb] in Err.
      + destruct (Nat.ltb_spec K1 (length rows)); [|rewrite (q_nr _ _ _ _ R1) in *; lia]. injection Err as <-. split; [exact Hs'|].
        intros j. rewrite Hin', Hin, map_app, in_app_iff. cbn [map In fst snd]. split.
        * intros [->|K]; [right; left; reflexivity|left; exact K].
        * intros [K|[K|[]]]; [right; exact K|injection K as <-; left; reflexivity].
      + destruct (R3 _ _ Err) as [Hs0 Hin0]. split; [exact Hs0|]. intros j. rewrite Hin0, map_app, in_app_iff. cbn [map In fst snd]. split; [tauto|].
        intros [K|[K|[]]]; [exact K|]. injection K as -> _. congruence.
    - intros x Hx. apply in_app_or in Hx. destruct Hx as [Hx|[<-|[]]]; [apply (proj2 R); exact Hx|exact Hn].
  Qed.
  Lemma rep_same pr done x : rep pr done -> In x done -> rep pr (done ++ [x]).
  Proof using Type.
    clear ok HL HB Hrange Hfew. clear add M C L B dm nb.
    intros ((rows & R1 & R2 & R3) & Hn) Hx. split.
    - exists rows. split; [exact R1|]. split; [exact R2|]. intros I0 r Er. destruct (R3 _ _ Er) as [Hs Hin]. split; [exact Hs|]. intros j. rewrite Hin, map_app, in_app_iff.
      cbn [map In]. split; [tauto|]. intros [K|[K|[]]]; [exact K|]. rewrite <- K. apply (in_map (fun x => (fst x, Z.of_nat (snd x)))). exact Hx.
    - intros y Hy. apply in_app_or in Hy. destruct Hy as [Hy|[<-|[]]]; apply Hn; assumption.
  Qed.

  Definition tracks2 (f : @work M * spat -> res (@work M * spat)) (vis : list (nat * nat)) (P Q : lmstate -> buf Z -> buf Qc -> Prop) : Prop :=
    forall lm ld con pr done, P lm ld con -> rep pr done -> exists lm' ld' con' pr', Q lm' ld' con' /\ rep pr' (done ++ vis) /\
      forall A, f (W lm ld con A, pr) =
        bind (for_list (flat_map (fun x => pair_events dm L C (fst x) (snd x)) (news done vis)) (do_add add) A) (fun A => Ok (W lm' ld' con' A, pr')).
  Lemma tracks2_loop {X} (f : X -> @work M * spat -> res (@work M * spat)) (vis : X -> list (nat * nat)) P l :
    (forall x, In x l -> tracks2 (f x) (vis x) P P) -> tracks2 (for_list l f) (flat_map vis l) P P.
  Proof using Type.
    clear. induction l as [|x l IH]; intros H lm ld con pr done HP HR.
    - exists lm, ld, con, pr. split; [exact HP|]. cbn [flat_map]. rewrite app_nil_r. split; [exact HR|]. intros A. reflexivity.
    - destruct (H x (or_introl eq_refl) lm ld con pr done HP HR) as (lm1 & ld1 & con1 & pr1 & HP1 & HR1 & E1).
      destruct (IH (fun y Hy => H y (or_intror Hy)) lm1 ld1 con1 pr1 (done ++ vis x) HP1 HR1) as (lm2 & ld2 & con2 & pr2 & HP2 & HR2 & E2).
      exists lm2, ld2, con2, pr2. split; [exact HP2|]. cbn [flat_map]. rewrite app_assoc. split; [exact HR2|]. intros A. cbn [for_list].
      rewrite E1, news_app, flat_map_app, for_list_bind, !bind_assoc. apply bind_ext. intros A'. rewrite bind_Ok. apply E2.
  Qed.
  Definition visited : list (nat * nat) :=
    flat_map (fun '(cells1, cells2) => flat_map (fun c1 => flat_map (fun c2 => if c2 <? c1 then [] else [(c1, c2)]) cells2) cells1) Pnear.
  Lemma sparse_events lm con A : coherent lm -> length con = stored_size (dl_symLocal L) (2 * dpe) ->
    getSparse add B dm nc L lm con Pnear A = for_list (flat_map (fun x => pair_events dm L C (fst x) (snd x)) (news [] visited)) (do_add add) A.
  Proof using ok HL HB Hrange Hfew.
    intros Hlm Hcon. unfold getSparse, sparse_interior.
    set (step := fun (c1 c2 : nat) '(w, processed) =>
        if c2 <? c1 then Ok (w, processed)
        else
          '(found, _) <- sp_findIndex (2 ^ 16) processed c1 (Z.of_nat c2) ;;
          if found then Ok (w, processed)
          else
            processed <- add_pair c1 c2 processed ;;
            w <- pair_body add B dm L c1 c2 w ;;
            Ok (w, processed)).
    assert (Step : forall c1 c2, near_cells Pnear c1 c2 -> tracks2 (step c1 c2) (if c2 <? c1 then [] else [(c1, c2)]) (good_at dm L c1) (good_at dm L c1)).
    { intros c1 c2 Hn lm0 ld con0 pr done HP HR. destruct (Hrange _ _ Hn) as [H1 H2]. unfold step. destruct (c2 <? c1).
      - exists lm0, ld, con0, pr. split; [exact HP|]. rewrite app_nil_r. split; [exact HR|]. intros A0. reflexivity.
      - destruct (rep_find pr done c1 c2 HR H1) as (m & Ef). rewrite Ef. cbn [news]. destruct (in_dec cell_pair_eq (c1, c2) done) as [Hd|Hd].
        + exists lm0, ld, con0, pr. split; [exact HP|]. split; [apply rep_same; assumption|]. intros A0. reflexivity.
        + destruct (rep_add pr done c1 c2 HR Hn) as (pr' & Ea & HR').
          destruct (pair_body_ok add B nc nb dm ok L C HL HB c1 c2 H1 H2 lm0 ld con0 HP) as (lm1 & ld1 & con1 & HP1 & E1).
          exists lm1, ld1, con1, pr'. split; [exact HP1|]. split; [exact HR'|]. intros A0. rewrite bind_Ok, Ea, bind_Ok, E1, bind_assoc.
          cbn [app flat_map fst snd]. rewrite app_nil_r. apply bind_ext. intros A1. reflexivity. }
    assert (Inner : forall c1 cells2, (forall c2, In c2 cells2 -> near_cells Pnear c1 c2) ->
      tracks2 (for_list cells2 (step c1)) (flat_map (fun c2 => if c2 <? c1 then [] else [(c1, c2)]) cells2) (good_at dm L c1) (good_at dm L c1)).
    { intros c1 cells2 H. apply tracks2_loop. intros c2 Hc2. apply Step, H, Hc2. }
    assert (Mid : forall cells1 cells2, In (cells1, cells2) Pnear ->
      tracks2 (for_list cells1 (fun c1 '(w, processed) => for_list cells2 (step c1) (W (setCell1 c1 (w_lm w)) (w_ld w) (w_con w) (w_A w), processed)))
        (flat_map (fun c1 => flat_map (fun c2 => if c2 <? c1 then [] else [(c1, c2)]) cells2) cells1) (good dm L) (good dm L)).
    { intros cells1 cells2 Hin. apply tracks2_loop. intros c1 Hc1 lm0 ld con0 pr done (Hc & Hld & Hcon0) HR.
      assert (G : good_at dm L c1 (setCell1 c1 lm0) ld con0).
      { unfold setCell1, good_at, good, coherent. destruct Hc as [Ha Hb]. destruct (Z.eqb_spec (l_c1 lm0) (Z.of_nat c1)) as [E|E]; cbn [l_c1 l_c2 l_v1 l_v2]; repeat split; auto. }
      destruct (Inner c1 cells2) with (lm := setCell1 c1 lm0) (ld := ld) (con := con0) (pr := pr) (done := done) as (lm' & ld' & con' & pr' & G' & R' & E).
      - intros c2 Hc2. exists cells1, cells2. auto.
      - exact G.
      - exact HR.
      - exists lm', ld', con', pr'. split; [exact (proj1 G')|]. split; [exact R'|]. intros A0. cbn [w_lm w_ld w_con w_A]. apply E. }
    destruct (tracks2_loop (fun '(cells1, cells2) st =>
      for_list cells1 (fun c1 '(w, processed) => for_list cells2 (step c1) (W (setCell1 c1 (w_lm w)) (w_ld w) (w_con w) (w_A w), processed)) st)
      (fun '(cells1, cells2) => flat_map (fun c1 => flat_map (fun c2 => if c2 <? c1 then [] else [(c1, c2)]) cells2) cells1) (good dm L) Pnear)
      with (lm := lm) (ld := @alloc Z (2 * dpe)) (con := con) (pr := new_pattern nc) (done := @nil (nat * nat)) as (lm' & ld' & con' & pr' & _ & _ & E).
    - intros [cells1 cells2] Hin. apply Mid. exact Hin.
    - split; [exact Hlm|]. split; [apply alloc_length|exact Hcon].
    - split; [|intros x []]. exists (repeat [] nc). split; [apply RSp_init, w_small|]. split; [reflexivity|].
      intros I0 r Er. apply nth_error_In, repeat_spec in Er. subst r. split; [constructor|]. intros j; cbn; tauto.
    - rewrite E, bind_assoc. unfold visited. destruct (for_list _ _ A); reflexivity.
  Qed.
  Lemma visited_in K1 K2 : In (K1, K2) visited <-> near_cells Pnear K1 K2 /\ K1 <= K2.
  Proof using Type.
    clear. unfold visited, near_cells. rewrite in_flat_map. split.
    - intros ([l1 l2] & Hin & H). apply in_flat_map in H. destruct H as (c1 & H1 & H). apply in_flat_map in H. destruct H as (c2 & H2 & H).
      destruct (Nat.ltb_spec c2 c1); [destruct H|]. destruct H as [E|[]]. injection E as <- <-. split; [exists l1, l2; auto|lia].
    - intros ((l1 & l2 & Hin & H1 & H2) & Hle). exists (l1, l2). split; [exact Hin|]. apply in_flat_map. exists K1. split; [exact H1|]. apply in_flat_map. exists K2. split; [exact H2|].
      destruct (Nat.ltb_spec K2 K1); [lia|left; reflexivity].
  Qed.
End Sparse.

Local Open Scope Qc_scope.
Lemma suml_perm l l' : Permutation l l' -> suml l = suml l'.
Proof. induction 1; cbn [suml]; try congruence; ring. Qed.

(** Additions to entries that are not stored have no effect. *)
Lemma csr_adds_any n m evs : forall A, wf_csr n m A -> sorted_csr n A -> (forall a b v, In (a, b, v) evs -> (a < n)%nat) ->
  exists B, for_list evs (do_add csr_addToEntry) A = Ok B /\ wf_csr n m B /\ same_pattern n A B /\
    (forall i j, (i < n)%nat -> stored A i j -> matrix B i j = matrix A i j + suml (map (at_entry i j) evs)) /\
    (forall i j, (i < n)%nat -> ~ stored A i j -> matrix B i j = matrix A i j).
Proof.
  induction evs as [|[[a b] v] evs IH]; intros A wf srt H.
  - exists A. repeat split; auto; try apply wf. intros i j Hi _. cbn. ring.
  - assert (Ha := H a b v (or_introl eq_refl)). assert (H' : forall a b v, In (a, b, v) evs -> (a < n)%nat) by (intros a' b' v' Hin; apply (H a' b' v'); right; exact Hin).
    cbn [for_list do_add]. destruct (in_dec Nat.eq_dec b (map fst (rowlist (c_indptr A) (c_indices A) (c_data A) a))) as [Hs|Hs]; fold (stored A a b) in Hs.
    + destruct (csr_addToEntry_ok n m A wf srt a b v Ha Hs) as (A1 & E1 & wf1 & M1).
      pose proof (csr_addToEntry_pattern n A a b v A1 E1) as P1.
      destruct (IH A1 wf1 (same_pattern_sorted n m A A1 wf P1 srt) H') as (B & E & wfB & PB & MB & NB).
      exists B. rewrite E1, bind_Ok. split; [exact E|]. split; [exact wfB|]. split; [destruct P1 as (p1 & p2 & p3), PB as (q1 & q2 & q3); split; [congruence|]; split; congruence|].
      split; intros i j Hi Hst.
      * rewrite MB by (auto; apply (same_pattern_stored n m A A1); auto). rewrite M1 by exact Hi. cbn [map suml]. unfold at_entry at 2.
        rewrite (Nat.eqb_sym a i), (Nat.eqb_sym b j). destruct (_ && _); ring.
      * rewrite NB by (auto; rewrite (same_pattern_stored n m A A1); auto). rewrite M1 by exact Hi.
        destruct (Nat.eqb_spec i a) as [->|]; [|reflexivity]. destruct (Nat.eqb_spec j b) as [->|]; [contradiction|reflexivity].
    + rewrite (proj1 (csr_missing_entry n m A wf srt a b v Ha Hs)), bind_Ok.
      destruct (IH A wf srt H') as (B & E & wfB & PB & MB & NB). exists B. split; [exact E|]. split; [exact wfB|]. split; [exact PB|]. split; [|exact NB].
      intros i j Hi Hst. rewrite MB by assumption. cbn [map suml]. unfold at_entry at 2.
      destruct (Nat.eqb_spec a i) as [->|]; [|cbn; ring]. destruct (Nat.eqb_spec b j) as [->|]; [contradiction|cbn; ring].
Qed.
Lemma sss_missing n A a b v : wf_sss n A -> sorted_sss n A -> (a < n)%nat -> (b < a)%nat -> ~ stored_lower A a b -> sss_addToEntry A a b v = Ok A.
Proof.
  intros wf srt Ha Hb Hs. unfold sss_addToEntry. destruct (Nat.eqb_spec a b); [lia|]. destruct (Nat.ltb_spec b a); [|lia].
  destruct (entry_find_ok n n _ _ _ (proj1 wf) a b Ha (srt a Ha)) as (o & -> & Ho). cbn [bind]. destruct o as [k|]; [|reflexivity].
  destruct Ho as [Hk <-]. exfalso. apply Hs. unfold stored_lower.
  pose proof (rowlist_nth n n _ _ _ (proj1 wf) a (k - nth a (s_indptr A) 0%nat) Ha ltac:(lia)) as E.
  replace (nth a (s_indptr A) 0 + (k - nth a (s_indptr A) 0))%nat with k in E by lia.
  apply nth_error_In in E. apply (in_map fst) in E. exact E.
Qed.
(** The entry (i, j) with j <= i is on the diagonal or in the stored part of row i. *)
Definition held (A : sss) (i j : nat) : Prop := i = j \/ ((j < i)%nat /\ stored_lower A i j).
Lemma held_dec A i j : {held A i j} + {~ held A i j}.
Proof.
  unfold held. destruct (Nat.eq_dec i j); [left; auto|]. destruct (lt_dec j i) as [H|H]; [|right; lia].
  destruct (in_dec Nat.eq_dec j (map fst (rowlist (s_indptr A) (s_indices A) (s_data A) i))) as [K|K]; [left; right; split; assumption|right; intros [?|[_ ?]]; [lia|contradiction]].
Qed.
Lemma sss_adds_any n evs : forall A, wf_sss n A -> sorted_sss n A -> (forall a b v, In (a, b, v) evs -> (a < n)%nat) ->
  exists B, for_list evs (do_add sss_addToEntry) A = Ok B /\ wf_sss n B /\ same_sss A B /\
    (forall i j, (i < n)%nat -> (j <= i)%nat -> held A i j -> sym_matrix B i j = sym_matrix A i j + suml (map (at_entry i j) evs)) /\
    (forall i j, (i < n)%nat -> (j <= i)%nat -> ~ held A i j -> sym_matrix B i j = sym_matrix A i j).
Proof.
  induction evs as [|[[a b] v] evs IH]; intros A wf srt H.
  - exists A. repeat split; auto; try apply wf. intros i j Hi _ _. cbn. ring.
  - assert (Ha := H a b v (or_introl eq_refl)). assert (H' : forall a b v, In (a, b, v) evs -> (a < n)%nat) by (intros a' b' v' Hin; apply (H a' b' v'); right; exact Hin).
    cbn [for_list do_add]. destruct (held_dec A a b) as [Hs|Hs].
    + destruct (sss_addToEntry_ok n A wf srt a b v Ha) as (A1 & E1 & wf1 & M1).
      { destruct Hs; lia. } { intros Hlt. destruct Hs as [?|[_ Hs]]; [lia|exact Hs]. }
      pose proof (sss_addToEntry_pattern A a b v A1 E1) as P1.
      destruct (IH A1 wf1 (same_sss_sorted n A A1 wf P1 srt) H') as (B & E & wfB & PB & MB & NB).
      assert (HH : forall i j, (i < n)%nat -> (held A1 i j <-> held A i j)).
      { intros i j Hi. unfold held. rewrite (same_sss_stored n A A1) by assumption. reflexivity. }
      exists B. rewrite E1, bind_Ok. split; [exact E|]. split; [exact wfB|].
      split. { destruct P1 as (p1 & p2 & p3), PB as (q1 & q2 & q3). split; [congruence|]. split; congruence. }
      assert (Hba : (b <= a)%nat) by (destruct Hs; lia).
      split; intros i j Hi Hj Hst.
      * rewrite MB by (auto; apply HH; auto). rewrite M1 by lia. cbn [map suml]. unfold at_entry at 2.
        destruct (Nat.eqb_spec i a), (Nat.eqb_spec j b), (Nat.eqb_spec i b), (Nat.eqb_spec j a), (Nat.eqb_spec a i), (Nat.eqb_spec b j); cbn [andb orb]; try lia; ring.
      * rewrite NB by (auto; rewrite HH; auto). rewrite M1 by lia.
        destruct (Nat.eqb_spec i a), (Nat.eqb_spec j b), (Nat.eqb_spec i b), (Nat.eqb_spec j a); subst; cbn [andb orb]; try reflexivity; try contradiction.
        assert (a = b) by lia. subst. contradiction.
    + assert (E0 : sss_addToEntry A a b v = Ok A).
      { destruct (lt_dec b a) as [L0|L0]; [apply (sss_missing n); auto; intros K; apply Hs; right; auto|]. apply sss_addToEntry_upper.
        assert (a <> b) by (intros ->; apply Hs; left; reflexivity). lia. }
      rewrite E0, bind_Ok. destruct (IH A wf srt H') as (B & E & wfB & PB & MB & NB). exists B. split; [exact E|]. split; [exact wfB|]. split; [exact PB|]. split; [|exact NB].
      intros i j Hi Hj Hst. rewrite MB by assumption. cbn [map suml]. unfold at_entry at 2.
      destruct (Nat.eqb_spec a i) as [->|]; [|cbn; ring]. destruct (Nat.eqb_spec b j) as [->|]; [contradiction|cbn; ring].
Qed.

Section Sum.
  Variables (nc nb : nat) (dm : dofmap) (L : double_local) (C : nat -> nat -> nat -> nat -> Qc) (Pnear : list (list nat * list nat)).
  Notation dpe := (dm_dpe dm).
  Hypothesis HL : interior_ok L dpe nc C.
  Hypothesis HN : near_field_ok Pnear dpe nc C.
  Lemma news_sum I J : suml (map (at_entry I J) (flat_map (fun x => pair_events dm L C (fst x) (snd x)) (news [] (visited Pnear)))) =
    nl_entry (dm_dofs dm) (dm_dofs dm) dpe nc C I J.
  Proof using HL HN.
    destruct HN as (Hr & _ & Hz).
    rewrite suml_flat. set (g := fun x : nat * nat => suml (map (at_entry I J) (pair_events dm L C (fst x) (snd x)))).
    set (all := flat_map (fun c1 => map (fun c2 => (c1, c2)) (seq c1 (nc - c1))) (seq 0 nc)).
    assert (All : forall K1 K2, In (K1, K2) all <-> (K1 <= K2 < nc)%nat).
    { intros K1 K2. unfold all. rewrite in_flat_map. split.
      - intros (c1 & H1 & H2). apply in_seq in H1. apply in_map_iff in H2. destruct H2 as (c2 & E & H2). injection E as <- <-. apply in_seq in H2. lia.
      - intros H. exists K1. split; [apply in_seq; lia|]. apply in_map_iff. exists K2. split; [reflexivity|]. apply in_seq. lia. }
    assert (Nd : NoDup all).
    { unfold all. generalize (seq_NoDup nc 0). generalize (seq 0 nc) as l. induction l as [|x l IH]; intros Hl; [constructor|]. inversion Hl; subst. cbn [flat_map].
      assert (G : forall a b : list (nat * nat), NoDup a -> NoDup b -> (forall z, In z a -> ~ In z b) -> NoDup (a ++ b)).
      { induction a as [|z a IHa]; intros b Ha Hb Hd; [exact Hb|]. inversion Ha; subst. cbn [app]. constructor.
        - rewrite in_app_iff. intros [K|K]; [contradiction|]. apply (Hd z (or_introl eq_refl) K).
        - apply IHa; auto. intros y Hy. apply Hd. right. exact Hy. }
      apply G; [|apply IH; assumption|].
      - apply FinFun.Injective_map_NoDup; [intros a b E; injection E; auto|apply seq_NoDup].
      - intros [a b] K1 K2. apply in_map_iff in K1. destruct K1 as (c2 & E & _). injection E as <- <-. apply in_flat_map in K2. destruct K2 as (y & Hy & K2).
        apply in_map_iff in K2. destruct K2 as (c3 & E & _). injection E as <- _. contradiction. }
    assert (E1 : suml (map g (news [] (visited Pnear))) = suml (map g (filter (fun x => if in_dec cell_pair_eq x (visited Pnear) then true else false) all))).
    { apply suml_perm, Permutation_map, NoDup_Permutation; [apply news_nodup|apply NoDup_filter; exact Nd|].
      intros [a b]. rewrite news_in, filter_In, All. destruct (in_dec cell_pair_eq (a, b) (visited Pnear)) as [H|H].
      - split; [|intros _; split; [exact H|intros []]]. intros _. split; [|reflexivity]. apply visited_in in H. destruct H as [H Hle]. destruct (Hr _ _ H). lia.
      - split; [intros [K _]; contradiction|intros [_ K]; discriminate]. }
    assert (E2 : forall l, (forall x, In x l -> In x all) -> suml (map g (filter (fun x => if in_dec cell_pair_eq x (visited Pnear) then true else false) l)) = suml (map g l)).
    { induction l as [|[a b] l IH]; intros Hl; [reflexivity|]. cbn [filter]. assert (Hab := proj1 (All a b) (Hl _ (or_introl eq_refl))).
      destruct (in_dec cell_pair_eq (a, b) (visited Pnear)) as [H|H]; cbn [map suml]; rewrite IH by (intros; apply Hl; right; assumption); [reflexivity|].
      assert (Hn : ~ near_cells Pnear a b) by (intros K; apply H, visited_in; split; [exact K|lia]).
      assert (Z : g (a, b) = 0).
      { unfold g. cbn [fst snd]. rewrite (pair_sum nc dm L C HL) by lia.
        rewrite (pair_entry_zero _ _ _ _ a b) by (intros p q Hp Hq; apply (Hz a b p q); auto; lia).
        destruct (Nat.eqb_spec a b) as [->|Hne].
        - apply pair_entry_zero. intros p q Hp Hq. apply (Hz b b p q); auto; lia.
        - rewrite pair_entry_zero by (intros p q Hp Hq; apply (Hz a b p q); auto; lia). ring. }
      rewrite Z. ring. }
    rewrite E1, E2 by auto.
    assert (IS := interior_sum nc dm L C HL I J 0 nc (Nat.le_0_l nc) (Nat.le_refl nc)). cbn [Nat.add] in IS. cbv zeta in IS. rewrite Nat.sub_0_r in IS.
    rewrite <- (interior_total nc dm C I J), <- IS.
    unfold all, g. rewrite suml_flat.
    assert (E3 : forall l, suml (map (fun x : nat * nat => suml (map (at_entry I J) (pair_events dm L C (fst x) (snd x)))) (flat_map (fun c1 => map (fun c2 => (c1, c2)) (seq c1 (nc - c1))) l)) =
      suml (map (fun c1 => suml (map (at_entry I J) (flat_map (pair_events dm L C c1) (seq c1 (nc - c1))))) l)).
    { induction l as [|x l IH]; [reflexivity|]. cbn [flat_map map suml]. rewrite map_app, suml_app, IH. f_equal. rewrite map_map, suml_flat. reflexivity. }
    apply E3.
  Qed.
  Hypothesis ok : dofs_ok nc dpe (dm_num dm) nb (dm_dofs dm).
  Lemma news_dofs a b v : In (a, b, v) (flat_map (fun x => pair_events dm L C (fst x) (snd x)) (news [] (visited Pnear))) ->
    (a < dm_num dm)%nat.
  Proof using ok HN.
    destruct HN as (Hr & _ & _). intros Hin. apply in_flat_map in Hin. destruct Hin as ([K1 K2] & Hx & Hin). cbn [fst snd] in Hin.
    apply news_in in Hx. destruct Hx as [Hx _]. apply visited_in in Hx. destruct Hx as [Hn Hle]. destruct (Hr _ _ Hn) as [H1 H2].
    assert (G' : forall A1 A2 fac, (A1 < nc)%nat -> (A2 < nc)%nat -> In (a, b, v) (once dm L C A1 A2 fac) -> (a < dm_num dm)%nat).
    { intros A1 A2 fac HA1 HA2 Hi. unfold once in Hi. apply (loc_events_in _ _ _ _ _ (dm_num dm)) in Hi; [tauto|]. intros p Hp. apply (ldof_lt nc nb dm ok); assumption. }
    unfold pair_events in Hin. destruct (K1 =? K2)%nat; [|destruct (dl_symCells L)].
    - destruct (ignored L K1 K2); [destruct Hin|]. apply (G' K1 K2 1); auto.
    - destruct (ignored L K1 K2); [destruct Hin|]. apply (G' K1 K2 (1 + 1)); auto.
    - apply in_app_or in Hin. destruct Hin as [Hin|Hin].
      + destruct (ignored L K1 K2); [destruct Hin|]. apply (G' K1 K2 1); auto.
      + destruct (ignored L K2 K1); [destruct Hin|]. apply (G' K2 K1 1); auto.
  Qed.
  Variables (B : nat) (lm : lmstate) (con : buf Qc).
  Hypotheses (HB : (stored_size (dl_symLocal L) (2 * dpe) <= B)%nat) (Hlm : coherent lm) (Hcon : length con = stored_size (dl_symLocal L) (2 * dpe)).
  Lemma getSparse_csr_ok A : wf_csr (dm_num dm) (dm_num dm) A -> sorted_csr (dm_num dm) A ->
    exists A', getSparse csr_addToEntry B dm nc L lm con Pnear A = Ok A' /\ wf_csr (dm_num dm) (dm_num dm) A' /\
      (forall I J, (I < dm_num dm)%nat -> stored A I J -> matrix A' I J = matrix A I J + nl_entry (dm_dofs dm) (dm_dofs dm) dpe nc C I J) /\
      (forall I J, (I < dm_num dm)%nat -> ~ stored A I J -> matrix A' I J = matrix A I J).
  Proof using HL HN ok HB Hlm Hcon.
    intros Hw Hs. rewrite (sparse_events csr_addToEntry B nc nb dm L C Pnear ok) by (auto; first [apply HL|apply HN]).
    destruct (csr_adds_any (dm_num dm) (dm_num dm) (flat_map (fun x => pair_events dm L C (fst x) (snd x)) (news [] (visited Pnear))) A Hw Hs) as (A' & E & W' & _ & V & V').
    { intros a b v Hin. apply (news_dofs a b v Hin). }
    exists A'. split; [exact E|]. split; [exact W'|]. split; [|exact V']. intros I J HI Hst. rewrite V, news_sum by assumption. reflexivity.
  Qed.
  Lemma nl_entry_sym I J : dl_symLocal L = true -> nl_entry (dm_dofs dm) (dm_dofs dm) dpe nc C I J = nl_entry (dm_dofs dm) (dm_dofs dm) dpe nc C J I.
  Proof using HL.
    intros Hs. destruct HL as (_ & _ & H & _). unfold nl_entry. apply sumf_ext. intros K1 H1. apply sumf_ext. intros K2 H2. unfold pair_entry. rewrite sumf_swap.
    apply sumf_ext. intros p Hp. apply sumf_ext. intros q Hq. rewrite andb_comm. rewrite (H Hs K1 K2 q p) by assumption. reflexivity.
  Qed.
  Lemma getSparse_sss_ok A : dl_symLocal L = true -> wf_sss (dm_num dm) A -> sorted_sss (dm_num dm) A ->
    exists A', getSparse sss_addToEntry B dm nc L lm con Pnear A = Ok A' /\ wf_sss (dm_num dm) A' /\
      (forall I J, (I < dm_num dm)%nat -> (J < dm_num dm)%nat -> held A (Nat.max I J) (Nat.min I J) ->
         sym_matrix A' I J = sym_matrix A I J + nl_entry (dm_dofs dm) (dm_dofs dm) dpe nc C I J) /\
      (forall I J, (I < dm_num dm)%nat -> (J < dm_num dm)%nat -> ~ held A (Nat.max I J) (Nat.min I J) -> sym_matrix A' I J = sym_matrix A I J).
  Proof using HL HN ok HB Hlm Hcon.
    intros Hsym Hw Hs. rewrite (sparse_events sss_addToEntry B nc nb dm L C Pnear ok) by (auto; first [apply HL|apply HN]).
    destruct (sss_adds_any (dm_num dm) (flat_map (fun x => pair_events dm L C (fst x) (snd x)) (news [] (visited Pnear))) A Hw Hs) as (A' & E & W' & _ & V & V').
    { intros a b v Hin. apply (news_dofs a b v Hin). }
    assert (Sy : forall (X : sss) i j, sym_matrix X i j = sym_matrix X j i).
    { intros X i j. unfold sym_matrix. rewrite (Nat.eqb_sym j i). destruct (Nat.eqb_spec i j) as [->|]; ring. }
    exists A'. split; [exact E|]. split; [exact W'|]. split; intros I J HI HJ Hst; destruct (Nat.le_ge_cases J I) as [H|H].
    - rewrite Nat.max_l, Nat.min_r in Hst by exact H. rewrite V, news_sum by assumption. reflexivity.
    - rewrite Nat.max_r, Nat.min_l in Hst by exact H. rewrite (Sy A'), (Sy A), nl_entry_sym by exact Hsym. rewrite V, news_sum by assumption. reflexivity.
    - rewrite Nat.max_l, Nat.min_r in Hst by exact H. rewrite V' by assumption. reflexivity.
    - rewrite Nat.max_r, Nat.min_l in Hst by exact H. rewrite (Sy A'), (Sy A), V' by assumption. reflexivity.
  Qed.
End Sum.
