(** Proofs about transposition and conversions between storage formats. *)
From Coq Require Import Sorted Permutation.
From Verif Require Import Util Lin SparsitySpec CSRModel CSRSpec CSRProofs Rows SSSProofs OpsProofs OpsProofs2.
Set Default Proof Using "Type".

Lemma for_rows_flat {A S} n (G : nat -> list A) (body : nat -> S -> res S) (g : A -> S -> res S) :
  forall s, (forall i s, i < n -> body i s = for_list (G i) g s) ->
  for_range 0 n body s = for_list (cat n G) g s.
Proof.
  induction n as [|n IH]; intros s H; [reflexivity|].
  rewrite cat_S, for_list_app, <- IH by auto.
  assert (Hsplit : forall k s, for_n (Datatypes.S n) k body s = bind (for_n n k body s) (body (k + n))).
  { clear. induction n as [|n IH]; intros k s.
    - cbn [for_n bind]. rewrite Nat.add_0_r. destruct (body k s); reflexivity.
    - cbn [for_n] in *. destruct (body k s); cbn [bind]; auto. rewrite IH. f_equal. f_equal. lia. }
  unfold for_range. rewrite !Nat.sub_0_r, Hsplit. cbn [plus].
  destruct (for_n n 0 body s); cbn [bind]; auto.
Qed.

Lemma for_list_map {A B S} (f : A -> B) (g : B -> S -> res S) l : forall s,
  for_list (map f l) g s = for_list l (fun x s => g (f x) s) s.
Proof.
  induction l as [|x l IH]; intros s; [reflexivity|]. cbn [map for_list].
  destruct (g (f x) s); cbn [bind]; auto.
Qed.

Lemma for_list_flat_map {A B S} (f : A -> list B) (g : B -> S -> res S) l : forall s,
  for_list (flat_map f l) g s = for_list l (fun x s => for_list (f x) g s) s.
Proof.
  induction l as [|x l IH]; intros s; [reflexivity|]. cbn [flat_map for_list]. rewrite for_list_app.
  destruct (for_list (f x) g s); cbn [bind]; auto.
Qed.

Lemma for_list_filter {A S} (t : A -> bool) (g : A -> S -> res S) l : forall s,
  for_list (filter t l) g s = for_list l (fun x s => if t x then g x s else Ok s) s.
Proof.
  induction l as [|x l IH]; intros s; [reflexivity|]. cbn [filter for_list]. destruct (t x); cbn [for_list bind]; auto.
  destruct (g x s); cbn [bind]; auto.
Qed.

(** * Counting, offsets, filling, moving back *)
Section Convert.
  Variables (nb : nat) (L : list (nat * (nat * Qc))).
  Hypothesis HL : forall p, In p L -> fst p < nb.

  Lemma count_ok : exists ip0, for_list L (fun t ip => incr ip (fst t + 1)) (repeat 0 (nb + 1)) = Ok ip0 /\
    length ip0 = nb + 1 /\ nth 0 ip0 0 = 0 /\ forall k, k < nb -> nth (S k) ip0 0 = bsz L k.
  Proof using HL.
    rewrite <- (for_list_map fst (fun c ip => incr ip (c + 1))).
    destruct (count_loop (map fst L) (repeat 0 (nb + 1)) nb) as (ip0 & E & H1 & H2 & H3).
    - apply repeat_length.
    - intros c Hc. apply in_map_iff in Hc as (p & <- & Hp). auto.
    - exists ip0. split; auto. split; auto. split; [rewrite H2; apply nth_repeat|].
      intros k Hk. rewrite H3, nth_repeat by auto. cbn [plus]. unfold bsz, items. rewrite map_length.
      clear. induction L as [|p l IH]; [reflexivity|]. cbn [map filter]. destruct (fst p =? k); cbn [length]; auto.
  Qed.

  Lemma nnz_ok : nsum nb (bsz L) = length L.
  Proof using HL.
    clear -HL. unfold bsz. induction L as [|p l IH].
    - induction nb as [|k IH]; cbn [nsum]; auto. rewrite IH; auto. intros p [].
    - rewrite (nsum_ext nb _ (fun c => length (items l c) + (if fst p =? c then 1 else 0))).
      + rewrite nsum_plus, IH by (intros; apply HL; right; auto). cbn [length].
        assert (Hone : forall nb, fst p < nb -> nsum nb (fun i => if fst p =? i then 1 else 0) = 1).
        { assert (Hz : forall k, k <= fst p -> nsum k (fun i => if fst p =? i then 1 else 0) = 0).
          { induction k as [|k IHk]; intros Hk; cbn [nsum]; auto. rewrite IHk by lia.
            assert (fst p =? k = false) as -> by (apply Nat.eqb_neq; lia). auto. }
          induction nb0 as [|k IHk]; intros Hk; [lia|]. cbn [nsum].
          destruct (Nat.eqb_spec (fst p) k) as [E|E].
          - rewrite Hz by lia. auto.
          - rewrite IHk by lia. auto. }
        rewrite Hone by (apply HL; left; auto). lia.
      + intros c Hc. rewrite items_cons. destruct (fst p =? c); cbn [length]; lia.
  Qed.

  Lemma shifted : tab (nb + 1) (fun k => match k with O => 0 | S k' => nsum (if k' <? nb then S k' else nb) (bsz L) end)
    = ptr nb (items L).
  Proof using Type.
    apply tab_ext. intros [|k] Hk; [reflexivity|]. assert (k <? nb = true) as -> by (apply Nat.ltb_lt; lia). reflexivity.
  Qed.
End Convert.

(** * transpose *)
Definition tlist (n : nat) (R : nat -> list (nat * Qc)) : list (nat * (nat * Qc)) :=
  cat n (fun i => map (fun p => (fst p, (i, snd p))) (R i)).

Lemma csr_transpose_ok n m A : wf_csr n m A -> nth 0 (c_indptr A) 0 = 0 ->
  csr_transpose A = Ok (mk m n (items (tlist n (rowlist (c_indptr A) (c_indices A) (c_data A))))).
Proof.
  intros wf H0. pose proof (proj2 wf) as wfr. unfold csr_transpose. rewrite (csr_nrows n m A wf), (proj1 wf).
  set (R := rowlist (c_indptr A) (c_indices A) (c_data A)). set (L := tlist n R).
  assert (HL : forall p, In p L -> fst p < m).
  { intros p Hp. apply in_cat in Hp as (i & Hi & Hp). apply in_map_iff in Hp as (q & <- & Hq). cbn [fst].
    eapply row_cols; eauto. }
  rewrite (wf_ip n m _ _ _ wfr) by lia. cbn [bind].
  assert (Hnnz : nth n (c_indptr A) 0 = nsum m (bsz L)).
  { rewrite nnz_ok by auto. unfold L, tlist. rewrite cat_length.
    assert (forall k, k <= n -> nth k (c_indptr A) 0 = nsum k (len (fun i => map (fun p => (fst p, (i, snd p))) (R i)))) as HH.
    { induction k as [|k IH]; intros Hk; [auto|]. cbn [nsum]. rewrite <- IH by lia. unfold len at 1. rewrite map_length.
      unfold R. rewrite (rowlist_length n m) by (auto; lia).
      pose proof (wf_mono n m _ _ _ wfr k (S k) ltac:(lia) ltac:(lia)). lia. }
    apply HH; auto. }
  rewrite Hnnz.
  rewrite (for_rows_flat n (fun i => map (fun p => (fst p, (i, snd p))) (R i)) _ (fun t ip => incr ip (fst t + 1))).
  2: { intros i s Hi. rewrite for_list_map.
       rewrite (for_row_list n m _ _ _ wfr i _ (fun p ip => incr ip (fst p + 1))); auto.
       intros jj j d s0 _ Ej _. rewrite (aget_ok _ _ _ Ej). reflexivity. }
  fold (tlist n R). fold L.
  destruct (count_ok m L HL) as (ip0 & E & H1 & H2 & H3). rewrite E. cbn [bind].
  rewrite (prefix_loop1 m ip0 (bsz L)) by auto. cbn [bind].
  rewrite (for_rows_flat n (fun i => map (fun p => (fst p, (i, snd p))) (R i)) _
    (fun p st => putb (fst p) (fst (snd p)) (snd (snd p)) st)).
  2: { intros i s Hi. rewrite for_list_map.
       rewrite (for_row_list n m _ _ _ wfr i _ (fun p st => putb (fst p) i (snd p) st)); auto.
       intros jj j d [[ip ind] dat] _ Ej Ed. rewrite (aget_ok _ _ _ Ej), (aget_ok _ _ _ Ed). cbn [bind fst snd putb]. reflexivity. }
  fold (tlist n R). fold L.
  rewrite fill_loop_ok by auto. cbn [bind]. rewrite fill_state_done. cbn [bind].
  rewrite shift_back_temp. cbn [bind]. rewrite !all_init_some. cbn [bind]. rewrite shifted. reflexivity.
Qed.

Lemma ent_tlist_row i row c j :
  ent (items (map (fun p => (fst p, (i, snd p))) row) c) j = if i =? j then ent row c else 0%Qc.
Proof.
  induction row as [|p row IH]; cbn [map].
  - cbn [items filter map]. rewrite !ent_nil. destruct (i =? j); reflexivity.
  - rewrite items_cons. cbn [fst snd]. rewrite ent_cons. destruct (Nat.eqb_spec (fst p) c) as [E|E].
    + rewrite ent_cons, IH. cbn [fst snd]. destruct (i =? j); ring.
    + rewrite IH. destruct (i =? j); ring.
Qed.

Lemma ent_items_cat n (G : nat -> list (nat * (nat * Qc))) c j :
  ent (items (cat n G) c) j = sumf n (fun i => ent (items (G i) c) j).
Proof. induction n as [|n IH]; [reflexivity|]. rewrite cat_S, items_app, ent_app, IH. reflexivity. Qed.

Lemma tlist_fst n R c x : In x (map fst (items (tlist n R) c)) -> x < n.
Proof.
  intros H. apply in_map_iff in H as (p & <- & Hp). apply in_items in Hp. apply in_cat in Hp as (i & Hi & Hp).
  apply in_map_iff in Hp as (q & E & Hq). injection E as _ E. destruct p as [a b]. injection E as -> _. auto.
Qed.

Lemma tlist_sorted n R : (forall i, i < n -> NoDup (map fst (R i))) ->
  forall c, StronglySorted lt (map fst (items (tlist n R) c)).
Proof.
  intros Hn c. induction n as [|n IH].
  - constructor.
  - unfold tlist. rewrite cat_S, items_app, map_app. fold (tlist n R). apply sorted_app_lt.
    + apply IH. intros; apply Hn; lia.
    + specialize (Hn n ltac:(lia)). induction (R n) as [|p row IHr]; cbn [map] in *; [constructor|].
      rewrite items_cons. cbn [fst snd]. inversion Hn as [|? ? Hnot Hn']; subst. specialize (IHr Hn').
      destruct (Nat.eqb_spec (fst p) c) as [E|]; [|auto].
      assert (items (map (fun p => (fst p, (n, snd p))) row) c = []) as ->.
      { destruct (items (map (fun p => (fst p, (n, snd p))) row) c) as [|q l] eqn:Eq; auto. exfalso.
        assert (Hin : In q (items (map (fun p => (fst p, (n, snd p))) row) c)) by (rewrite Eq; left; auto).
        apply in_items, in_map_iff in Hin as (r & E1 & Hr). injection E1 as E1 _. apply Hnot. rewrite E, <- E1.
        apply in_map; auto. }
      repeat constructor.
    + intros x y Hx Hy. apply tlist_fst in Hx. apply in_map_iff in Hy as (p & <- & Hp).
      apply in_items, in_map_iff in Hp as (q & E & _). injection E as _ E. destruct p as [a b]. injection E as <- _. auto.
Qed.

Lemma transpose_thm n m A : wf_csr n m A -> nth 0 (c_indptr A) 0 = 0 ->
  exists B, csr_transpose A = Ok B /\ wf_csr m n B /\
    (forall i j, i < m -> j < n -> matrix B i j = matrix A j i) /\
    (nodup_csr n A -> sorted_csr m B).
Proof.
  intros wf H0. rewrite (csr_transpose_ok n m) by auto. eexists; split; [reflexivity|]. split; [|split].
  - apply mk_wf. intros i p Hi Hp. apply (tlist_fst n (rowlist (c_indptr A) (c_indices A) (c_data A)) i). apply in_map; auto.
  - intros i j Hi Hj. rewrite mk_matrix by auto. unfold tlist. rewrite ent_items_cat.
    rewrite (sumf_ext n _ (fun k => if (k =? j)%nat then matrix A j i else 0%Qc)).
    + rewrite sumf_delta; auto.
    + intros k Hk. rewrite ent_tlist_row. destruct (Nat.eqb_spec k j) as [->|]; reflexivity.
  - intros Hn i Hi. unfold mk. cbn [c_indptr c_indices c_data]. rewrite mk_row by auto. apply tlist_sorted. auto.
Qed.

(** * SSS to CSR *)
Definition slist (n : nat) (A : sss) : list (nat * (nat * Qc)) :=
  cat n (fun i => (i, (i, vat (s_diag A) i)) ::
    flat_map (fun p => [(i, p); (fst p, (i, snd p))]) (rowlist (s_indptr A) (s_indices A) (s_data A) i)).

Lemma sss_to_csr_ok n A : wf_sss n A -> sss_to_csr A = Ok (mk n n (items (slist n A))).
Proof.
  intros wf. pose proof (proj1 wf) as wfr. unfold sss_to_csr. rewrite (sss_nrows n A wf).
  set (R := rowlist (s_indptr A) (s_indices A) (s_data A)). set (L := slist n A).
  assert (HL : forall p, In p L -> fst p < n).
  { intros p Hp. apply in_cat in Hp as (i & Hi & [<-|Hp]); [auto|]. apply in_flat_map in Hp as (q & Hq & [<-|[<-|[]]]); auto.
    cbn [fst]. eapply row_cols; eauto. }
  rewrite (for_rows_flat n (fun i => (i, (i, vat (s_diag A) i)) :: flat_map (fun p => [(i, p); (fst p, (i, snd p))]) (R i)) _
     (fun t ip => incr ip (fst t + 1))).
  2: { intros i s Hi. cbn [for_list fst]. unfold incr at 1.
       destruct (aget s (i + 1)) as [q|e]; cbn [bind]; auto. destruct (aset s (i + 1) (q + 1)) as [s'|e]; cbn [bind]; auto.
       rewrite for_list_flat_map.
       apply (for_row_list n n _ _ _ wfr i); auto.
       intros jj j d s0 _ Ej _. rewrite (aget_ok _ _ _ Ej). cbn [bind for_list fst]. unfold incr.
       destruct (aget s0 (i + 1)) as [q1|e]; cbn [bind]; auto. destruct (aset s0 (i + 1) (q1 + 1)) as [s1|e]; cbn [bind]; auto.
       destruct (aget s1 (j + 1)) as [q2|e]; cbn [bind]; auto. destruct (aset s1 (j + 1) (q2 + 1)) as [s2|e]; cbn [bind]; auto. }
  change (cat n (fun i => (i, (i, vat (s_diag A) i)) :: flat_map (fun p => [(i, p); (fst p, (i, snd p))]) (R i))) with L.
  destruct (count_ok n L HL) as (ip0 & E & H1 & H2 & H3). rewrite E. cbn [bind].
  rewrite (prefix_loop n ip0 (bsz L)) by auto. cbn [bind].
  rewrite (aget_nth _ _ 0) by (rewrite tab_length; lia). rewrite tab_length, nth_tab by lia. cbn [bind].
  replace (n + 1 - 1) with n by lia.
  rewrite (for_rows_flat n (fun i => (i, (i, vat (s_diag A) i)) :: flat_map (fun p => [(i, p); (fst p, (i, snd p))]) (R i)) _
    (fun p st => putb (fst p) (fst (snd p)) (snd (snd p)) st)).
  2: { intros i s Hi. destruct wf as (_ & Hd & _). rewrite (aget_nth _ _ 0%Qc) by lia. cbn [bind].
       cbn [for_list fst snd]. fold (vat (s_diag A) i). destruct s as [[ip ind] dat]. unfold putb at 1.
       match goal with |- bind ?x _ = bind ?y _ => change y with x; destruct x as [s1|e]; cbn [bind]; auto end.
       rewrite for_list_flat_map.
       apply (for_row_list n n _ _ _ wfr i); auto.
       intros jj j d [[ip1 ind1] dat1] _ Ej Ed. rewrite (aget_ok _ _ _ Ej), (aget_ok _ _ _ Ed). cbn [bind for_list fst snd].
       unfold putb at 1.
       match goal with |- bind ?x _ = bind ?y _ => change y with x; destruct x as [[[ip2 ind2] dat2]|e]; cbn [bind]; auto end.
       unfold putb.
       match goal with |- ?x = bind ?y _ => change y with x; destruct x as [s3|e]; cbn [bind]; auto end. }
  change (cat n (fun i => (i, (i, vat (s_diag A) i)) :: flat_map (fun p => [(i, p); (fst p, (i, snd p))]) (R i))) with L.
  rewrite fill_loop_ok by auto. cbn [bind]. rewrite fill_state_done. cbn [bind].
  pose proof (shift_back_down n (fun c => nsum (if c <? n then S c else n) (bsz L))) as ES.
  destruct (for_range_down n 0 _ (tab (n + 1) (fun c => nsum (if c <? n then S c else n) (bsz L)))) as [ip3|e]; cbn [bind] in *; [|discriminate].
  rewrite ES. cbn [bind]. rewrite !all_init_some. cbn [bind]. rewrite shifted. reflexivity.
Qed.

Lemma ent_slist_row i row c j : i < c \/ True ->
  ent (items (flat_map (fun p => [(i, p); (fst p, (i, snd p))]) row) c) j
  = ((if i =? c then ent row j else 0) + (if i =? j then ent row c else 0))%Qc.
Proof.
  intros _. induction row as [|p row IH]; cbn [flat_map app].
  - cbn [items filter map]. rewrite !ent_nil. destruct (i =? c), (i =? j); ring.
  - rewrite !items_cons. cbn [fst snd].
    rewrite (ent_cons p row j), (ent_cons p row c).
    destruct (Nat.eqb_spec i c), (Nat.eqb_spec (fst p) c), (Nat.eqb_spec i j); rewrite ?ent_cons, ?IH; cbn [fst snd];
      repeat (match goal with |- context [(?a =? ?b)%nat] => destruct (Nat.eqb_spec a b) end); try congruence; try ring.
Qed.

Lemma sss_to_csr_thm n A : wf_sss n A ->
  exists B, sss_to_csr A = Ok B /\ wf_csr n n B /\ forall i j, i < n -> j < n -> matrix B i j = sym_matrix A i j.
Proof.
  intros wf. pose proof (proj1 wf) as wfr. rewrite (sss_to_csr_ok n) by auto. eexists; split; [reflexivity|]. split.
  - apply mk_wf. intros i p Hi Hp. apply in_items in Hp. apply in_cat in Hp as (k & Hk & [E|Hp]).
    + injection E as _ E. subst p. auto.
    + apply in_flat_map in Hp as (q & Hq & [E|[E|[]]]).
      * injection E as _ ->. eapply row_cols; eauto.
      * injection E as _ E. subst p. auto.
  - intros i j Hi Hj. rewrite mk_matrix by auto. unfold slist. rewrite ent_items_cat.
    rewrite (sumf_ext n _ (fun k => (if (k =? i)%nat then (if (i =? j)%nat then vat (s_diag A) i else 0) + lower A i j else 0) +
       (if (k =? j)%nat then lower A j i else 0))%Qc).
    + rewrite sumf_plus, !sumf_delta by auto. unfold sym_matrix. ring.
    + intros k Hk. rewrite items_cons. cbn [fst snd].
      destruct (Nat.eqb_spec k i) as [->|].
      * rewrite ent_cons. cbn [fst snd]. rewrite ent_slist_row by auto. rewrite Nat.eqb_refl. unfold lower.
        destruct (Nat.eqb_spec i j) as [<-|]; ring.
      * rewrite ent_slist_row by auto. unfold lower. assert (k =? i = false) as -> by (apply Nat.eqb_neq; auto).
        destruct (Nat.eqb_spec k j) as [->|]; ring.
Qed.

(** * SSS to CSC of the lower triangle *)
Definition llist (n : nat) (A : sss) : list (nat * (nat * Qc)) :=
  cat n (fun i => (i, (i, vat (s_diag A) i)) ::
    map (fun p => (fst p, (i, snd p))) (rowlist (s_indptr A) (s_indices A) (s_data A) i)).

Lemma sss_to_lower_csc_ok n A : wf_sss n A -> sss_to_lower_csc A = Ok (mk n n (items (llist n A))).
Proof.
  intros wf. pose proof (proj1 wf) as wfr. unfold sss_to_lower_csc. rewrite (sss_nrows n A wf).
  set (R := rowlist (s_indptr A) (s_indices A) (s_data A)). set (L := llist n A).
  assert (HL : forall p, In p L -> fst p < n).
  { intros p Hp. apply in_cat in Hp as (i & Hi & [<-|Hp]); [auto|]. apply in_map_iff in Hp as (q & <- & Hq).
    cbn [fst]. eapply row_cols; eauto. }
  rewrite (for_rows_flat n (fun i => (i, (i, vat (s_diag A) i)) :: map (fun p => (fst p, (i, snd p))) (R i)) _
     (fun t ip => incr ip (fst t + 1))).
  2: { intros i s Hi. cbn [for_list fst]. unfold incr at 1.
       destruct (aget s (i + 1)) as [q|e]; cbn [bind]; auto. destruct (aset s (i + 1) (q + 1)) as [s'|e]; cbn [bind]; auto.
       rewrite for_list_map.
       apply (for_row_list n n _ _ _ wfr i); auto.
       intros jj j d s0 _ Ej _. rewrite (aget_ok _ _ _ Ej). reflexivity. }
  change (cat n (fun i => (i, (i, vat (s_diag A) i)) :: map (fun p => (fst p, (i, snd p))) (R i))) with L.
  destruct (count_ok n L HL) as (ip0 & E & H1 & H2 & H3). rewrite E. cbn [bind].
  rewrite (prefix_loop n ip0 (bsz L)) by auto. cbn [bind].
  rewrite (aget_nth _ _ 0) by (rewrite tab_length; lia). rewrite tab_length, nth_tab by lia. cbn [bind].
  replace (n + 1 - 1) with n by lia.
  rewrite (for_rows_flat n (fun i => (i, (i, vat (s_diag A) i)) :: map (fun p => (fst p, (i, snd p))) (R i)) _
    (fun p st => putb (fst p) (fst (snd p)) (snd (snd p)) st)).
  2: { intros i s Hi. destruct wf as (_ & Hd & _). rewrite (aget_nth _ _ 0%Qc) by lia. cbn [bind].
       cbn [for_list fst snd]. fold (vat (s_diag A) i). destruct s as [[ip ind] dat]. unfold putb at 1.
       match goal with |- bind ?x _ = bind ?y _ => change y with x; destruct x as [s1|e]; cbn [bind]; auto end.
       rewrite for_list_map.
       apply (for_row_list n n _ _ _ wfr i); auto.
       intros jj j d [[ip1 ind1] dat1] _ Ej Ed. rewrite (aget_ok _ _ _ Ej), (aget_ok _ _ _ Ed). reflexivity. }
  change (cat n (fun i => (i, (i, vat (s_diag A) i)) :: map (fun p => (fst p, (i, snd p))) (R i))) with L.
  rewrite fill_loop_ok by auto. cbn [bind]. rewrite fill_state_done. cbn [bind].
  pose proof (shift_back_down n (fun c => nsum (if c <? n then S c else n) (bsz L))) as ES.
  destruct (for_range_down n 0 _ (tab (n + 1) (fun c => nsum (if c <? n then S c else n) (bsz L)))) as [ip3|e]; cbn [bind] in *; [|discriminate].
  rewrite ES. cbn [bind]. rewrite !all_init_some. cbn [bind]. rewrite shifted. reflexivity.
Qed.

Lemma sss_to_lower_csc_thm n A : wf_sss n A ->
  exists B, sss_to_lower_csc A = Ok B /\ wf_csr n n B /\
    forall i j, i < n -> j < n -> matrix B i j = (lower A j i + (if i =? j then vat (s_diag A) i else 0))%Qc.
Proof.
  intros wf. pose proof (proj1 wf) as wfr. rewrite (sss_to_lower_csc_ok n) by auto. eexists; split; [reflexivity|]. split.
  - apply mk_wf. intros i p Hi Hp. apply in_items in Hp. apply in_cat in Hp as (k & Hk & [E|Hp]).
    + injection E as _ E. subst p. auto.
    + apply in_map_iff in Hp as (q & E & Hq). injection E as _ E. subst p. auto.
  - intros i j Hi Hj. rewrite mk_matrix by auto. unfold llist. rewrite ent_items_cat.
    rewrite (sumf_ext n _ (fun k => (if (k =? i)%nat then (if (i =? j)%nat then vat (s_diag A) i else 0) else 0) +
       (if (k =? j)%nat then lower A j i else 0))%Qc).
    + rewrite sumf_plus, !sumf_delta by auto. ring.
    + intros k Hk. rewrite items_cons. cbn [fst snd].
      destruct (Nat.eqb_spec k i) as [->|].
      * rewrite ent_cons. cbn [fst snd]. rewrite ent_tlist_row by auto. unfold lower.
        destruct (Nat.eqb_spec i j) as [<-|]; ring.
      * rewrite ent_tlist_row by auto. unfold lower.
        destruct (Nat.eqb_spec k j) as [->|]; ring.
Qed.
