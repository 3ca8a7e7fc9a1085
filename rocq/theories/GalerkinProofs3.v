(** Proofs about the products R*A*R.T: the passes over the entries of Ac. *)
From Coq Require Import Sorted.
From Verif Require Import Util Lin SparsitySpec CSRModel CSRSpec CSRProofs SSSProofs OpsProofs OpsProofs4 AssemblyProofs2 GalerkinModel GalerkinSpec GalerkinProofs GalerkinProofs2.
Set Default Proof Using "Type".
Local Open Scope nat_scope.

Section Pass.
  Variables (n : nat) (ip ind : list nat) (dat : list Qc).
  Hypothesis wf : wf_rows n n ip ind dat.

  Lemma add_row_ok E e i d : length d = length dat -> i < n -> (forall j, j < n -> E i j = Ok (e j)) ->
    exists d', add_row ip ind E i d = Ok d' /\ length d' = length dat /\
      forall k, nth k d' 0%Qc = if (nth i ip 0 <=? k) && (k <? nth (S i) ip 0) then (nth k d 0 + e (nth k ind 0%nat))%Qc else nth k d 0%Qc.
  Proof using wf.
    intros L Hi HE. unfold add_row, for_row. rewrite (wf_ip n n _ _ _ wf), Nat.add_1_r, (wf_ip n n _ _ _ wf) by lia. cbn [bind].
    pose proof (row_end n n ip ind dat i wf Hi) as He. assert (HD : length dat = length ind) by (destruct wf as (_ & _ & _ & H & _); exact H).
    destruct (scale_loop (fun k v => v + e (nth k ind 0%nat))%Qc (nth i ip 0) (nth (S i) ip 0) d) as (d' & E' & L' & V'); [lia|].
    exists d'. split; [|split; [lia|exact V']]. rewrite <- E'. apply for_range_ext. intros k s Hk.
    rewrite (aget_nth ind k 0) by lia. cbn [bind]. rewrite HE by (destruct wf as (_ & _ & _ & _ & C); apply C, nth_In; lia). reflexivity.
  Qed.

  Lemma pass_ok E e d : length d = length dat -> (forall i j, i < n -> j < n -> E i j = Ok (e i j)) ->
    exists d', for_range 0 n (add_row ip ind E) d = Ok d' /\ length d' = length dat /\
      forall i k, i < n -> nth i ip 0 <= k < nth (S i) ip 0 -> nth k d' 0%Qc = (nth k d 0 + e i (nth k ind 0%nat))%Qc.
  Proof using wf.
    intros L HE. destruct (rows_scale n n ip ind d (wf_data n n ip ind dat wf d L) (fun i k v => v + e i (nth k ind 0%nat))%Qc (add_row ip ind E)) as (d' & E' & L' & V').
    - intros i s Hi Ls. unfold add_row, for_row. rewrite (wf_ip n n _ _ _ wf), Nat.add_1_r, (wf_ip n n _ _ _ wf) by lia. cbn [bind].
      pose proof (row_end n n ip ind dat i wf Hi) as He.
      apply for_range_ext. intros k s' Hk. rewrite (aget_nth ind k 0) by lia. cbn [bind]. rewrite HE; [reflexivity|exact Hi|].
      destruct wf as (_ & _ & _ & _ & C); apply C, nth_In; lia.
    - exists d'. split; [exact E'|]. split; [lia|exact V'].
  Qed.

  Lemma add_diag_ok diag i v : i < length diag -> exists g, add_diag diag i v = Ok g /\ length g = length diag /\
    forall k, nth k g 0%Qc = (nth k diag 0 + (if (k =? i)%nat then v else 0))%Qc.
  Proof using Type.
    intros Hi. unfold add_diag. rewrite (aget_nth diag i 0%Qc) by lia. cbn [bind]. rewrite aset_ok by lia. eexists; split; [reflexivity|].
    split; [apply upd_length|]. intros k. destruct (Nat.eqb_spec k i) as [->|Hne]; [rewrite nth_upd_eq by lia; reflexivity|rewrite nth_upd_neq by lia; ring].
  Qed.

  (** the loop over the rows that also writes the diagonal *)
  Lemma third_ok (ident : bool) E e D dd adiag d0 diag0 :
    length d0 = length dat -> length diag0 = n -> (ident = true -> n <= length adiag) ->
    (forall i j, i < n -> j < n -> E i j = Ok (e i j)) -> (forall i j, i < n -> j < n -> D i j = Ok (dd i j)) ->
    exists d' g', for_range 0 n (fun i '(data, diag) =>
      diag <- (if ident then a <- aget adiag i ;; add_diag diag i a else Ok diag) ;;
      e <- E i i ;;
      diag <- add_diag diag i (qz 2 * e)%Qc ;;
      data <- add_row ip ind D i data ;;
      e <- D i i ;;
      diag <- add_diag diag i e ;;
      Ok (data, diag)) (d0, diag0) = Ok (d', g') /\ length d' = length dat /\ length g' = n /\
      (forall i k, i < n -> nth i ip 0 <= k < nth (S i) ip 0 -> nth k d' 0%Qc = (nth k d0 0 + dd i (nth k ind 0%nat))%Qc) /\
      (forall i, i < n -> nth i g' 0%Qc = (nth i diag0 0 + (if ident then nth i adiag 0 else 0) + qz 2 * e i i + dd i i)%Qc).
  Proof using wf.
    intros L0 G0 HA HE HD.
    loop_inv (fun i (s : list Qc * list Qc) => length (fst s) = length dat /\ length (snd s) = n /\
      (forall k, nth i ip 0 <= k -> nth k (fst s) 0%Qc = nth k d0 0%Qc) /\
      (forall i' k, i' < i -> nth i' ip 0 <= k < nth (S i') ip 0 -> nth k (fst s) 0%Qc = (nth k d0 0 + dd i' (nth k ind 0%nat))%Qc) /\
      (forall i', i <= i' -> nth i' (snd s) 0%Qc = nth i' diag0 0%Qc) /\
      (forall i', i' < i -> nth i' (snd s) 0%Qc = (nth i' diag0 0 + (if ident then nth i' adiag 0 else 0) + qz 2 * e i' i' + dd i' i')%Qc)) st Est HI.
    - lia.
    - cbn [fst snd]. repeat split; auto; intros; lia.
    - intros i [d g] Hi (Ld & Lg & U & V & UG & VG). cbn [fst snd] in *.
      assert (P1 : exists g1, (if ident then a <- aget adiag i ;; add_diag g i a else Ok g) = Ok g1 /\ length g1 = n /\
        forall k, nth k g1 0%Qc = (nth k g 0 + (if (k =? i)%nat then (if ident then nth i adiag 0 else 0) else 0))%Qc).
      { destruct ident.
        - rewrite (aget_nth adiag i 0%Qc) by (specialize (HA eq_refl); lia). cbn [bind].
          destruct (add_diag_ok g i (nth i adiag 0%Qc)) as (g1 & E1 & L1 & V1); [lia|]. exists g1. split; [exact E1|]. split; [lia|exact V1].
        - exists g. split; [reflexivity|]. split; [exact Lg|]. intros k. destruct (k =? i); ring. }
      destruct P1 as (g1 & -> & L1 & V1). cbn [bind]. rewrite HE by lia. cbn [bind].
      destruct (add_diag_ok g1 i (qz 2 * e i i)%Qc) as (g2 & -> & L2 & V2); [lia|]. cbn [bind].
      destruct (add_row_ok D (dd i) i d Ld ltac:(lia) ltac:(intros; apply HD; lia)) as (d' & -> & Ld' & Vd'). cbn [bind]. rewrite HD by lia. cbn [bind].
      destruct (add_diag_ok g2 i (dd i i)) as (g3 & -> & L3 & V3); [lia|]. cbn [bind]. exists (d', g3). split; [reflexivity|]. cbn [fst snd].
      pose proof (wf_mono n n _ _ _ wf i (S i) ltac:(lia) ltac:(lia)) as Hmono.
      split; [exact Ld'|]. split; [lia|]. split; [|split; [|split]].
      + intros k Hk. rewrite Vd'. destruct (Nat.leb_spec (nth i ip 0) k), (Nat.ltb_spec k (nth (S i) ip 0)); try lia. apply U; lia.
      + intros i' k Hi' Hk. rewrite Vd'. destruct (Nat.eq_dec i' i) as [->|Hne].
        * destruct (Nat.leb_spec (nth i ip 0) k), (Nat.ltb_spec k (nth (S i) ip 0)); try lia. cbn [andb]. rewrite U by lia. reflexivity.
        * pose proof (wf_mono n n _ _ _ wf (S i') i ltac:(lia) ltac:(lia)). destruct (Nat.leb_spec (nth i ip 0) k); try lia. cbn [andb]. apply V; lia.
      + intros i' Hi'. rewrite V3, V2, V1, UG by lia. destruct (Nat.eqb_spec i' i); [lia|]. ring.
      + intros i' Hi'. rewrite V3, V2, V1. destruct (Nat.eqb_spec i' i) as [->|Hne]; [rewrite UG by lia; ring|]. rewrite VG by lia. ring.
    - destruct st as [d' g']. destruct HI as (Ld & Lg & _ & V & _ & VG). cbn [fst snd] in *. exists d', g'. split; [exact Est|]. auto.
  Qed.

  (** from slots to entries *)
  Lemma ent_pass d d' v i j : length d = length dat -> length d' = length dat -> i < n ->
    NoDup (map fst (rowlist ip ind dat i)) ->
    (forall k, nth i ip 0 <= k < nth (S i) ip 0 -> nth k d' 0%Qc = (nth k d 0 + v (nth k ind 0%nat))%Qc) ->
    (In j (map fst (rowlist ip ind dat i)) -> ent (rowlist ip ind d' i) j = (ent (rowlist ip ind d i) j + v j)%Qc) /\
    (~ In j (map fst (rowlist ip ind dat i)) -> ent (rowlist ip ind d' i) j = ent (rowlist ip ind d i) j).
  Proof using wf.
    intros L L' Hi Hn Hv. pose proof (wf_data n n _ _ _ wf d L) as W. pose proof (wf_data n n _ _ _ wf d' L') as W'.
    assert (F : forall dx, length dx = length dat -> map fst (rowlist ip ind dx i) = map fst (rowlist ip ind dat i)) by (intros; apply (map_fst_rows n n); auto).
    split; intros Hj.
    - rewrite (rowlist_tab n n _ _ _ wf) in Hj by exact Hi. unfold tab in Hj. rewrite map_map in Hj. apply in_map_iff in Hj. destruct Hj as (k & Ek & Hk). cbn [fst] in Ek.
      apply in_seq in Hk. rewrite <- Ek. rewrite (ent_found n n _ _ _ W'), (ent_found n n _ _ _ W) by (rewrite ?F by assumption; auto; lia). apply Hv. lia.
    - rewrite !ent_absent; [reflexivity| |]; intros p Hp E; apply Hj; rewrite <- E; [rewrite <- (F d L)|rewrite <- (F d' L')]; apply in_map; exact Hp.
  Qed.
End Pass.

(** * A and Ac in CSR format *)
Section AddProduct.
  Variables (n : nat) (ident : bool) (E : nat -> nat -> res Qc) (e : nat -> nat -> Qc) (D : list Qc -> nat -> nat -> res Qc) (dd : nat -> nat -> Qc).
  Hypothesis HE : forall i j, i < n -> j < n -> E i j = Ok (e i j).

  Lemma product_csr_csr A Ac : op_ok n (SCsr Ac) -> exists B, add_product ident E D (SCsr A) (SCsr Ac) = Ok B /\ added n e (SCsr Ac) B.
  Proof using HE.
    intros [W S]. unfold add_product. cbn [o_indptr o_indices o_data]. pose proof (proj2 W) as Wr. pose proof Wr as (Li & _).
    replace (length (c_indptr Ac) - 1) with n by lia.
    destruct (pass_ok n _ _ _ Wr E e (c_data Ac) eq_refl HE) as (d & -> & L & V). cbn [bind o_set_data]. eexists; split; [reflexivity|].
    assert (SP : same_pattern n Ac (CSR (c_ncols Ac) (c_indptr Ac) (c_indices Ac) d)) by (repeat split; exact L).
    split; [split|split].
    - split; [exact (proj1 W)|]. apply (wf_data n n _ _ _ Wr d L).
    - apply (same_pattern_sorted n n Ac); auto.
    - repeat split; cbn; auto.
    - intros i j Hi Hj. cbn [holds op_matrix]. unfold stored, matrix. cbn [c_indptr c_indices c_data].
      apply (ent_pass n _ _ _ Wr); auto. apply sorted_nodup, S, Hi.
  Qed.

  Lemma product_csr_sss A Ac : op_ok n (SSym Ac) -> exists B, add_product ident E D (SCsr A) (SSym Ac) = Ok (SSym B) /\
    op_ok n (SSym B) /\ same_places (SSym Ac) (SSym B) /\ s_diag B = s_diag Ac /\
    forall i j, (i < n)%nat -> (j < i)%nat ->
      (holds (SSym Ac) i j -> sym_matrix B i j = sym_matrix Ac i j + e i j)%Qc /\
      (~ holds (SSym Ac) i j -> sym_matrix B i j = sym_matrix Ac i j)%Qc.
  Proof using HE.
    intros [W S]. unfold add_product. cbn [o_indptr o_indices o_data]. pose proof (proj1 W) as Wr. pose proof Wr as (Li & _).
    replace (length (s_indptr Ac) - 1) with n by lia.
    destruct (pass_ok n _ _ _ Wr E e (s_data Ac) eq_refl HE) as (d & -> & L & V). cbn [bind o_set_data]. eexists; split; [reflexivity|].
    assert (W' : wf_sss n (SSS (s_indptr Ac) (s_indices Ac) d (s_diag Ac))).
    { split; [apply (wf_data n n _ _ _ Wr d L)|]. destruct W as (_ & Wd & Wl). split; [exact Wd|]. cbn [s_indptr s_indices s_data]. intros i p Hi Hp.
      apply (in_map fst) in Hp. rewrite (map_fst_rows n n _ _ _ d i Wr L Hi) in Hp. apply in_map_iff in Hp. destruct Hp as (q & Eq & Hq). rewrite <- Eq. apply (Wl i q Hi Hq). }
    split; [split; [exact W'|]|split; [repeat split; exact L|split; [reflexivity|]]].
    - apply (same_sss_sorted n Ac); auto. repeat split; exact L.
    - intros i j Hi Hj.
      assert (Up : forall B, wf_sss n B -> lower B j i = 0%Qc).
      { intros B (_ & _ & HB). unfold lower. apply ent_absent. intros p Hp Eq. specialize (HB j p ltac:(lia) Hp). lia. }
      assert (Hh : holds (SSym Ac) i j <-> In j (map fst (rowlist (s_indptr Ac) (s_indices Ac) (s_data Ac) i))).
      { cbn [holds]. unfold stored_lower. split; [intros [?|[[_ H]|[? _]]]; [lia|exact H|lia]|intros H; right; left; auto]. }
      rewrite Hh. unfold sym_matrix. rewrite !Up by assumption. destruct (Nat.eqb_spec i j); [lia|]. unfold lower at 1 2 3 4. cbn [s_indptr s_indices s_data].
      destruct (ent_pass n _ _ _ Wr (s_data Ac) d (e i) i j eq_refl L Hi) as [K1 K2]; [apply sorted_nodup, S, Hi|intros; apply V; auto|].
      split; intros H; [rewrite K1 by exact H; ring|rewrite K2 by exact H; reflexivity].
  Qed.

  Variables (A : sss).
  Hypothesis HD : forall i j, i < n -> j < n -> D (s_diag A) i j = Ok (dd i j).
  Hypothesis HA : ident = true -> n <= length (s_diag A).
  Lemma product_sss_csr Ac : op_ok n (SCsr Ac) -> exists B, add_product ident E D (SSym A) (SCsr Ac) = Ok B /\
    added n (fun i j => e i j + e j i + dd i j)%Qc (SCsr Ac) B.
  Proof using HE HD HA.
    intros [W S]. unfold add_product. cbn [o_indptr o_indices o_data]. pose proof (proj2 W) as Wr. pose proof Wr as (Li & _).
    replace (length (c_indptr Ac) - 1) with n by lia.
    destruct (pass_ok n _ _ _ Wr E e (c_data Ac) eq_refl HE) as (d & -> & L & V). cbn [bind o_set_data o_diagonal].
    assert (ND : forall i, i < n -> NoDup (map fst (rowlist (c_indptr Ac) (c_indices Ac) (c_data Ac) i))) by (intros i Hi; apply sorted_nodup, S, Hi).
    rewrite (csr_get_diagonal_ok n n).
    2: { split; [exact (proj1 W)|]. apply (wf_data n n _ _ _ Wr d L). }
    2: { intros i Hi. cbn [c_indptr c_indices c_data]. rewrite (map_fst_rows n n _ _ _ d i Wr L Hi). apply ND, Hi. }
    cbn [bind].
    destruct (pass_ok n _ _ _ Wr (fun i j => E j i) (fun i j => e j i) d L) as (d2 & -> & L2 & V2); [intros; apply HE; auto|]. cbn [bind].
    destruct (third_ok n _ _ _ Wr ident E e (D (s_diag A)) dd (s_diag A) d2 (tab n (fun i => matrix (CSR (c_ncols Ac) (c_indptr Ac) (c_indices Ac) d) i i)) L2) as (d3 & g & -> & L3 & _ & V3 & _);
      auto. { unfold tab. rewrite map_length, seq_length. reflexivity. }
    cbn [bind o_set_diagonal o_set_data]. eexists; split; [reflexivity|].
    assert (SP : same_pattern n Ac (CSR (c_ncols Ac) (c_indptr Ac) (c_indices Ac) d3)) by (repeat split; exact L3).
    split; [split|split].
    - split; [exact (proj1 W)|]. apply (wf_data n n _ _ _ Wr d3 L3).
    - apply (same_pattern_sorted n n Ac); auto.
    - repeat split; cbn; auto.
    - intros i j Hi Hj. cbn [holds op_matrix]. unfold stored, matrix. cbn [c_indptr c_indices c_data].
      apply (ent_pass n _ _ _ Wr (c_data Ac) d3 (fun j => e i j + e j i + dd i j)%Qc); auto.
      intros k Hk. rewrite (V3 i), (V2 i), (V i) by auto. ring.
  Qed.

  Lemma product_sss_sss Ac : op_ok n (SSym Ac) ->
    (forall i j, i < n -> j < n -> dd i j = dd j i) ->
    exists B, add_product ident E D (SSym A) (SSym Ac) = Ok B /\
    added n (fun i j => e i j + e j i + dd i j + (if (i =? j)%nat then (if ident then vat (s_diag A) i else 0) else 0))%Qc (SSym Ac) B.
  Proof using HE HD HA.
    intros [W S] Hsym. unfold add_product. cbn [o_indptr o_indices o_data]. pose proof (proj1 W) as Wr. pose proof Wr as (Li & _).
    replace (length (s_indptr Ac) - 1) with n by lia.
    destruct (pass_ok n _ _ _ Wr E e (s_data Ac) eq_refl HE) as (d & -> & L & V). cbn [bind o_set_data o_diagonal s_diag].
    assert (ND : forall i, i < n -> NoDup (map fst (rowlist (s_indptr Ac) (s_indices Ac) (s_data Ac) i))) by (intros i Hi; apply sorted_nodup, S, Hi).
    destruct (pass_ok n _ _ _ Wr (fun i j => E j i) (fun i j => e j i) d L) as (d2 & -> & L2 & V2); [intros; apply HE; auto|]. cbn [bind].
    assert (Wg : length (s_diag Ac) = n) by (destruct W as (_ & H & _); exact H).
    destruct (third_ok n _ _ _ Wr ident E e (D (s_diag A)) dd (s_diag A) d2 (s_diag Ac) L2) as (d3 & g & -> & L3 & Lg & V3 & VG); auto.
    cbn [bind o_set_diagonal o_set_data s_indptr s_indices s_data s_diag]. eexists; split; [reflexivity|].
    assert (W' : wf_sss n (SSS (s_indptr Ac) (s_indices Ac) d3 g)).
    { split; [apply (wf_data n n _ _ _ Wr d3 L3)|]. destruct W as (_ & Wd & Wl). split; [exact Lg|]. cbn [s_indptr s_indices s_data]. intros i p Hi Hp.
      apply (in_map fst) in Hp. rewrite (map_fst_rows n n _ _ _ d3 i Wr L3 Hi) in Hp. apply in_map_iff in Hp. destruct Hp as (q & Eq & Hq). rewrite <- Eq. apply (Wl i q Hi Hq). }
    split; [split; [exact W'|]|split; [repeat split; exact L3|]].
    { apply (same_sss_sorted n Ac); auto. repeat split; exact L3. }
    assert (Up : forall B, wf_sss n B -> forall i j, j <= i -> i < n -> lower B j i = 0%Qc).
    { intros B (_ & _ & HB) i j Hji Hi. unfold lower. apply ent_absent. intros p Hp Eq. specialize (HB j p ltac:(lia) Hp). lia. }
    assert (Lo : forall i j, i < n -> j < i ->
      (stored_lower Ac i j -> lower (SSS (s_indptr Ac) (s_indices Ac) d3 g) i j = (lower Ac i j + (e i j + e j i + dd i j))%Qc) /\
      (~ stored_lower Ac i j -> lower (SSS (s_indptr Ac) (s_indices Ac) d3 g) i j = lower Ac i j)).
    { intros i j Hi Hj. unfold lower, stored_lower. cbn [s_indptr s_indices s_data].
      apply (ent_pass n _ _ _ Wr (s_data Ac) d3 (fun j => e i j + e j i + dd i j)%Qc); auto.
      intros k Hk. rewrite (V3 i), (V2 i), (V i) by auto. ring. }
    intros i j Hi Hj. cbn [op_matrix holds]. unfold sym_matrix. cbn [s_diag]. destruct (Nat.eqb_spec i j) as [<-|Hne].
    - rewrite !Up by (auto; lia). split; [intros _|intros H; exfalso; apply H; left; reflexivity]. unfold vat. rewrite VG by exact Hi.
      replace (qz 2) with (1 + 1)%Qc by (apply Qc_is_canon; reflexivity). ring.
    - destruct (Nat.lt_ge_cases j i) as [Hlt|Hge].
      + rewrite !(Up _ W' i j), !(Up _ W i j) by lia. destruct (Lo i j Hi Hlt) as [K1 K2]. split.
        * intros [?|[[_ H]|[? _]]]; [lia| |lia]. rewrite K1 by exact H. ring.
        * intros H. rewrite K2 by (intros K; apply H; right; left; auto). reflexivity.
      + rewrite !(Up _ W' j i), !(Up _ W j i) by lia. destruct (Lo j i Hj ltac:(lia)) as [K1 K2]. split.
        * intros [?|[[? _]|[_ H]]]; [lia|lia|]. rewrite K1 by exact H. rewrite (Hsym j i) by assumption. ring.
        * intros H. rewrite K2 by (intros K; apply H; right; right; split; [lia|exact K]). reflexivity.
  Qed.
End AddProduct.
