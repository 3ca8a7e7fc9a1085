(** Proofs about the products R*A*R.T: single entries. *)
From Coq Require Import Sorted.
From Verif Require Import Util Lin SparsitySpec CSRModel CSRSpec CSRProofs SSSProofs OpsProofs OpsProofs4 GalerkinModel GalerkinSpec GalerkinProofs.
Set Default Proof Using "Type".
Local Open Scope nat_scope.

Definition dmat (d : list Qc) : mat := fun i j => if i =? j then vat d i else 0%Qc.

(** * Algebra *)
Section Algebra.
  Local Open Scope Qc_scope.
  Lemma galerkin_plus nf R A B i j : galerkin nf R (fun a b => A a b + B a b) i j = galerkin nf R A i j + galerkin nf R B i j.
  Proof.
    unfold galerkin. rewrite <- sumf_plus. apply sumf_ext. intros k _. rewrite <- sumf_plus. apply sumf_ext. intros m _. ring.
  Qed.
  Lemma galerkin_transpose nf R A i j : galerkin nf R (fun a b => A b a) i j = galerkin nf R A j i.
  Proof.
    unfold galerkin. rewrite sumf_swap. apply sumf_ext. intros k _. apply sumf_ext. intros m _. ring.
  Qed.
  Lemma galerkin_diag nf R d i j : galerkin nf R (dmat d) i j = sumf nf (fun c => R i c * vat d c * R j c).
  Proof.
    unfold galerkin, dmat. apply sumf_ext. intros k Hk.
    rewrite (sumf_ext nf _ (fun m => if (m =? k)%nat then R i k * vat d k * R j m else 0)).
    - apply (sumf_delta nf (fun m => R i k * vat d k * R j m) k Hk).
    - intros m _. rewrite (Nat.eqb_sym m k). destruct (k =? m)%nat; ring.
  Qed.
  Lemma galerkin_sym nf R (A : sss) i j :
    galerkin nf R (sym_matrix A) i j = galerkin nf R (lower A) i j + galerkin nf R (lower A) j i + galerkin nf R (dmat (s_diag A)) i j.
  Proof.
    unfold sym_matrix. rewrite <- (galerkin_transpose nf R (lower A) i j), <- !galerkin_plus. reflexivity.
  Qed.
  Definition withI (J : mat) : mat := fun i k => (if (i =? k)%nat then 1 else 0) + J i k.
  Lemma delta_sum nf i f : (i < nf)%nat -> sumf nf (fun k => (if (i =? k)%nat then 1 else 0) * f k) = f i.
  Proof.
    intros Hi. rewrite (sumf_ext nf _ (fun k => if (k =? i)%nat then f k else 0)); [apply sumf_delta; exact Hi|].
    intros k _. rewrite (Nat.eqb_sym k i). destruct (i =? k)%nat; ring.
  Qed.
  Lemma galerkin_withI nf J A i j : (i < nf)%nat -> (j < nf)%nat ->
    galerkin nf (withI J) A i j = sumf nf (fun k => J i k * (sumf nf (fun c => A k c * J j c) + A k j)) + sumf nf (fun c => A i c * J j c) + A i j.
  Proof.
    intros Hi Hj. unfold galerkin.
    assert (In : forall k, sumf nf (fun m => withI J i k * A k m * withI J j m) = withI J i k * (sumf nf (fun c => A k c * J j c) + A k j)).
    { intros k. rewrite <- (delta_sum nf j (fun m => A k m) Hj), <- sumf_plus, <- sumf_scal. apply sumf_ext. intros m _. unfold withI. ring. }
    rewrite (sumf_ext nf _ (fun k => withI J i k * (sumf nf (fun c => A k c * J j c) + A k j))) by (intros; apply In).
    unfold withI at 1. rewrite (sumf_ext nf _ (fun k => J i k * (sumf nf (fun c => A k c * J j c) + A k j) + (if (i =? k)%nat then 1 else 0) * (sumf nf (fun c => A k c * J j c) + A k j))) by (intros; ring).
    rewrite sumf_plus, (delta_sum nf i (fun k => sumf nf (fun c => A k c * J j c) + A k j) Hi). ring.
  Qed.
  Lemma galerkin_withI_diag nf J d i j : (i < nf)%nat -> (j < nf)%nat ->
    galerkin nf (withI J) (dmat d) i j = sumf nf (fun c => J i c * vat d c * J j c) + J i j * vat d j + J j i * vat d i + (if (i =? j)%nat then vat d i else 0).
  Proof.
    intros Hi Hj. rewrite galerkin_diag. unfold withI.
    rewrite (sumf_ext nf _ (fun c => (J i c * vat d c * J j c + (if (j =? c)%nat then 1 else 0) * (J i c * vat d c)) + (if (i =? c)%nat then 1 else 0) * (vat d c * J j c + vat d c * (if (j =? c)%nat then 1 else 0)))).
    - rewrite !sumf_plus, (delta_sum nf j (fun c => J i c * vat d c) Hj), (delta_sum nf i (fun c => vat d c * J j c + vat d c * (if (j =? c)%nat then 1 else 0)) Hi).
      rewrite (Nat.eqb_sym j i). destruct (i =? j)%nat; ring.
    - intros c _. destruct (i =? c)%nat, (j =? c)%nat; ring.
  Qed.
End Algebra.

(** * R as a CSR matrix *)
Section General.
  Variables (nc nf : nat) (R : csr) (aip aind : list nat) (adat : list Qc).
  Hypothesis WR : wf_csr nc nf R.
  Hypothesis SR : sorted_csr nc R.
  Notation amat := (fun k m => ent (rowlist aip aind adat k) m).
  Lemma slot_col n m ip ind dat i kk : wf_rows n m ip ind dat -> i < n -> kk < nth (S i) ip 0 -> nth kk ind 0 < m /\ kk < length ind /\ kk < length dat.
  Proof.
    intros W Hi Hk. pose proof (row_end n m ip ind dat i W Hi). destruct W as (_ & _ & _ & D & C).
    split; [apply C, nth_In; lia|lia].
  Qed.
  Lemma getEntryFromD_ok diag i j : length diag = nf -> i < nc -> j < nc ->
    getEntryFromD (c_indptr R) (c_indices R) (c_data R) diag i j = Ok (galerkin nf (matrix R) (dmat diag) i j).
  Proof using WR SR.
    intros Hd Hi Hj. unfold getEntryFromD. pose proof (proj2 WR) as W.
    rewrite (merge_rows_ok nc nf _ _ (c_data R) nc _ _ (c_data R) W W (vat diag)); auto.
    - rewrite galerkin_diag. f_equal. unfold matrix. ring.
    - intros a b s Ha Hb _. destruct (slot_col nc nf _ _ _ i a W Hi Ha) as (H1 & H2 & H3). destruct (slot_col nc nf _ _ _ j b W Hj Hb) as (_ & H4 & H5).
      rewrite (aget_nth (c_data R) a 0%Qc), (aget_nth (c_indices R) a 0) by lia. cbn [bind]. rewrite (aget_nth diag _ 0%Qc), (aget_nth (c_data R) b 0%Qc) by lia.
      reflexivity.
  Qed.
  Hypothesis WA : wf_rows nf nf aip aind adat.
  Hypothesis SA : forall k, k < nf -> StronglySorted lt (map fst (rowlist aip aind adat k)).
  Lemma getEntry_ok i j : i < nc -> j < nc ->
    getEntry (c_indptr R) (c_indices R) (c_data R) aip aind adat i j = Ok (galerkin nf (matrix R) amat i j).
  Proof using All.
    intros Hi Hj. unfold getEntry. pose proof (proj2 WR) as W.
    rewrite (row_sum nc nf _ (c_indices R) (c_data R) i _ (fun k => sumf nf (fun c => ent (rowlist aip aind adat k) c * 1 * matrix R j c))%Qc 0%Qc W Hi).
    - f_equal. rewrite Qcplus_0_l. unfold galerkin. apply sumf_ext. intros k _. rewrite <- sumf_scal. apply sumf_ext. intros m _. unfold matrix. ring.
    - intros kk s [_ Hk]. destruct (slot_col nc nf _ _ _ i kk W Hi Hk) as (H1 & H2 & H3).
      rewrite (aget_nth (c_indices R) kk 0) by lia. cbn [bind].
      rewrite (merge_rows_ok nf nf _ _ adat nc _ _ (c_data R) WA W (fun _ => 1%Qc)); auto.
      + cbn [bind]. rewrite (aget_nth (c_data R) kk 0%Qc) by lia. cbn [bind]. f_equal. unfold matrix. ring.
      + intros a b s' Ha Hb _. destruct (slot_col nf nf _ _ _ _ a WA H1 Ha) as (_ & _ & H4). destruct (slot_col nc nf _ _ _ j b W Hj Hb) as (_ & _ & H5).
        rewrite (aget_nth adat a 0%Qc) by lia. cbn [bind]. rewrite (aget_nth (c_data R) b 0%Qc) by lia. cbn [bind]. f_equal. ring.
  Qed.
End General.

(** * R as identity plus entries 1/2 *)
Section Restr.
  Variables (nc nf : nat) (R : restr) (aip aind : list nat) (adat : list Qc).
  Hypothesis RO : restr_ok nc nf R.
  Notation J := (CSR (r_ncols R) (r_indptr R) (r_indices R) (repeat half (length (r_indices R)))).
  Notation hs := (repeat half (length (r_indices R))).
  Notation amat := (fun k m => ent (rowlist aip aind adat k) m).
  Lemma half_slot kk : kk < length (r_indices R) -> nth kk hs 0%Qc = half.
  Proof. intros H. apply (nth_error_nth hs kk). rewrite nth_error_repeat by exact H. reflexivity. Qed.
  Lemma half_half : (half * half)%Qc = quarter.
  Proof. apply Qc_is_canon. reflexivity. Qed.
  Lemma restr_withI i j : restr_matrix R i j = withI (matrix J) i j.
  Proof. reflexivity. Qed.
  Lemma getEntryFromD_restr_ok diag i j : length diag = nf -> i < nc -> j < nc ->
    getEntryFromD_restr (r_indptr R) (r_indices R) diag i j
    = Ok (galerkin nf (restr_matrix R) (dmat diag) i j - (if i =? j then vat diag i else 0))%Qc.
  Proof using RO.
    intros Hd Hi Hj. destruct RO as (Hn & WJ & SJ). unfold getEntryFromD_restr. pose proof (proj2 WJ) as W. cbn [c_indptr c_indices c_data] in W.
    rewrite (merge_rows_ok nc nf _ _ hs nc _ _ hs W W (vat diag) _ i j 0%Qc Hi Hj (SJ i Hi) (SJ j Hj)).
    2: { intros a b s Ha Hb _. destruct (slot_col nc nf _ _ _ i a W Hi Ha) as (H1 & H2 & H3). destruct (slot_col nc nf _ _ _ j b W Hj Hb) as (_ & H4 & H5).
      rewrite (aget_nth (r_indices R) a 0) by lia. cbn [bind]. rewrite (aget_nth diag _ 0%Qc) by lia. cbn [bind]. rewrite !half_slot by lia.
      rewrite <- half_half. unfold vat. f_equal. ring. }
    cbn [bind].
    rewrite (seek_row_ok nc nf _ _ hs W _ (vat diag j) i j _ Hi (SJ i Hi)).
    2: { intros a Ha _. destruct (slot_col nc nf _ _ _ i a W Hi Ha) as (H1 & H2 & H3).
      rewrite (aget_nth diag _ 0%Qc) by lia. cbn [bind]. rewrite half_slot by lia. unfold vat. f_equal. ring. }
    cbn [bind].
    rewrite (seek_row_ok nc nf _ _ hs W _ (vat diag i) j i _ Hj (SJ j Hj)).
    2: { intros a Ha _. destruct (slot_col nc nf _ _ _ j a W Hj Ha) as (H1 & H2 & H3).
      rewrite (aget_nth diag _ 0%Qc) by lia. cbn [bind]. rewrite half_slot by lia. unfold vat. f_equal. ring. }
    f_equal. change (restr_matrix R) with (withI (matrix J)). rewrite galerkin_withI_diag by lia. unfold matrix. cbn [c_indptr c_indices c_data]. ring.
  Qed.
  Hypothesis WA : wf_rows nf nf aip aind adat.
  Hypothesis SA : forall k, k < nf -> StronglySorted lt (map fst (rowlist aip aind adat k)).
  Lemma getEntry_restr_ok i j : i < nc -> j < nc ->
    getEntry_restr (r_indptr R) (r_indices R) aip aind adat i j = Ok (galerkin nf (restr_matrix R) amat i j).
  Proof using All.
    intros Hi Hj. destruct RO as (Hn & WJ & SJ). unfold getEntry_restr. pose proof (proj2 WJ) as W. cbn [c_indptr c_indices c_data] in W.
    assert (Mg : forall k s, k < nf -> merge_rows aip aind k (r_indptr R) (r_indices R) j (fun mm1 _ s => a <- aget adat mm1 ;; Ok (s + a * half)%Qc) s
      = Ok (s + sumf nf (fun c => amat k c * matrix J j c))%Qc).
    { intros k s Hk. rewrite (merge_rows_ok nf nf _ _ adat nc _ _ hs WA W (fun _ => 1%Qc) _ k j s Hk Hj (SA k Hk) (SJ j Hj)).
      - f_equal. f_equal. apply sumf_ext. intros c _. unfold matrix. cbn [c_indptr c_indices c_data]. ring.
      - intros a b s' Ha Hb _. destruct (slot_col nf nf _ _ _ _ a WA Hk Ha) as (_ & _ & H4). destruct (slot_col nc nf _ _ _ j b W Hj Hb) as (_ & H5 & _).
        rewrite (aget_nth adat a 0%Qc) by lia. cbn [bind]. rewrite half_slot by lia. f_equal. ring. }
    assert (Sk : forall k s, k < nf -> seek_row aip aind k j (fun mm1 s => a <- aget adat mm1 ;; Ok (s + a)%Qc) s = Ok (s + amat k j)%Qc).
    { intros k s Hk. rewrite (seek_row_ok nf nf _ _ adat WA _ 1%Qc k j s Hk (SA k Hk)); [f_equal; ring|].
      intros a Ha _. destruct (slot_col nf nf _ _ _ _ a WA Hk Ha) as (_ & _ & H4). rewrite (aget_nth adat a 0%Qc) by lia. cbn [bind]. f_equal. ring. }
    rewrite (row_sum nc nf _ (r_indices R) hs i _ (fun k => sumf nf (fun c => amat k c * matrix J j c) + amat k j)%Qc 0%Qc W Hi).
    2: { intros kk s [_ Hk]. destruct (slot_col nc nf _ _ _ i kk W Hi Hk) as (H1 & H2 & H3). rewrite (aget_nth (r_indices R) kk 0) by lia. cbn [bind].
      rewrite Mg by exact H1. cbn [bind]. rewrite Sk by exact H1. cbn [bind]. rewrite half_slot by lia. f_equal. ring. }
    cbn [bind]. rewrite Mg by lia. cbn [bind]. rewrite Sk by lia. f_equal.
    change (restr_matrix R) with (withI (matrix J)). rewrite galerkin_withI by lia. unfold matrix. cbn [c_indptr c_indices c_data]. ring.
  Qed.
End Restr.
