(** Transposition of sparse graphs. *)
From Coq Require Import Sorted.
From Verif Require Import Util Lin SparsitySpec CSRModel CSRSpec Rows OpsProofs OpsProofs3 GraphModel GraphSpec GraphProofs.
Local Open Scope nat_scope.
Set Default Proof Using "Type".

(** A loop that does part of what another loop does *)
Lemma for_n_part {A B} (Rel : A -> B -> Prop) (f : nat -> A -> res A) (h : nat -> B -> res B) :
  (forall i s t t', Rel s t -> h i t = Ok t' -> exists s', f i s = Ok s' /\ Rel s' t') ->
  forall k i s t t', Rel s t -> for_n k i h t = Ok t' -> exists s', for_n k i f s = Ok s' /\ Rel s' t'.
Proof.
  intros H. induction k as [|k IH]; intros i s t t' HR E; cbn [for_n] in *; [injection E as <-; eauto|].
  apply bind_ok in E as (t1 & E1 & E). destruct (H i s t t1 HR E1) as (s1 & -> & HR1). cbn [bind]. eapply IH; eauto.
Qed.
Lemma for_range_part {A B} (Rel : A -> B -> Prop) (f : nat -> A -> res A) (h : nat -> B -> res B) lo hi s t t' :
  (forall i s t t', Rel s t -> h i t = Ok t' -> exists s', f i s = Ok s' /\ Rel s' t') ->
  Rel s t -> for_range lo hi h t = Ok t' -> exists s', for_range lo hi f s = Ok s' /\ Rel s' t'.
Proof. intros H HR E. unfold for_range in *. eapply for_n_part; eauto. Qed.

Definition as_csr (g : graph) : csr := CSR (g_cols g) (g_ptr g) (g_ind g) (repeat 1%Qc (length (g_ind g))).
Lemma as_csr_wf n m g : wf_graph n m g -> wf_csr n m (as_csr g).
Proof.
  intros (_ & C & L & _ & M & B & I). split; [exact C|]. cbn [as_csr c_indptr c_indices c_data]. unfold wf_rows. rewrite repeat_length. auto.
Qed.
Lemma combine_ones (l : list nat) : combine l (repeat 1%Qc (length l)) = map (fun c : nat => (c, 1%Qc)) l.
Proof. induction l; cbn; [auto|]. f_equal. auto. Qed.
Lemma rowlist_grow g i : rowlist (g_ptr g) (g_ind g) (repeat 1%Qc (length (g_ind g))) i = map (fun c => (c, 1%Qc)) (grow g i).
Proof. unfold rowlist, grow, slice. rewrite combine_ones, skipn_map, firstn_map. reflexivity. Qed.
Lemma matrix_edges g i c : matrix (as_csr g) i c = qnat (edges g i c).
Proof.
  unfold matrix. cbn [as_csr c_indptr c_indices c_data]. rewrite rowlist_grow. unfold ent, edges. generalize (grow g i) as l.
  induction l as [|a l IH]; [reflexivity|]. cbn [map filter fst count_occ]. destruct (Nat.eqb_spec a c) as [->|N].
  - destruct (Nat.eq_dec c c); [|congruence]. cbn [map suml snd]. rewrite IH, qnat_S. reflexivity.
  - destruct (Nat.eq_dec a c); [congruence|]. apply IH.
Qed.
Lemma transpose_csr n m g B : wf_graph n m g -> csr_transpose (as_csr g) = Ok B ->
  exists g', graph_transpose g = Ok g' /\ g_ind g' = c_indices B /\ g_ptr g' = c_indptr B /\ g_rows g' = m /\ g_cols g' = n.
Proof.
  intros (Wn & Wm & L & _) E. unfold csr_transpose in E. unfold graph_transpose, c_nrows in *. cbn [as_csr c_indptr c_indices c_data c_ncols] in E.
  rewrite L in E. rewrite L, Wn, Wm in *. replace (n + 1 - 1) with n in * by lia.
  apply bind_ok in E as (nnz & -> & E). cbn [bind]. apply bind_ok in E as (ip0 & -> & E). cbn [bind]. apply bind_ok in E as (ip1 & -> & E). cbn [bind].
  apply bind_ok in E as ([[ip2 ind] dat] & E2 & E).
  eapply (for_range_part (fun (s : list nat * buf nat) (t : list nat * buf nat * buf Qc) => s = fst t)) in E2 as ([ip2' ind'] & -> & E2).
  - cbn [fst] in E2. injection E2 as -> ->. cbn [bind].
    apply bind_ok in E as ([ip3 z] & -> & E). cbn [bind]. apply bind_ok in E as (indl & -> & E). cbn [bind]. apply bind_ok in E as (datl & _ & E). injection E as <-.
    eexists. split; [reflexivity|]. auto.
  - intros i s t t' HR Et. unfold for_row in *. apply bind_ok in Et as (lo & -> & Et). apply bind_ok in Et as (hi & -> & Et). cbn [bind].
    eapply (for_range_part (fun (s : list nat * buf nat) (t : list nat * buf nat * buf Qc) => s = fst t)); [|exact HR|exact Et]. clear. intros j s [[ip ind] dat] t' -> Et. cbn [fst].
    apply bind_ok in Et as (c & -> & Et). cbn [bind]. apply bind_ok in Et as (p & -> & Et). cbn [bind]. apply bind_ok in Et as (ind' & -> & Et). cbn [bind]. apply bind_ok in Et as (v & _ & Et). cbn [bind].
    apply bind_ok in Et as (dat' & _ & Et). cbn [bind]. apply bind_ok in Et as (ip' & -> & Et). cbn [bind]. injection Et as <-. cbn [bind]. eexists. split; reflexivity.
  - reflexivity.
Qed.
Lemma grow_sorted g i : map fst (rowlist (g_ptr g) (g_ind g) (repeat 1%Qc (length (g_ind g))) i) = grow g i.
Proof. rewrite rowlist_grow, map_map. cbn. apply map_id. Qed.
Lemma all_init_In {A} (b : buf A) l : all_init b = Ok l -> b = map Some l.
Proof.
  revert l. induction b as [|[a|] b IH]; intros l E; cbn [all_init] in E; try discriminate; [injection E as <-; reflexivity|].
  apply bind_ok in E as (t & Et & E). injection E as <-. cbn. f_equal. auto.
Qed.
Lemma ones_list (l : list Qc) : (forall v, In v l -> v = 1%Qc) -> l = repeat 1%Qc (length l).
Proof. induction l as [|a l IH]; intros A; [reflexivity|]. cbn. rewrite (A a) by (left; auto). f_equal. apply IH. intros v Hv. apply A. right. auto. Qed.
(** The transposed matrix has ones again. *)
Lemma ones_transposed n m g B : wf_graph n m g -> csr_transpose (as_csr g) = Ok B -> c_data B = repeat 1%Qc (length (c_indices B)) /\ nth 0 (c_indptr B) 0 = 0.
Proof.
  intros W E. pose proof W as (Wn & Wm & L & Z0 & M & Bd & HI). rewrite (csr_transpose_ok n m) in E by (try apply as_csr_wf; auto). injection E as <-.
  cbn [mk c_data c_indices c_indptr]. split; [|destruct m; reflexivity].
  rewrite map_length. rewrite <- (map_length snd). 
  apply ones_list. intros v Hv. apply in_map_iff in Hv as (p & <- & Hp). apply in_cat in Hp as (c & _ & Hp). unfold items in Hp. apply in_map_iff in Hp as (q & <- & Hq).
  apply filter_In in Hq as (Hq & _). apply in_cat in Hq as (i & Hi & Hq). apply in_map_iff in Hq as (r & <- & Hr). cbn [snd].
  cbn [as_csr c_indptr c_indices c_data] in Hr. rewrite rowlist_grow in Hr. apply in_map_iff in Hr as (z & <- & _). reflexivity.
Qed.
Lemma graph_transpose_ok n m g : wf_graph n m g ->
  exists g', graph_transpose g = Ok g' /\ wf_graph m n g' /\ (forall i c, i < n -> c < m -> edges g' c i = edges g i c) /\
  ((forall i, i < n -> NoDup (grow g i)) -> forall c, c < m -> increasing_list (grow g' c)).
Proof.
  intros W. pose proof W as (Wn & Wm & L & Z0 & M & Bd & HI).
  destruct (transpose_thm n m (as_csr g) (as_csr_wf n m g W) Z0) as (B & E & WB & V & S).
  destruct (ones_transposed n m g B W E) as (OB & ZB). destruct (transpose_csr n m g B W E) as (g' & Eg & G1 & G2 & G3 & G4).
  assert (EB : B = as_csr g'). { destruct WB as (WB & _). destruct B as [nc ip ind dat]. unfold as_csr. cbn [c_ncols c_indptr c_indices c_data] in *. subst. rewrite G4. reflexivity. }
  exists g'. split; [exact Eg|]. split; [|split].
  - destruct WB as (WB1 & R1 & R2 & R3 & R4 & R5). unfold wf_graph. rewrite G1, G2. repeat split; auto.
  - intros i c Hi Hc. apply qnat_inj. rewrite <- !matrix_edges, <- EB. apply V; auto.
  - intros N c Hc. unfold increasing_list. rewrite <- (grow_sorted g' c). rewrite EB in S. apply S; auto.
    intros i Hi. cbn [as_csr c_indptr c_indices c_data]. rewrite grow_sorted. apply N; auto.
Qed.
(** The prolongation along the transposed graph is the transposed of the restriction. *)
Lemma tmat_transposed n m g g' i c : (forall i c, i < n -> c < m -> edges g' c i = edges g i c) -> i < n -> c < m -> tmat g' c i = tmat g i c.
Proof. intros H Hi Hc. unfold tmat. rewrite H by auto. rewrite (Nat.eqb_sym c i). reflexivity. Qed.
