(** Block triangular operators have one solution; block diagonal operators. *)
From Verif Require Import Util Lin CSRModel DenseModel SmootherModel CompModel CompSpec CompProofs CompProofs2 CompProofs3 CompProofs4 CompProofs5 CompProofs6 CompProofs7 CompProofs10 BlockInvModel BlockInvSpec BlockInvProofs BlockInvProofs2 BlockInvProofs3.
Local Open Scope nat_scope.
Set Default Proof Using "Type".

Lemma injective_block s (A D : mat) (u v : nat -> Qc) : right_inverse s D A -> (forall r, r < s -> mv s A u r = mv s A v r) -> forall r, r < s -> u r = v r.
Proof.
  intros H E r Hr. assert (K : forall f, mv s D (mv s A f) r = f r).
  { intros f. rewrite <- mv_mm. unfold mv. rewrite (sumf_ext s _ (fun j => if (j =? r)%nat then f j else 0)%Qc).
    - apply sumf_delta. auto.
    - intros j Hj. rewrite (H r j Hr Hj), (Nat.eqb_sym r j). destruct (j =? r); ring. }
  rewrite <- (K u), <- (K v). unfold mv at 1 3. apply sumf_ext. intros c Hc. f_equal. apply E. auto.
Qed.
Lemma null_mv s e f r : is_null e = true -> mv s (meaning e) f r = 0%Qc.
Proof. destruct e; try discriminate. intros _. unfold mv. apply sumf_zero. intros c _. cbn [meaning]. ring. Qed.

Section Unique.
  Context (lower : bool) (rows : list (list expr)) (inverses : list expr) (t : nat) (u v : nat -> Qc).
  Let ws := sizes rows.
  Let N := length rows.
  Let n := sum_nat ws.
  Hypothesis Hsq : forall row, In row rows -> map (fun e => snd (dims e)) row = sizes rows.
  Hypothesis Hnull : forall i j, i < N -> j < N -> (if lower then i < j else j < i) -> is_null (entry rows i j) = true.
  Hypothesis HL : forall i, i < N -> right_inverse (nth i ws 0) (meaning (inverse_of inverses i)) (meaning (entry rows i i)).
  Hypothesis HE : forall r, r < n -> mv n (meaning (EBlock rows t)) u r = mv n (meaning (EBlock rows t)) v r.
  Let same i := forall r, r < nth i ws 0 -> u (sum_nat (firstn i ws) + r) = v (sum_nat (firstn i ws) + r).
  Lemma same_row i : i < N -> (forall j, j < N -> (if lower then j < i else i < j) -> same j) -> same i.
  Proof using All.
    intros Hi IH. assert (Lw : length ws = N) by (unfold ws, sizes; apply map_length).
    unfold same. apply (injective_block (nth i ws 0) (meaning (entry rows i i)) (meaning (inverse_of inverses i)) (fun c => u (sum_nat (firstn i ws) + c)) (fun c => v (sum_nat (firstn i ws) + c)) (HL i Hi)).
    intros r Hr. pose proof (off_bound ws i ltac:(lia)) as B. cbv zeta in B.
    pose proof (HE (sum_nat (firstn i (sizes rows)) + r) ltac:(fold ws; unfold n; lia)) as E. unfold n in E.
    rewrite !(block_mv rows t ws i) in E by auto. rewrite Lw in E.
    set (tm := fun (z : nat -> Qc) j => mv (nth j ws 0) (meaning (entry rows i j)) (fun c => z (sum_nat (firstn j ws) + c)) r) in *.
    change (sumf N (tm u) = sumf N (tm v)) in E. change (tm u i = tm v i).
    assert (O : forall j, j < N -> j <> i -> tm u j = tm v j).
    { intros j Hj Hji. destruct (Nat.lt_ge_cases j i) as [L|L]; destruct lower.
      - unfold tm, mv. apply sumf_ext. intros c Hc. f_equal. apply (IH j Hj L). exact Hc.
      - unfold tm. rewrite !null_mv by (apply Hnull; auto). reflexivity.
      - unfold tm. rewrite !null_mv by (apply Hnull; auto; lia). reflexivity.
      - unfold tm, mv. apply sumf_ext. intros c Hc. f_equal. apply (IH j Hj ltac:(lia)). exact Hc. }
    assert (X : sumf N (fun j => tm u j - tm v j)%Qc = (tm u i - tm v i)%Qc).
    { apply (sumf_single N (fun j => tm u j - tm v j)%Qc i Hi). intros j Hj Hji. rewrite (O j Hj Hji). ring. }
    rewrite sumf_minus, E in X. replace (sumf N (tm v) - sumf N (tm v))%Qc with 0%Qc in X by ring.
    replace (tm u i) with ((tm u i - tm v i) + tm v i)%Qc by ring. rewrite <- X. ring.
  Qed.
  Lemma same_all i : i < N -> same i.
  Proof using All.
    assert (EL : lower = true \/ lower = false) by (destruct lower; auto). destruct EL as [EL|EL].
    - induction i as [i IH] using lt_wf_ind. intros Hi. apply same_row; [exact Hi|]. rewrite EL. intros j Hj Hji. apply IH; auto.
    - assert (G : forall d i, N - i = d -> i < N -> same i).
      { induction d as [d IH] using lt_wf_ind. intros i0 Ed Hi. apply same_row; [exact Hi|]. rewrite EL. intros j Hj Hji. apply (IH (N - j)); auto. lia. }
      intros Hi. apply (G (N - i)); auto.
  Qed.
  Lemma unique_solution r : r < n -> u r = v r.
  Proof using All.
    intros Hr. destruct (position ws r Hr) as (i & wi & Ei & Hi). assert (Li : i < N) by (unfold N; rewrite <- (map_length (fun row => hd 0 (map (fun e => fst (dims e)) row)) rows); apply nth_error_Some; unfold ws, sizes in Ei; rewrite Ei; discriminate).
    pose proof (nth_error_nth ws i 0 Ei) as Ew. pose proof (same_all i Li (r - sum_nat (firstn i ws)) ltac:(lia)) as Q.
    replace (sum_nat (firstn i ws) + (r - sum_nat (firstn i ws))) with r in Q by lia. exact Q.
  Qed.
End Unique.

Lemma blockInverse_inverse lens (lower : bool) rows inverses t : triangular lens lower rows inverses t ->
  (forall i, i < length rows -> right_inverse (nth i (sizes rows) 0) (meaning (inverse_of inverses i)) (meaning (entry rows i i))) ->
  let n := sum_nat (sizes rows) in let T := scratch_all rows inverses t in
  exists f, blockInverse lower rows inverses t = Ok f /\ forall x y zs h,
  arguments lens T n n false x y (tab n (mv n (meaning (EBlock rows t)) (vat zs))) [] h -> length zs = n ->
  exists h', f x y h = Ok h' /\ contents h' y = map Some zs.
Proof.
  intros HT HL n T. destruct (blockInverse_ok lens lower rows inverses t HT) as (f & E & P). exists f. split; [exact E|].
  intros x y zs h HA Lz. destruct (P x y _ h HA) as (h' & zs' & E' & L' & C & V & _). exists h'. split; [exact E'|]. rewrite C. f_equal.
  destruct HT as (_ & Hsq & _ & Hnull & _). fold n in L', V. apply (nth_ext _ _ 0%Qc 0%Qc); [lia|]. intros r Hr. change (vat zs' r = vat zs r).
  apply (unique_solution lower rows inverses t (vat zs') (vat zs) Hsq Hnull HL); [|fold n; lia].
  intros q Hq. fold n. rewrite V by exact Hq. rewrite vat_tab by exact Hq. reflexivity.
Qed.

(** * Block diagonal operators *)
Lemma shape_dims lens e : ok lens e -> shape_of e = dims e.
Proof. intros H. destruct (build_sound lens e H) as (o & E & (Rn & Rm & _) & _). unfold shape_of. rewrite E, Rn, Rm. symmetry. apply surjective_pairing. Qed.
Section Diagonal.
  Context (lens : nat -> nat) (blocks : list expr) (t : nat).
  Let N := length blocks.
  Let b i := nth i blocks (ENull 0 0).
  Hypothesis Hne : blocks <> [].
  Hypothesis HO : forall e, In e blocks -> ok lens e /\ ~ In t (scratch e).
  Let hs := map (fun e => fst (dims e)) blocks.
  Let ws := map (fun e => snd (dims e)) blocks.
  Hypothesis Lt : sum_nat hs <= lens t.
  Let cell i j := if j =? i then b i else ENull (fst (shape_of (b i))) (snd (shape_of (b j))).
  Let rows := map (fun i => map (cell i) (seq 0 N)) (seq 0 N).
  Lemma diag_is : blockDiagonal blocks t = EBlock rows t.
  Proof using. reflexivity. Qed.
  Lemma b_ok i : i < N -> ok lens (b i) /\ ~ In t (scratch (b i)).
  Proof using HO. intros H. apply HO, nth_In. exact H. Qed.
  Lemma cell_dims i j : i < N -> j < N -> dims (cell i j) = (fst (dims (b i)), snd (dims (b j))).
  Proof using HO.
    intros Hi Hj. unfold cell. destruct (Nat.eqb_spec j i) as [->|]; [apply surjective_pairing|]. cbn [dims].
    rewrite (shape_dims lens) by (apply b_ok; auto). rewrite (shape_dims lens) by (apply b_ok; auto). reflexivity.
  Qed.
  Lemma seq_map {X} (f : expr -> X) : map (fun i => f (b i)) (seq 0 N) = map f blocks.
  Proof using.
    unfold b, N. clear. generalize (ENull 0 0). intros d. transitivity (map f (map (fun i => nth i blocks d) (seq 0 (length blocks)))); [rewrite map_map; reflexivity|]. f_equal.
    apply (nth_ext _ _ d d); [rewrite map_length, seq_length; reflexivity|]. intros i Hi. rewrite map_length, seq_length in Hi.
    rewrite (nth_indep _ d (nth 0 blocks d)) by (rewrite map_length, seq_length; auto). rewrite (map_nth (fun i => nth i blocks d)), seq_nth by auto. reflexivity.
  Qed.
  Lemma row_widths row : In row rows -> map (fun e => snd (dims e)) row = ws.
  Proof using HO.
    clear Lt. intros H. apply in_map_iff in H as (i & <- & Hi). apply in_seq in Hi. rewrite map_map. transitivity (map (fun i => snd (dims (b i))) (seq 0 N)); [|apply (seq_map (fun e => snd (dims e)))]. apply map_ext_in. intros j Hj. apply in_seq in Hj.
    rewrite cell_dims by lia. reflexivity.
  Qed.
  Lemma N_pos : 0 < N.
  Proof using Hne. clear - Hne. unfold N. destruct blocks; [congruence|cbn; lia]. Qed.
  Lemma diag_sizes : sizes rows = hs.
  Proof using HO Hne.
    clear Lt. unfold sizes, rows. rewrite map_map. transitivity (map (fun i => fst (dims (b i))) (seq 0 N)); [|apply (seq_map (fun e => fst (dims e)))]. apply map_ext_in. intros i Hi. apply in_seq in Hi. pose proof N_pos as NP.
    assert (E : seq 0 N = 0 :: seq 1 (N - 1)) by (destruct N; [lia|cbn; rewrite Nat.sub_0_r; reflexivity]). rewrite E at 1. cbn [map hd]. rewrite cell_dims by lia. reflexivity.
  Qed.
  Lemma diag_ok : ok lens (EBlock rows t).
  Proof using All.
    pose proof N_pos as NP. cbn [ok]. split; [|split; [|split; [|split; [|split; [|split]]]]].
    - assert (G : forall (l : list Prop), (forall P, In P l -> P) -> all l) by (induction l as [|P l IH]; intros H; cbn; auto; split; [apply H; left; auto|apply IH; intros Q HQ; apply H; right; auto]).
      apply G. intros P HP. apply in_map_iff in HP as (row & <- & Hr). apply G. intros Q HQ. apply in_map_iff in HQ as (e & <- & He).
      apply in_map_iff in Hr as (i & <- & Hi). apply in_map_iff in He as (j & <- & Hj). apply in_seq in Hi, Hj. unfold cell. destruct (j =? i); [apply b_ok; lia|exact Logic.I].
    - unfold rows. destruct N; [lia|]. discriminate.
    - intros H. apply in_map_iff in H as (i & E & _). destruct N; [lia|]. discriminate.
    - intros row row' H H'. rewrite (row_widths row H), (row_widths row' H'). reflexivity.
    - intros row e e' H He He'. apply in_map_iff in H as (i & <- & Hi). apply in_map_iff in He as (j & <- & Hj). apply in_map_iff in He' as (j' & <- & Hj'). apply in_seq in Hi, Hj, Hj'.
      rewrite !cell_dims by lia. reflexivity.
    - change (sum_nat (sizes rows) <= lens t). rewrite diag_sizes. exact Lt.
    - intros H. apply in_concat in H as (l & Hl & Hin). apply in_map_iff in Hl as (row & <- & Hr). apply in_concat in Hin as (l & Hl & Hin). apply in_map_iff in Hl as (e & <- & He).
      apply in_map_iff in Hr as (i & <- & Hi). apply in_map_iff in He as (j & <- & Hj). apply in_seq in Hi, Hj. unfold cell in Hin. destruct (j =? i); [|destruct Hin]. apply (proj2 (b_ok i ltac:(lia))). exact Hin.
  Qed.
  Lemma diag_entry i j : i < N -> j < N -> entry rows i j = cell i j.
  Proof using.
    intros Hi Hj. unfold entry, rows. rewrite (nth_indep _ [] (map (cell 0) (seq 0 N))) by (rewrite map_length, seq_length; auto).
    rewrite (map_nth (fun i => map (cell i) (seq 0 N))), seq_nth by auto. cbn [Nat.add].
    rewrite (nth_indep _ (ENull 0 0) (cell i 0)) by (rewrite map_length, seq_length; auto). rewrite (map_nth (cell i)), seq_nth by auto. reflexivity.
  Qed.
  Lemma diag_mv z i r : i < N -> r < nth i hs 0 ->
    mv (sum_nat ws) (meaning (blockDiagonal blocks t)) z (sum_nat (firstn i hs) + r) = mv (nth i ws 0) (meaning (b i)) (fun c => z (sum_nat (firstn i ws) + c)) r.
  Proof using HO Hne.
    clear Lt. intros Hi Hr. rewrite diag_is. pose proof (block_mv rows t ws i z r row_widths) as B. rewrite diag_sizes in B. rewrite B; [|unfold rows; rewrite map_length, seq_length; auto|exact Hr].
    assert (Lw : length ws = N) by (unfold ws; apply map_length). rewrite Lw, (sumf_single N _ i Hi).
    - rewrite diag_entry by auto. unfold cell. rewrite Nat.eqb_refl. reflexivity.
    - intros j Hj Hji. rewrite diag_entry by auto. unfold cell. destruct (Nat.eqb_spec j i); [lia|]. apply null_mv. reflexivity.
  Qed.
  Lemma diag_offers : (forall e, In e blocks -> offers e false false = true) -> offers (EBlock rows t) false false = true.
  Proof using.
    intros H. cbn [offers negb andb]. apply forallb_forall. intros q Hq. apply in_map_iff in Hq as (row & <- & Hr). apply forallb_forall. intros q Hq. apply in_map_iff in Hq as (e & <- & He).
    apply in_map_iff in Hr as (i & <- & Hi). apply in_map_iff in He as (j & <- & Hj). apply in_seq in Hi. unfold cell. destruct (j =? i); [|reflexivity]. apply H, nth_In. clear - Hi. unfold N in Hi. lia.
  Qed.
  Lemma diagonal_product : (forall e, In e blocks -> offers e false false = true) -> exists o, build (blockDiagonal blocks t) = Ok o /\
    l_rows o = sum_nat hs /\ l_cols o = sum_nat ws /\
    performs lens (scratch (blockDiagonal blocks t)) (sum_nat hs) (sum_nat ws) (meaning (blockDiagonal blocks t)) false (call o false false).
  Proof using All.
    intros H. rewrite diag_is. destruct (products_ok lens (EBlock rows t) diag_ok) as (o & E & Rn & Rm & P). exists o. split; [exact E|].
    assert (D1 : fst (dims (EBlock rows t)) = sum_nat hs) by (change (sum_nat (sizes rows) = sum_nat hs); rewrite diag_sizes; reflexivity).
    assert (D2 : snd (dims (EBlock rows t)) = sum_nat ws).
    { assert (X : exists r0 rs, rows = r0 :: rs) by (unfold rows; pose proof N_pos as NP; destruct N; [lia|cbn; eauto]). destruct X as (r0 & rs & Er).
      cbn [dims snd]. rewrite Er. cbn [map hd]. f_equal. apply row_widths. rewrite Er. left. reflexivity. }
    rewrite D1 in *. rewrite D2 in *. split; [exact Rn|]. split; [exact Rm|]. apply (P false false (diag_offers H)).
  Qed.
End Diagonal.
