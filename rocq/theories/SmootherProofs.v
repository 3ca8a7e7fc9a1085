(** SOR and SSOR sweeps solve the triangular splittings. *)
From Coq Require Import Sorted.
From Verif Require Import Util Lin SparsitySpec CSRModel CSRSpec CSRProofs TriModel TriSpec TriProofs TriProofs2 TriProofs3
  SmootherModel SmootherSpec.
Set Default Proof Using "Type".

(** * Rows with break *)
Section Row.
  Variables (ind : list nat) (coef : nat -> res Qc) (y : buf Qc) (u : nat -> Qc) (i : nat).

  Lemma row_fwd_ok : forall (row : list (nat * Qc)) j t,
    (forall k p, nth_error row k = Some p -> nth_error ind (j + k) = Some (fst p) /\ coef (j + k) = Ok (snd p)) ->
    StronglySorted lt (map fst row) ->
    (forall p, In p row -> fst p < i -> nth_error y (fst p) = Some (Some (u (fst p)))) ->
    sor_row_fwd ind coef y i (length row) j t =
      Ok (t - suml (map (fun p => snd p * (if fst p <? i then u (fst p) else 0)) row))%Qc.
  Proof.
    induction row as [|p row IH]; intros j t Hr Hs Hy; cbn [length sor_row_fwd map suml].
    - f_equal. ring.
    - destruct (Hr 0 p eq_refl) as [E1 E2]. rewrite Nat.add_0_r in *. rewrite (aget_ok _ _ _ E1). cbn [bind].
      destruct (Nat.leb_spec i (fst p)) as [Hle|Hlt].
      + f_equal. destruct (Nat.ltb_spec (fst p) i); [lia|].
        rewrite suml_map_zero; [ring|]. intros q Hq. cbn [map] in Hs. inversion Hs; subst.
        assert (fst p < fst q) by (rewrite Forall_forall in H3; apply H3, in_map; auto).
        destruct (Nat.ltb_spec (fst q) i); [lia|]. ring.
      + rewrite E2. cbn [bind]. rewrite (rd_ok _ _ _ (Hy p (or_introl eq_refl) Hlt)). cbn [bind].
        rewrite IH.
        * f_equal. destruct (Nat.ltb_spec (fst p) i); [|lia]. ring.
        * intros k q Hk. specialize (Hr (S k) q Hk). rewrite <- Nat.add_assoc. exact Hr.
        * cbn [map] in Hs. inversion Hs; auto.
        * intros q Hq. apply Hy. right; auto.
  Qed.

  Lemma row_bwd_ok : forall (row : list (nat * Qc)) lo t,
    (forall k p, nth_error row k = Some p -> nth_error ind (lo + k) = Some (fst p) /\ coef (lo + k) = Ok (snd p)) ->
    StronglySorted lt (map fst row) ->
    (forall p, In p row -> i < fst p -> nth_error y (fst p) = Some (Some (u (fst p)))) ->
    sor_row_bwd ind coef y i lo (length row) t =
      Ok (t - suml (map (fun p => snd p * (if i <? fst p then u (fst p) else 0)) row))%Qc.
  Proof.
    induction row as [|p row IH] using rev_ind; intros lo t Hr Hs Hy.
    - cbn. f_equal. ring.
    - rewrite app_length. cbn [length]. rewrite Nat.add_1_r. cbn [sor_row_bwd].
      destruct (Hr (length row) p) as [E1 E2]; [rewrite nth_error_app2, Nat.sub_diag by lia; reflexivity|].
      rewrite (aget_ok _ _ _ E1). cbn [bind]. rewrite map_app, suml_app. cbn [map suml].
      rewrite map_app in Hs. cbn [map] in Hs.
      assert (Hlt : forall q, In q row -> fst q < fst p).
      { intros q Hq. clear - Hs Hq. revert Hs Hq. induction row as [|a row IH]; cbn; [tauto|]. intros Hs [->|Hq].
        - inversion Hs; subst. rewrite Forall_forall in H2. apply H2. apply in_or_app. right. left. reflexivity.
        - inversion Hs; auto. }
      destruct (Nat.leb_spec (fst p) i) as [Hle|Hgt].
      + f_equal. destruct (Nat.ltb_spec i (fst p)); [lia|].
        rewrite suml_map_zero; [ring|]. intros q Hq. specialize (Hlt q Hq).
        destruct (Nat.ltb_spec i (fst q)); [lia|]. ring.
      + rewrite E2. cbn [bind].
        rewrite (rd_ok _ _ _ (Hy p (in_or_app row [p] p (or_intror (or_introl eq_refl))) Hgt)). cbn [bind].
        rewrite IH.
        * f_equal. destruct (Nat.ltb_spec i (fst p)); [|lia]. ring.
        * intros k q Hk. apply Hr. rewrite nth_error_app1; auto. apply nth_error_Some. congruence.
        * clear - Hs. revert Hs. induction row as [|a row IH]; cbn; [constructor|]. intros Hs. inversion Hs; subst.
          constructor; auto. rewrite Forall_app in H2. tauto.
        * intros q Hq. apply Hy. apply in_or_app; auto.
  Qed.
End Row.

(** * Row-wise forward substitution *)
Lemma forward_row_gen n (M : mat) (b : list Qc) (body : nat -> buf Qc -> res (buf Qc)) (yb : buf Qc) :
  lowertri n M -> length yb = n ->
  (forall i (u : nat -> Qc) (y : buf Qc), i < n -> length y = n ->
     (forall k, k < i -> nth_error y k = Some (Some (u k))) ->
     nth_error y i = nth_error yb i ->
     exists v, body i y = wr y i v /\ (M i i * v = vat b i - sumf i (fun l => M i l * u l))%Qc) ->
  exists y, for_range 0 n body yb = Ok (map Some y) /\ the_solution n M b y.
Proof.
  intros HM Hyb Hb.
  loop_inv (fun j y => length y = n /\ exists u : nat -> Qc,
    (forall k, k < j -> nth_error y k = Some (Some (u k))) /\
    (forall k, j <= k -> nth_error y k = nth_error yb k) /\
    (forall k, k < j -> (sumf k (fun l => M k l * u l) + M k k * u k = vat b k)%Qc)) st E HI.
  3: { intros j y Hj (Hl & u & H1 & H2 & H3).
       destruct (Hb j u y) as (v & Ev & Hv); auto; [lia|].
       eexists. split; [rewrite Ev; apply wr_ok; lia|]. split; [rewrite upd_length; auto|].
       exists (fun k => if k =? j then v else u k). split; [|split].
       - intros k Hk. rewrite nth_error_upd, Hl. destruct (Nat.eqb_spec j k), (Nat.ltb_spec j n), (Nat.eqb_spec k j);
           try lia; cbn [andb]; auto. apply H1; lia.
       - intros k Hk. rewrite nth_error_upd_neq by lia. apply H2. lia.
       - intros k Hk.
         rewrite (sumf_ext k _ (fun l => M k l * u l)%Qc)
           by (intros l Hlk; destruct (Nat.eqb_spec l j); [lia|auto]).
         destruct (Nat.eqb_spec k j); [subst; rewrite Hv; ring|]. apply H3; lia. }
  - lia.
  - split; auto. exists (fun _ => 0%Qc). split; [intros; lia|]. split; auto. intros; lia.
  - destruct HI as (Hl & u & H1 & _ & H3). exists (tab n u). split.
    + rewrite E. f_equal. apply nth_ext with (d := None) (d' := None); [rewrite map_length, tab_length; auto|].
      intros k Hk. rewrite Hl in Hk. erewrite nth_error_nth by (apply H1; lia).
      erewrite nth_error_nth; [reflexivity|]. erewrite map_nth_error; [reflexivity|].
      rewrite nth_error_tab; auto.
    + apply the_solution_of; auto. split; [apply tab_length|]. intros i Hi. rewrite (mv_lower n M) by auto.
      rewrite <- (H3 i Hi). rewrite vat_tab by auto. f_equal. apply sumf_ext. intros l Hlt. rewrite vat_tab by lia. auto.
Qed.

(** * The sweeps *)
Section Sweep.
  Variables (n : nat) (ip ind : list nat) (dat : list Qc) (coef : nat -> res Qc) (D : list Qc) (omega : Qc).
  Hypothesis wf : wf_rows n n ip ind dat.
  Hypothesis sorted : forall i, i < n -> StronglySorted lt (map fst (rowlist ip ind dat i)).
  Hypothesis Hcoef : forall j, j < length ind -> coef j = Ok (vat dat j).
  Hypothesis HD : length D = n.
  Hypothesis Hd0 : forall i, i < n -> vat D i <> 0%Qc.
  Hypothesis Hom : omega <> 0%Qc.

  Lemma qdiv_nz a b : a <> 0%Qc -> b <> 0%Qc -> (a / b)%Qc <> 0%Qc.
  Proof. intros Ha Hb E. apply Ha. rewrite <- (Qcmult_div_r a b Hb), E. ring. Qed.

  Lemma lower_split_tri A : lowertri n (lower_split A D omega).
  Proof using HD Hd0 Hom.
    split.
    - intros i j Hi Hj. unfold lower_split. destruct (Nat.ltb_spec j i), (Nat.eqb_spec j i); try lia. auto.
    - intros i Hi. unfold lower_split. rewrite Nat.ltb_irrefl, Nat.eqb_refl. apply qdiv_nz; auto.
  Qed.
  Lemma upper_split_tri A : uppertri n (upper_split A D omega).
  Proof using HD Hd0 Hom.
    split.
    - intros i j Hi Hj. unfold upper_split. destruct (Nat.ltb_spec i j), (Nat.eqb_spec j i); try lia. auto.
    - intros i Hi. unfold upper_split. rewrite Nat.ltb_irrefl, Nat.eqb_refl. apply qdiv_nz; auto.
  Qed.

  Lemma row_pos i k p : i < n -> nth_error (rowlist ip ind dat i) k = Some p ->
    nth_error ind (nth i ip 0 + k) = Some (fst p) /\ coef (nth i ip 0 + k) = Ok (snd p).
  Proof using wf Hcoef.
    intros Hi E. destruct (row_at n _ _ _ i k p wf Hi E) as (_ & H1 & H2). split; auto.
    rewrite Hcoef by (apply nth_error_Some; congruence). f_equal. apply vat_nth_error. auto.
  Qed.

  Lemma forward_ok src x yb : length yb = n ->
    (forall i y, i < n -> nth_error y i = nth_error yb i -> src i y = Ok (vat x i)) ->
    exists r, sor_forward ip ind coef D omega src yb = Ok (map Some r) /\
      the_solution n (lower_split (rowmat ip ind dat) D omega) x r.
  Proof using wf sorted Hcoef HD Hd0 Hom.
    intros Hyb Hsrc. unfold sor_forward. rewrite HD.
    apply forward_row_gen; auto; [apply lower_split_tri|].
    intros i u y Hi Hl Hu Hy. rewrite Hsrc by auto. cbn [bind].
    rewrite Nat.add_1_r, !(wf_ip n n _ _ _ wf) by lia. cbn [bind].
    rewrite <- (rowlist_length n n _ _ _ wf i Hi).
    rewrite (row_fwd_ok ind coef y u i); auto.
    2: { intros k p Hk. apply row_pos; auto. }
    cbn [bind]. rewrite (aget_nth _ _ 0%Qc) by lia. fold (vat D i). cbn [bind]. rewrite qdiv_ok by auto. cbn [bind].
    eexists. split; [reflexivity|].
    rewrite (ent_dot _ n (fun j => if j <? i then u j else 0%Qc)) by apply (row_cols n n _ _ _ wf).
    rewrite (sumf_extend i n).
    - rewrite (sumf_ext i _ (fun l => lower_split (rowmat ip ind dat) D omega i l * u l)%Qc).
      + unfold lower_split at 1. rewrite Nat.ltb_irrefl, Nat.eqb_refl. field. auto.
      + intros j Hj. unfold lower_split, rowmat. destruct (Nat.ltb_spec j i); [auto|lia].
    - lia.
    - intros j Hj. destruct (Nat.ltb_spec j i); [lia|ring].
  Qed.

  Lemma backward_ok src x yb : length yb = n ->
    (forall i y, i < n -> nth_error y i = nth_error yb i -> src i y = Ok (vat x i)) ->
    exists r, sor_backward ip ind coef D omega src yb = Ok (map Some r) /\
      the_solution n (upper_split (rowmat ip ind dat) D omega) x r.
  Proof using wf sorted Hcoef HD Hd0 Hom.
    intros Hyb Hsrc. unfold sor_backward. rewrite HD.
    apply backward_row_gen; auto; [apply upper_split_tri|].
    intros i u y Hi Hl Hu Hy. rewrite Hsrc by auto. cbn [bind].
    rewrite Nat.add_1_r, !(wf_ip n n _ _ _ wf) by lia. cbn [bind].
    rewrite <- (rowlist_length n n _ _ _ wf i Hi).
    rewrite (row_bwd_ok ind coef y u i); auto.
    2: { intros k p Hk. apply row_pos; auto. }
    2: { intros p Hp Hip. apply Hu. split; auto. apply (row_cols n n _ _ _ wf _ _ Hp). }
    cbn [bind]. rewrite (aget_nth _ _ 0%Qc) by lia. fold (vat D i). cbn [bind]. rewrite qdiv_ok by auto. cbn [bind].
    eexists. split; [reflexivity|].
    rewrite (ent_dot _ n (fun j => if i <? j then u j else 0%Qc)) by apply (row_cols n n _ _ _ wf).
    rewrite (sum_split n i) by auto. rewrite Nat.ltb_irrefl.
    rewrite (sumf_zero i).
    2: { intros j Hj. destruct (Nat.ltb_spec i j); [lia|ring]. }
    rewrite (sum_ge_ext n (S i) _ (fun l => upper_split (rowmat ip ind dat) D omega i l * u l)%Qc).
    - unfold upper_split at 1. rewrite Nat.ltb_irrefl, Nat.eqb_refl. field. auto.
    - intros j Hj. unfold upper_split, rowmat. destruct (Nat.ltb_spec i j); [auto|lia].
  Qed.
End Sweep.
