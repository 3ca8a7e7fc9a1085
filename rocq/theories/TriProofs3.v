(** Proofs about row-wise back substitution, permutations and the solvers built
    from the kernels. *)
From Coq Require Import Permutation.
From Verif Require Import Util Lin SparsitySpec CSRModel CSRSpec CSRProofs TriModel TriSpec TriProofs TriProofs2.
Set Default Proof Using "Type".

(** * backward_solve_csr *)
Lemma back_row_ok ind dat (y : buf Qc) (u : nat -> Qc) i d rest : forall jj t,
  nth_error ind jj = Some i -> nth_error dat jj = Some d ->
  (forall k p, nth_error rest k = Some p -> nth_error ind (jj + 1 + k) = Some (fst p) /\ nth_error dat (jj + 1 + k) = Some (snd p) /\
     i < fst p /\ nth_error y (fst p) = Some (Some (u (fst p)))) ->
  back_row ind dat y i (jj + 1 + length rest) t = Ok (jj, t - suml (map (fun p => snd p * u (fst p)) rest))%Qc.
Proof.
  induction rest as [|p rest IH] using rev_ind; intros jj t Hi Hd H.
  - cbn [length]. rewrite Nat.add_0_r, Nat.add_1_r. cbn [back_row]. rewrite (aget_ok _ _ _ Hi). cbn [bind].
    rewrite Nat.ltb_irrefl. cbn [map suml]. do 2 f_equal. ring.
  - rewrite app_length. cbn [length]. rewrite (Nat.add_1_r (length rest)), Nat.add_succ_r. cbn [back_row].
    destruct (H (length rest) p) as (H1 & H2 & H3 & H4).
    { rewrite nth_error_app2, Nat.sub_diag by lia. reflexivity. }
    rewrite (aget_ok _ _ _ H1). cbn [bind]. destruct (Nat.ltb_spec i (fst p)) as [_|]; [|lia].
    rewrite (aget_ok _ _ _ H2). cbn [bind]. rewrite (rd_ok _ _ _ H4). cbn [bind].
    rewrite IH; auto.
    + do 2 f_equal. rewrite map_app, suml_app. cbn [map suml]. ring.
    + intros k q Hk. apply H. rewrite nth_error_app1; auto. apply nth_error_Some. congruence.
Qed.

Lemma backward_solve_csr_gen_ok n ip ind dat rb b (y : buf Qc) :
  diag_rows n ip ind dat -> length y = n ->
  (forall y' i, i < n -> nth_error y' i = nth_error y i -> rb y' i = Ok (vat b i)) ->
  exists x, backward_solve_csr_gen rb n ip ind dat y = Ok (map Some x) /\
    the_solution n (upper_part (rowmat ip ind dat)) b x.
Proof.
  intros [wf HD] Hy Hrb. unfold backward_solve_csr_gen.
  assert (Hdiag : forall i, i < n -> exists d pre rest, rowlist ip ind dat i = pre ++ (i, d) :: rest /\ d <> 0%Qc /\
    (forall p, In p rest -> i < fst p) /\ rowmat ip ind dat i i = d /\
    (forall l, i < l -> rowmat ip ind dat i l = ent rest l)).
  { intros i Hi. destruct (HD i Hi) as (d & pre & rest & Er & Hd & Hp & Hr). exists d, pre, rest.
    split; auto. split; auto. split; auto. unfold rowmat. rewrite Er. split.
    - rewrite ent_app, ent_cons, !ent_absent.
      + cbn [fst snd]. rewrite Nat.eqb_refl. ring.
      + intros p Hin. specialize (Hr p Hin). lia.
      + intros p Hin. specialize (Hp p Hin). lia.
    - intros l Hl. rewrite ent_app, ent_cons, (ent_absent pre).
      + cbn [fst snd]. destruct (Nat.eqb_spec i l); [lia|]. ring.
      + intros p Hin. specialize (Hp p Hin). lia. }
  apply backward_row_gen; auto.
  { split.
    - intros i j Hi Hj. unfold upper_part. destruct (Nat.leb_spec i j); [lia|auto].
    - intros i Hi. unfold upper_part. rewrite Nat.leb_refl.
      destruct (Hdiag i Hi) as (d & pre & rest & _ & Hd & _ & -> & _). auto. }
  intros i u y' Hi Hl Hu He. rewrite Hrb by auto. cbn [bind].
  rewrite Nat.add_1_r, (wf_ip n n _ _ _ wf (S i)) by lia. cbn [bind].
  destruct (Hdiag i Hi) as (d & pre & rest & Er & Hd & Hr & Hm & Hm2).
  pose proof (rowlist_length n n _ _ _ wf i Hi) as HL. rewrite Er, app_length in HL. cbn [length] in HL.
  assert (Hat : forall k p, nth_error rest k = Some p ->
     nth_error ind (nth i ip 0 + length pre + 1 + k) = Some (fst p) /\ nth_error dat (nth i ip 0 + length pre + 1 + k) = Some (snd p)).
  { intros k p Hk. destruct (row_at n ip ind dat i (length pre + (1 + k)) p wf Hi) as (_ & H1 & H2).
    - rewrite Er, nth_error_app2 by lia. replace (length pre + (1 + k) - length pre) with (S k) by lia. auto.
    - rewrite <- H1, <- H2. split; f_equal; lia. }
  destruct (row_at n ip ind dat i (length pre) (i, d) wf Hi) as (H1 & H2 & H3).
  { rewrite Er, nth_error_app2, Nat.sub_diag by lia. reflexivity. }
  replace (nth (S i) ip 0) with (nth i ip 0 + length pre + 1 + length rest) by lia.
  rewrite (back_row_ok ind dat y' u i d rest); auto.
  2: { intros k p Hk. destruct (Hat k p Hk) as [A1 A2]. apply nth_error_In in Hk as Hin.
       split; auto. split; auto. split; auto. apply Hu. split; auto.
       apply (row_cols n n _ _ _ wf i). rewrite Er. apply in_or_app; right; right; auto. }
  cbn [bind]. rewrite (aget_ok _ _ _ H3). cbn [bind snd]. rewrite qdiv_ok by auto. cbn [bind].
  eexists. split; [reflexivity|].
  unfold upper_part. rewrite Nat.leb_refl, Hm.
  rewrite (ent_dot_ge n rest i).
  2: { intros p Hin. split; auto. apply (row_cols n n _ _ _ wf i). rewrite Er. apply in_or_app; right; right; auto. }
  match goal with |- (d * (?t / d) = _)%Qc => replace (d * (t / d))%Qc with t by (field; auto) end.
  f_equal. apply sum_ge_ext. intros l Hli. destruct (Nat.leb_spec i l); [|lia]. rewrite Hm2 by lia. auto.
Qed.

Lemma backward_solve_csr_ok n ip ind dat b (y : buf Qc) :
  diag_rows n ip ind dat -> length b = n -> length y = n ->
  exists x, backward_solve_csr ip ind dat b y = Ok (map Some x) /\
    the_solution n (upper_part (rowmat ip ind dat)) b x.
Proof.
  intros HD Hb Hy. unfold backward_solve_csr. rewrite Hb. apply backward_solve_csr_gen_ok; auto.
  intros y' i Hi _. apply aget_nth. lia.
Qed.

(** * Permutations *)
Section Perm.
  Variables (n : nat) (p : list nat).
  Hypothesis Hp : is_perm n p.

  Lemma perm_len : length p = n.
  Proof using Hp. rewrite <- (Permutation_length Hp), seq_length. auto. Qed.

  Lemma perm_lt i : i < n -> nth i p 0 < n.
  Proof using Hp.
    intros Hi. assert (In (nth i p 0) (seq 0 n)).
    { apply (Permutation_in _ (Permutation_sym Hp)). apply nth_In. rewrite perm_len; auto. }
    apply in_seq in H. lia.
  Qed.

  Lemma perm_onto k : k < n -> exists i, i < n /\ nth i p 0 = k.
  Proof using Hp.
    intros Hk. assert (H : In k p) by (apply (Permutation_in _ Hp); apply in_seq; lia).
    apply (In_nth _ _ 0) in H as (i & Hi & E). rewrite perm_len in Hi. eauto.
  Qed.

  Lemma perm_inj i j : i < n -> j < n -> nth i p 0 = nth j p 0 -> i = j.
  Proof using Hp.
    intros Hi Hj E. assert (Hn : NoDup p) by (apply (Permutation_NoDup Hp), seq_NoDup).
    apply (proj1 (NoDup_nth p 0) Hn); auto; rewrite perm_len; auto.
  Qed.

  Lemma sumf_list f : sumf n f = suml (map f (seq 0 n)).
  Proof. rewrite <- (suml_tab n f). reflexivity. Qed.

  Lemma suml_perm l l' : Permutation l l' -> suml l = suml l'.
  Proof. clear Hp p n. induction 1; cbn [suml]; auto; [rewrite IHPermutation; auto|ring|congruence]. Qed.

  Lemma sumf_perm f : sumf n (fun j => f (nth j p 0)) = sumf n f.
  Proof using Hp.
    rewrite <- (suml_tab n (fun j => f (nth j p 0))), (sumf_list f).
    replace (tab n (fun j => f (nth j p 0))) with (map f p).
    - apply suml_perm, Permutation_map, Permutation_sym, Hp.
    - rewrite <- perm_len at 1. rewrite (list_eq_tab p 0) at 1. unfold tab. rewrite map_map. reflexivity.
  Qed.

  Lemma permute_in_ok b (t : buf Qc) : length b = n -> length t = n ->
    exists tb, permute_in n p b t = Ok (map Some tb) /\ length tb = n /\ forall i, i < n -> vat tb (nth i p 0) = vat b i.
  Proof using Hp.
    intros Hb Ht. unfold permute_in.
    loop_inv (fun i t => length t = n /\ forall k, k < i -> nth_error t (nth k p 0) = Some (Some (vat b k))) st E HI.
    3: { intros i t0 Hi [Hl Hk]. rewrite (aget_nth p i 0) by (rewrite perm_len; lia). cbn [bind].
         rewrite (aget_nth b i 0%Qc) by lia. cbn [bind].
         pose proof (perm_lt i ltac:(lia)).
         eexists. split; [apply wr_ok; lia|]. split; [rewrite upd_length; auto|].
         intros k Hki. destruct (Nat.eq_dec k i) as [->|Hne].
         - rewrite nth_error_upd_eq by lia. reflexivity.
         - rewrite nth_error_upd_neq.
           + apply Hk; lia.
           + intros E. apply Hne. apply perm_inj; auto; lia. }
    - lia.
    - split; auto. intros; lia.
    - destruct HI as [Hl HI]. exists (tab n (fun k => match nth k st None with Some v => v | None => 0%Qc end)).
      split; [|split; [apply tab_length|]].
      + rewrite E. f_equal. apply nth_ext with (d := None) (d' := None); [rewrite map_length, tab_length; auto|].
        intros k Hk. rewrite Hl in Hk. destruct (perm_onto k Hk) as (i & Hi & <-).
        symmetry. apply nth_error_nth. erewrite map_nth_error; [|rewrite nth_error_tab by auto; reflexivity].
        erewrite (nth_error_nth st (nth i p 0)) by (apply HI; auto). reflexivity.
      + intros i Hi. rewrite vat_tab by (apply perm_lt; auto). erewrite nth_error_nth by (apply HI; auto). reflexivity.
  Qed.

  Lemma permute_out_ok z (x : buf Qc) : length z = n -> length x = n ->
    permute_out n p (map Some z) x = Ok (map Some (tab n (fun i => vat z (nth i p 0)))).
  Proof using Hp.
    intros Hz Hx. unfold permute_out. apply fill_loop; auto.
    intros i y Hi Hl _. rewrite (aget_nth p i 0) by (rewrite perm_len; lia). cbn [bind].
    rewrite (rd_some _ _ 0%Qc) by (rewrite Hz; apply perm_lt; auto). reflexivity.
  Qed.

  (** the vector w with w[p[i]] = z[i] *)
  Lemma unpermute z : length z = n -> exists w, length w = n /\ forall i, i < n -> vat w (nth i p 0) = vat z i.
  Proof using Hp.
    intros Hz. destruct (permute_in_ok z (alloc n) Hz (alloc_length n)) as (w & _ & H1 & H2). eauto.
  Qed.
End Perm.

Lemma mv_mm n A B x i : mv n (mm n A B) x i = mv n A (mv n B x) i.
Proof.
  unfold mv, mm.
  rewrite (sumf_ext n _ (fun j => sumf n (fun l => A i l * B l j * x j)%Qc)) by (intros; rewrite <- sumf_scal_r; auto).
  rewrite sumf_swap. apply sumf_ext. intros l Hl. rewrite <- sumf_scal. apply sumf_ext. intros; ring.
Qed.

(** Solving with the factors solves the original system. *)
Lemma lu_correct n (A L U : mat) pr pc b tb t z :
  is_perm n pr -> is_perm n pc ->
  (forall i j, i < n -> j < n -> A i j = mm n L U (nth i pr 0) (nth j pc 0)) ->
  length b = n ->
  (forall i, i < n -> vat tb (nth i pr 0) = vat b i) ->
  the_solution n L tb t -> the_solution n U t z ->
  the_solution n A b (tab n (fun i => vat z (nth i pc 0))).
Proof.
  intros Hr Hc HA Hb Htb HL HU.
  destruct (proj2 (HL t) eq_refl) as [Lt Ht]. destruct (proj2 (HU z) eq_refl) as [Lz Hz].
  assert (Hprod : forall (x w : list Qc), (forall j, j < n -> vat w (nth j pc 0) = vat x j) ->
     forall i, i < n -> mv n A (vat x) i = mv n L (mv n U (vat w)) (nth i pr 0)).
  { intros x w Hw i Hi. rewrite <- mv_mm. unfold mv at 1.
    rewrite (sumf_ext n _ (fun j => (fun k => mm n L U (nth i pr 0%nat) k * vat w k)%Qc (nth j pc 0%nat))).
    - rewrite (sumf_perm n pc Hc (fun k => mm n L U (nth i pr 0%nat) k * vat w k)%Qc). reflexivity.
    - intros j Hj. cbn beta. rewrite HA, Hw by auto. auto. }
  intros x. split.
  - intros [Lx Hx]. destruct (unpermute n pc Hc x Lx) as (w & Lw & Hw).
    assert (Hwz : w = z).
    { apply HU. split; auto. intros i Hi.
      assert (Ht' : tab n (mv n U (vat w)) = t).
      { apply HL. split; [apply tab_length|]. intros k Hk. destruct (perm_onto n pr Hr k Hk) as (i' & Hi' & <-).
        rewrite Htb, <- Hx by auto. rewrite (Hprod x w Hw) by auto.
        unfold mv at 1 3. apply sumf_ext. intros l Hl. rewrite vat_tab by auto. auto. }
      rewrite <- Ht', vat_tab by auto. auto. }
    subst w. apply (eq_tab _ _ _ 0%Qc); auto. intros i Hi. fold (vat x i). rewrite Hw; auto.
  - intros ->. split; [apply tab_length|]. intros i Hi.
    rewrite (Hprod _ z) by (auto; intros j Hj; rewrite vat_tab by auto; auto).
    rewrite <- (Htb i Hi), <- Ht by (apply (perm_lt n pr Hr); auto).
    unfold mv at 1 3. apply sumf_ext. intros l Hl. rewrite Hz by auto. auto.
Qed.

Lemma the_solution_ext n A B b c x : (forall i j, i < n -> j < n -> A i j = B i j) -> (forall i, i < n -> vat b i = vat c i) ->
  the_solution n A b x -> the_solution n B c x.
Proof.
  intros HA Hb H z. rewrite <- (H z). unfold is_solution. split; intros [Hl He]; split; auto; intros i Hi.
  - rewrite Hb, <- He by auto. apply sumf_ext. intros j Hj. rewrite HA by auto. auto.
  - rewrite <- Hb, <- He by auto. apply sumf_ext. intros j Hj. rewrite HA by auto. auto.
Qed.

Lemma repeat_tab {A} (x : A) n : repeat x n = tab n (fun _ => x).
Proof. induction n as [|n IH]; [reflexivity|]. rewrite tab_S, <- IH. rewrite <- repeat_cons. reflexivity. Qed.
Lemma repeat_some0 n : repeat (Some 0%Qc) n = map Some (tab n (fun _ => 0%Qc)).
Proof. rewrite repeat_tab. unfold tab. rewrite map_map. reflexivity. Qed.

Section LU.
  Variables (n : nat) (Lip Lind : list nat) (Ldat : list Qc) (Uip Uind : list nat) (Udat : list Qc) (pr pc : list nat) (A : mat).
  Hypothesis HL : lower_cols n Lip Lind Ldat.
  Hypothesis HU : upper_cols n Uip Uind Udat.
  Hypothesis Hone : forall i, i < n -> colmat Lip Lind Ldat i i = 1%Qc.
  Hypothesis Hr : is_perm n pr.
  Hypothesis Hc : is_perm n pc.
  Hypothesis HA : forall i j, i < n -> j < n ->
    A i j = mm n (colmat Lip Lind Ldat) (colmat Uip Uind Udat) (nth i pr 0) (nth j pc 0).

  Lemma fwd_unit b : length b = n -> exists y,
    forward_solve_csc Lip Lind Ldat b (map Some (tab n (fun _ => 0%Qc))) true = Ok (map Some y) /\
    the_solution n (colmat Lip Lind Ldat) b y /\ length y = n.
  Proof using HL Hone.
    clear A HA Hr Hc pr pc HU Uip Uind Udat. intros Hb. destruct (forward_solve_csc_ok n Lip Lind Ldat true b (tab n (fun _ => 0%Qc)) HL Hb (tab_length n _)) as (y & E & Hy).
    exists y. split; auto.
    assert (Hs : the_solution n (colmat Lip Lind Ldat) b y).
    { apply (the_solution_ext _ _ _ _ b _) with (3 := Hy).
      - intros i j Hi Hj. unfold unit_or, with_diag. destruct (Nat.eqb_spec i j); [subst; rewrite Hone|]; auto.
      - intros i Hi. rewrite !vat_tab by auto. ring. }
    split; auto. destruct (proj2 (Hs y) eq_refl); auto.
  Qed.

  Lemma bwd_zero b : length b = n -> exists y,
    backward_solve_csc Uip Uind Udat b (map Some (tab n (fun _ => 0%Qc))) = Ok (map Some y) /\
    the_solution n (colmat Uip Uind Udat) b y /\ length y = n.
  Proof using HU.
    clear A HA Hr Hc pr pc HL Hone Lip Lind Ldat. intros Hb. destruct (backward_solve_csc_ok n Uip Uind Udat b (tab n (fun _ => 0%Qc)) HU Hb (tab_length n _)) as (y & E & Hy).
    exists y. split; auto.
    assert (Hs : the_solution n (colmat Uip Uind Udat) b y).
    { apply (the_solution_ext _ _ _ _ b _) with (3 := Hy); auto.
      intros i Hi. rewrite !vat_tab by auto. ring. }
    split; auto. destruct (proj2 (Hs y) eq_refl); auto.
  Qed.

  Lemma solve_LU_ok b : length b = n -> exists x,
    solve_LU Lip Lind Ldat Uip Uind Udat pr pc b = Ok (map Some x) /\ the_solution n A b x.
  Proof using All.
    intros Hb. unfold solve_LU. rewrite Hb.
    destruct (permute_in_ok n pr Hr b (alloc n) Hb (alloc_length n)) as (tb & E1 & L1 & V1).
    rewrite E1. cbn [bind]. rewrite all_init_some. cbn [bind]. rewrite repeat_some0.
    destruct (fwd_unit tb L1) as (t & E2 & S2 & L2). rewrite E2. cbn [bind].
    rewrite set0_ok, map_length, L1. cbn [bind]. rewrite all_init_some. cbn [bind].
    destruct (bwd_zero t L2) as (z & E3 & S3 & L3). rewrite E3. cbn [bind].
    rewrite (permute_out_ok n pc Hc) by (rewrite ?map_length; auto). eexists; split; [reflexivity|].
    apply (lu_correct n A (colmat Lip Lind Ldat) (colmat Uip Uind Udat) pr pc b tb t z); auto.
  Qed.

  Lemma lu_solver_solve_ok b x0 temp : length b = n -> length x0 = n -> length temp = n -> exists x,
    lu_solver_solve Lip Lind Ldat Uip Uind Udat pr pc b x0 temp = Ok (map Some x) /\ the_solution n A b x.
  Proof using All.
    intros Hb Hx Ht. unfold lu_solver_solve. rewrite (perm_len n pc Hc).
    destruct (permute_in_ok n pr Hr b temp Hb Ht) as (tb & E1 & L1 & V1).
    rewrite E1. cbn [bind]. rewrite set0_ok, Hx. cbn [bind]. rewrite all_init_some. cbn [bind].
    destruct (fwd_unit tb L1) as (t & E2 & S2 & L2). rewrite E2. cbn [bind].
    rewrite set0_ok, map_length, L1. cbn [bind]. rewrite all_init_some. cbn [bind].
    destruct (bwd_zero t L2) as (z & E3 & S3 & L3). rewrite E3. cbn [bind].
    rewrite (permute_out_ok n pc Hc) by (rewrite ?map_length; auto). eexists; split; [reflexivity|].
    apply (lu_correct n A (colmat Lip Lind Ldat) (colmat Uip Uind Udat) pr pc b tb t z); auto.
  Qed.

  Lemma ilu_solver_solve_ok b x0 temp1 temp2 : length b = n -> length x0 = n -> length temp1 = n -> length temp2 = n -> exists x,
    ilu_solver_solve Lip Lind Ldat Uip Uind Udat pr pc b x0 temp1 temp2 = Ok (map Some x) /\ the_solution n A b x.
  Proof using All.
    intros Hb Hx Ht Ht2. unfold ilu_solver_solve. rewrite Hx.
    rewrite set0_ok, Ht. cbn [bind].
    destruct (permute_in_ok n pr Hr b temp2 Hb Ht2) as (tb & E1 & L1 & V1).
    rewrite E1. cbn [bind]. rewrite all_init_some. cbn [bind].
    destruct (fwd_unit tb L1) as (t & E2 & S2 & L2). rewrite E2. cbn [bind].
    rewrite set0_ok, map_length, L1. cbn [bind]. rewrite all_init_some. cbn [bind].
    destruct (bwd_zero t L2) as (z & E3 & S3 & L3). rewrite E3. cbn [bind].
    rewrite (permute_out_ok n pc Hc) by (rewrite ?map_length; auto). eexists; split; [reflexivity|].
    apply (lu_correct n A (colmat Lip Lind Ldat) (colmat Uip Uind Udat) pr pc b tb t z); auto.
  Qed.
End LU.

(** * Cholesky: the two triangular systems combined *)
Lemma two_step n (L U : mat) b t x : the_solution n L b t -> the_solution n U t x -> the_solution n (mm n L U) b x.
Proof.
  intros HL HU z. destruct (proj2 (HL t) eq_refl) as [Lt Ht]. destruct (proj2 (HU x) eq_refl) as [Lx Hx]. split.
  - intros [Lz Hz]. apply HU. split; auto. intros i Hi.
    assert (tab n (mv n U (vat z)) = t) as <-; [|rewrite vat_tab; auto].
    apply HL. split; [apply tab_length|]. intros k Hk. rewrite <- Hz by auto. rewrite mv_mm.
    unfold mv at 1 3. apply sumf_ext. intros l Hl. rewrite vat_tab by auto. auto.
  - intros ->. split; auto. intros i Hi. rewrite mv_mm, <- Ht by auto.
    unfold mv at 1 3. apply sumf_ext. intros l Hl. rewrite Hx by auto. auto.
Qed.

Lemma solve_cholesky_ok n ip ind dat b : lower_cols n ip ind dat -> length b = n ->
  exists x, solve_cholesky ip ind dat b = Ok (map Some x) /\
    the_solution n (mm n (colmat ip ind dat) (mt (colmat ip ind dat))) b x.
Proof.
  intros HL Hb. unfold solve_cholesky. rewrite Hb, repeat_some0.
  destruct (forward_solve_csc_ok n ip ind dat false b (tab n (fun _ => 0%Qc)) HL Hb (tab_length n _)) as (t & E & Ht).
  rewrite E. cbn [bind].
  assert (Hs : the_solution n (colmat ip ind dat) b t).
  { apply (the_solution_ext _ _ _ _ b _) with (3 := Ht); auto. intros i Hi. rewrite !vat_tab by auto. ring. }
  destruct (proj2 (Hs t) eq_refl) as [Lt _].
  destruct (backward_solve_csr_gen_ok n ip ind dat (fun y i => rd y i) t (map Some t)) as (x & E2 & Hx).
  - destruct HL as [wf HL]. split; auto. intros i Hi. destruct (HL i Hi) as (d & rest & Er & Hd & Hr).
    exists d, [], rest. split; auto. split; auto. split; auto. intros p [].
  - rewrite map_length; auto.
  - intros y' i Hi Hy. unfold rd. rewrite Hy. erewrite map_nth_error by (apply nth_error_vat; lia). reflexivity.
  - exists x. split; auto. apply (two_step n _ _ b t); auto.
    apply (the_solution_ext _ _ _ _ t _) with (3 := Hx); auto.
    intros i j Hi Hj. unfold upper_part, mt, rowmat, colmat. destruct (Nat.leb_spec i j); auto.
    symmetry. destruct (proj2 HL i Hi) as (d & rest & -> & _ & Hr). apply ent_absent.
    intros p [<-|Hp]; cbn [fst]; [lia|]. specialize (Hr p Hp). lia.
Qed.

Lemma ichol_solver_solve_ok n ip ind dat idiag b (x0 temp : buf Qc) :
  strict_above n ip ind dat -> length idiag = n -> (forall i, i < n -> vat idiag i <> 0%Qc) ->
  length b = n -> length x0 = n -> length temp = n ->
  exists x, ichol_solver_solve ip ind dat idiag b x0 temp = Ok (map Some x) /\
    let L := with_diag (colmat ip ind dat) (fun i => / vat idiag i)%Qc in
    the_solution n (mm n L (mt L)) b x.
Proof.
  intros HS Hd Hnz Hb Hx Ht. unfold ichol_solver_solve. rewrite set0_ok, Ht. cbn [bind].
  destruct (forward_solve_sss_ok n ip ind dat true false idiag b (tab n (fun _ => 0%Qc)) HS Hd Hnz Hb (tab_length n _)) as (t & E & S).
  unfold forward_solve_sss_noInverse. rewrite E. cbn [bind]. rewrite all_init_some. cbn [bind].
  set (L := with_diag (colmat ip ind dat) (fun i => / vat idiag i)%Qc).
  assert (Hs : the_solution n L b t).
  { apply (the_solution_ext _ _ _ _ b _) with (3 := S); auto. intros i Hi. rewrite !vat_tab by auto. ring. }
  destruct (proj2 (Hs t) eq_refl) as [Lt _].
  destruct (backward_solve_sss_ok n ip ind dat true idiag t x0 HS Hd Hnz Lt Hx) as (x & E2 & S2).
  exists x. split; auto. cbn zeta. apply (two_step n _ _ b t); auto.
  apply (the_solution_ext _ _ _ _ t _) with (3 := S2); auto.
  intros i j Hi Hj. unfold mt, L, with_diag, rowmat, colmat, stored_diag.
  rewrite (Nat.eqb_sym j i). destruct (Nat.eqb_spec i j); subst; auto.
Qed.
