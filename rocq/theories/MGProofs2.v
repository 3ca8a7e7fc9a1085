(** Consistency of the cycle; the solve loop, full multigrid, the preconditioner. *)
From Verif Require Import Util Lin CSRModel CSRProofs TriModel TriSpec TriProofs TriProofs3 SmootherModel SmootherSpec SmootherProofs3 SmootherProofs4 MGModel MGSpec MGProofs.
Set Default Proof Using "Type".

Lemma vat_zeros n i : vat (zeros n) i = 0%Qc.
Proof.
  destruct (Nat.lt_ge_cases i n) as [Hi|Hi]; [apply vat_tab; auto|]. apply vat_overflow. unfold zeros. rewrite tab_length. auto.
Qed.

Lemma mv_zero m A x i : (forall j, j < m -> x j = 0%Qc) -> mv m A x i = 0%Qc.
Proof. intros Hx. apply sumf_zero. intros j Hj. rewrite Hx by auto. ring. Qed.

Lemma resid_zeros n A b : length b = n -> resid n A b (zeros n) = b.
Proof.
  intros Hb. symmetry. apply (eq_tab _ _ _ 0%Qc Hb). intros i Hi. rewrite mv_zero by (intros; apply vat_zeros).
  change (nth i b 0%Qc) with (vat b i). ring.
Qed.

Lemma resid_solved n A b x : solves n A b x -> resid n A b x = zeros n.
Proof. intros (_ & _ & Hs). apply tab_ext. intros i Hi. rewrite Hs by auto. ring. Qed.

Lemma iter_fixed {X} (f : X -> X) k x : f x = x -> Nat.iter k f x = x.
Proof. intros E. induction k as [|k IH]; cbn [Nat.iter nat_rect]; auto. change (f (Nat.iter k f x) = x). rewrite IH. auto. Qed.

Lemma iter_const {X} (f : X -> X) k x c : 0 < k -> (forall y, f y = c) -> Nat.iter k f x = c.
Proof. intros Hk E. destruct k as [|k]; [lia|]. cbn [Nat.iter nat_rect]. apply E. Qed.

(** The coarse problem of a solved fine problem has a zero solution. *)
Lemma mg_fixed H top cyc : consistent H top ->
  forall l b x, l <= top -> solves (dim H l) (hA H l) b x -> (l = 0 -> b = zeros (dim H 0) /\ x = zeros (dim H 0)) -> mg H cyc l b x = x.
Proof.
  intros [HC HS]. induction l as [|l IH]; intros b x Hl Hs H0.
  - destruct (H0 eq_refl) as [-> ->]. exact HC.
  - cbn [mg]. rewrite (HS (S l) false b x) by (auto; lia). rewrite (resid_solved _ _ _ _ Hs).
    assert (Ed : tab (dim H l) (mv (dim H (S l)) (hR H (S l)) (vat (zeros (dim H (S l))))) = zeros (dim H l)).
    { apply tab_ext. intros i Hi. apply mv_zero. intros; apply vat_zeros. }
    rewrite Ed. change (tab (dim H l) (fun _ => 0%Qc)) with (zeros (dim H l)).
    rewrite iter_fixed.
    + assert (Ex : tab (dim H (S l)) (fun i => vat x i + mv (dim H l) (hP H (S l)) (vat (zeros (dim H l))) i)%Qc = x).
      { symmetry. apply (eq_tab _ _ _ 0%Qc (proj1 Hs)). intros i Hi. rewrite mv_zero by (intros; apply vat_zeros).
        change (nth i x 0%Qc) with (vat x i). ring. }
      rewrite Ex. apply HS; auto; lia.
    + apply IH; [lia| |auto]. split; [apply tab_length|]. split; [apply tab_length|]. intros i Hi. rewrite vat_zeros. apply mv_zero. intros; apply vat_zeros.
Qed.

Lemma mv_mm_rect n m A B x i : mv m (mm n A B) x i = mv n A (mv m B x) i.
Proof.
  unfold mv, mm.
  rewrite (sumf_ext m _ (fun j => sumf n (fun l => A i l * B l j * x j)%Qc)) by (intros; rewrite <- sumf_scal_r; auto).
  rewrite sumf_swap. apply sumf_ext. intros l Hl. rewrite <- sumf_scal. apply sumf_ext. intros; ring.
Qed.

Lemma mv_minus n A x y i : mv n A (fun j => x j - y j)%Qc i = (mv n A x i - mv n A y i)%Qc.
Proof. unfold mv. rewrite <- sumf_minus. apply sumf_ext. intros; ring. Qed.
Lemma mv_plus n A x y i : mv n A (fun j => x j + y j)%Qc i = (mv n A x i + mv n A y i)%Qc.
Proof. unfold mv. rewrite <- sumf_plus. apply sumf_ext. intros; ring. Qed.

(** The coarse-grid correction removes the restricted residual. *)
Lemma coarse_correction n m A R P Ac b y c : length y = n ->
  (forall i j, i < m -> j < m -> mm n (mm n R A) P i j = Ac i j) ->
  (forall i, i < m -> mv m Ac (vat c) i = mv n R (vat (resid n A b y)) i) ->
  forall i, i < m -> mv n R (vat (resid n A b (tab n (fun i => vat y i + mv m P (vat c) i)%Qc))) i = 0%Qc.
Proof.
  intros Hy HG Hc i Hi.
  assert (E : mv n R (vat (resid n A b (tab n (fun i => vat y i + mv m P (vat c) i)%Qc))) i =
              (mv n R (vat (resid n A b y)) i - mv m (mm n (mm n R A) P) (vat c) i)%Qc).
  { rewrite !mv_mm_rect. rewrite <- mv_minus. apply mv_ext. intros k Hk.
    unfold resid. rewrite !vat_tab by auto.
    rewrite (mv_ext n A _ (fun j => vat y j + mv m P (vat c) j)%Qc k) by (intros; apply vat_tab; auto).
    rewrite mv_plus. ring. }
  rewrite E, <- Hc by auto. unfold mv. rewrite <- sumf_minus. apply sumf_zero. intros j Hj. rewrite HG by auto. ring.
Qed.

Section Solve.
  Variables (H : hierarchy) (top : nat) (levels : list level) (coarse : list Qc -> buf Qc -> res (buf Qc)).
  Hypothesis Hreal : realises H top levels coarse.
  Hypothesis Htop : 0 < top.

  Lemma call_ok cyc l mem simple b x : 0 < l <= top -> mem_ok (dim H) top mem -> holds mem l b x ->
    (simple = true -> forall i, i < dim H l -> vat x i = 0%Qc) ->
    exists mem', solveOnLevel levels coarse cyc l mem simple = Ok mem' /\ after H top mem mem' l b (mg H cyc l b x).
  Proof using Hreal.
    clear Htop. intros Hl Hm Hh Hs. destruct (solveOnLevel_ok H top levels coarse Hreal cyc l mem simple b (map Some x)) as (mem' & E & A); auto; try lia.
    - right. exists x. auto.
    - exists mem'. split; auto.
  Qed.

  Lemma holds_len mem l b x : mem_ok (dim H) top mem -> holds mem l b x -> length b = dim H l /\ length x = dim H l.
  Proof. intros [_ Hm] E. destruct (Hm _ _ E) as [L1 L2]. cbn [fst snd] in *. rewrite map_length in *. auto. Qed.

  Lemma residual_ok b x simple : length b = dim H top -> length x = dim H top ->
    (simple = true -> forall i, i < dim H top -> vat x i = 0%Qc) ->
    forall T (k : list Qc -> res T),
    (lvl <- aget levels (top - 1) ;; r <- l_residual lvl x b (alloc (l_n lvl)) simple ;; r <- all_init r ;; k r)
    = k (resid (dim H top) (hA H top) b x).
  Proof using Hreal Htop.
    intros Lb Lx Hs T k. destruct (level_ok H top levels coarse Hreal (top - 1)) as (lvl & El); [lia|].
    rewrite (aget_ok _ _ _ El). cbn [bind]. destruct Hreal as (_ & _ & HL). destruct (HL _ _ El) as (-> & HA & _).
    replace (S (top - 1)) with top in HA |- * by lia.
    destruct (HA x b (alloc (dim H top)) Lx Lb) as [E1 E2]; [unfold alloc; apply repeat_length|].
    destruct simple.
    - rewrite E2. cbn [bind]. rewrite all_init_some. cbn [bind]. f_equal.
      replace x with (zeros (dim H top)); [symmetry; apply resid_zeros; auto|].
      symmetry. apply (eq_tab _ _ _ 0%Qc Lx). intros i Hi. apply Hs; auto.
    - rewrite E1. cbn [bind]. rewrite all_init_some. reflexivity.
  Qed.

  Lemma tab_cons {A} n (f : nat -> A) : tab (S n) f = f 0 :: tab n (fun i => f (S i)).
  Proof. unfold tab. cbn [seq map]. rewrite <- seq_shift, map_map. reflexivity. Qed.

  Lemma iter_shift {X} k (f : X -> X) x : Nat.iter k f (f x) = Nat.iter (S k) f x.
  Proof. induction k as [|k IH]; [reflexivity|]. change (f (Nat.iter k f (f x)) = f (Nat.iter (S k) f x)). rewrite IH. reflexivity. Qed.

  (** * Full multigrid *)
  Lemma restricted_length k b : length b = dim H top -> length (restricted H top k b) = dim H (top - k).
  Proof. intros Hb. destruct k; cbn [restricted]; [rewrite Nat.sub_0_r; auto|apply tab_length]. Qed.

  Lemma mg0 cyc b x y : mg H cyc 0 b x = mg H cyc 0 b y.
  Proof. reflexivity. Qed.

  Lemma fmg_ok cyc mem b x : mem_ok (dim H) top mem -> nth_error mem top = Some (map Some b, x) ->
    exists mem', fmg levels coarse cyc top mem = Ok mem' /\
      after H top mem mem' top b (hS H top true b (nested H cyc top top b [])).
  Proof using Hreal Htop.
    intros Hm Et. pose proof Hm as [HL Hsz]. destruct (Hsz _ _ Et) as [Lb Lx]. cbn [fst snd] in *. rewrite map_length in Lb.
    unfold fmg.
    destruct (for_back_inv (fun k mem' => mem_ok (dim H) top mem' /\
      forall l, k <= l <= top -> exists z, nth_error mem' l = Some (map Some (restricted H top (top - l) b), z))
      (fun lvlNo mem => lvl <- aget levels lvlNo ;; b0 <- get_rhs mem (lvlNo + 1) ;; into_rhs mem lvlNo (l_R lvl b0)) top mem) as (mem1 & E1 & Hm1 & R1).
    { split; auto. intros l Hl. replace l with top by lia. rewrite Nat.sub_diag. eauto. }
    { intros k m Hk [Hmm HR]. destruct (level_ok H top levels coarse Hreal k Hk) as (lvl & El).
      rewrite (aget_ok _ _ _ El). cbn [bind]. destruct (HR (S k)) as (z & Ez); [lia|]. rewrite Nat.add_1_r.
      rewrite (get_rhs_ok _ _ _ _ Ez). cbn [bind].
      destruct (mem_slot H top m k Hmm) as (cb & cx & Ec & Lcb & Lcx); [lia|].
      pose proof Hreal as (_ & _ & HLv). destruct (HLv _ _ El) as (_ & _ & HRes & _ & _).
      assert (Lr : length (restricted H top (top - S k) b) = dim H (S k)) by (rewrite restricted_length by auto; f_equal; lia).
      rewrite (into_rhs_ok _ _ _ _ _ _ Ec (HRes _ cb Lr Lcb)). eexists; split; [reflexivity|]. split.
      - apply mem_upd; auto. rewrite map_length. apply tab_length.
      - intros l Hl. destruct (Nat.eq_dec l k) as [->|Hne].
        + rewrite nth_error_upd_eq by (apply nth_error_Some; congruence). eexists. f_equal. f_equal. f_equal.
          replace (top - k) with (S (top - S k)) by lia. cbn [restricted].
          replace (top - S (top - S k)) with k by lia. replace (top - (top - S k)) with (S k) by lia. reflexivity.
        + rewrite nth_error_upd_neq by auto. apply HR. lia. }
    rewrite E1. cbn [bind].
    assert (Hkeep : forall k, top < k -> nth_error mem1 k = nth_error mem k).
    { intros k Hk. destruct Hm1 as [L1 _]. rewrite !(proj2 (nth_error_None _ _)) by lia. reflexivity. }
    loop_inv (fun i mem' => mem_ok (dim H) top mem' /\
      (exists z, nth_error mem' i = Some (map Some (restricted H top (top - i) b), z) /\ (i = 0 \/ z = map Some (nested H cyc top i b []))) /\
      (forall l, i < l <= top -> exists z, nth_error mem' l = Some (map Some (restricted H top (top - l) b), z))) mem2 E2 HI2.
    3: { intros i m Hi (J1 & (z & J2 & Jz) & J3).
      destruct (solveOnLevel_ok H top levels coarse Hreal cyc i m false (restricted H top (top - i) b) z) as (m1 & F1 & A1); auto; [lia| |].
      { destruct Jz as [-> | ->]; [auto|]. right. eexists; split; [reflexivity|]. discriminate. }
      rewrite F1. cbn [bind].
      destruct (A1 (nested H cyc top i b [])) as (B1 & B2 & B3); [destruct Jz; auto|].
      destruct (level_ok H top levels coarse Hreal i) as (lvl & El); [lia|]. rewrite (aget_ok _ _ _ El). cbn [bind].
      rewrite (get_sol_ok _ _ _ _ B2). cbn [bind].
      destruct (J3 (S i)) as (z' & Ez'); [lia|]. rewrite <- B3 in Ez' by lia.
      pose proof B1 as [_ Sz]. destruct (Sz _ _ Ez') as [_ Lz']. cbn [snd] in Lz'.
      pose proof Hreal as (_ & _ & HLv). destruct (HLv _ _ El) as (_ & _ & _ & HPr & _).
      rewrite Nat.add_1_r. destruct (holds_len _ _ _ _ B1 B2) as [_ Lm].
      rewrite (into_sol_ok _ _ _ _ _ _ Ez' (HPr _ z' Lm Lz')). eexists; split; [reflexivity|]. split; [|split].
      - apply mem_upd; auto. { rewrite map_length, restricted_length by auto. f_equal. lia. } rewrite map_length. apply tab_length.
      - eexists. split; [apply nth_error_upd_eq; apply nth_error_Some; congruence|]. right. reflexivity.
      - intros l Hl. rewrite nth_error_upd_neq by lia. rewrite B3 by lia. apply J3. lia. }
    { lia. }
    { split; auto. split. { destruct (R1 0) as (z & Ez); [lia|]. eauto. } intros l Hl. apply R1. lia. }
    rewrite E2. cbn [bind]. destruct HI2 as (J1 & (z & J2 & Jz) & _). destruct Jz as [Jz|Jz]; [lia|]. subst z. rewrite Nat.sub_diag in J2. cbn [restricted] in J2.
    assert (Hh : holds mem2 top b (nested H cyc top top b [])) by exact J2.
    destruct (holds_len _ _ _ _ J1 Hh) as [_ Ln].
    destruct top as [|t]; [lia|].
    destruct (smooth_ok H (S t) levels coarse Hreal mem2 t true false b (nested H cyc (S t) (S t) b []) J1 (le_n _) Hh Lb Ln) as [E3 L3]; [discriminate|].
    cbv zeta in E3, L3. rewrite E3. eexists; split; [reflexivity|]. split; [|split].
    - apply mem_upd; auto; rewrite map_length; auto.
    - apply nth_error_upd_eq. apply nth_error_Some. congruence.
    - intros k Hk. rewrite nth_error_upd_neq by lia. destruct J1 as [L2 _]. rewrite !(proj2 (nth_error_None _ _)) by lia. reflexivity.
  Qed.

  Context {N : Type} (norm : list Qc -> N) (gt : N -> N -> bool).

  Let res_of b x := norm (resid (dim H top) (hA H top) b x).

  Lemma loop_ok cyc maxIter tol b : forall fuel iterNo mem simple x rs, mem_ok (dim H) top mem -> holds mem top b x ->
    (simple = true -> forall i, i < dim H top -> vat x i = 0%Qc) -> maxIter - iterNo <= fuel ->
    exists k mem', mg_loop levels coarse norm gt fuel cyc top maxIter tol iterNo mem simple (res_of b x) rs
        = Ok (iterNo + k, mem', rev (tab k (fun j => res_of b (Nat.iter (S j) (mg H cyc top b) x))) ++ rs) /\
      holds mem' top b (Nat.iter k (mg H cyc top b) x) /\
      (forall j, j < k -> gt (res_of b (Nat.iter j (mg H cyc top b) x)) tol = true) /\
      (k = 0 \/ iterNo + k <= maxIter) /\
      (iterNo + k < maxIter -> gt (res_of b (Nat.iter k (mg H cyc top b) x)) tol = false).
  Proof using Hreal Htop.
    induction fuel as [|fuel IH]; intros iterNo mem simple x rs Hm Hh Hs Hf.
    - cbn [mg_loop]. replace (iterNo <? maxIter) with false by (symmetry; apply Nat.ltb_ge; lia). rewrite andb_false_r.
      exists 0, mem. rewrite Nat.add_0_r. split; [reflexivity|]. split; [exact Hh|]. split; [intros; lia|]. split; [auto|]. intros; lia.
    - cbn [mg_loop]. destruct (gt (res_of b x) tol) eqn:Eg; cbn [andb].
      + destruct (iterNo <? maxIter) eqn:Ei.
        * apply Nat.ltb_lt in Ei. destruct (call_ok cyc top mem simple b x) as (mem1 & E1 & Hm1 & Hh1 & _); auto.
          rewrite E1. cbn [bind]. destruct (holds_len _ _ _ _ Hm1 Hh1) as [L1 L2].
          rewrite (get_sol_ok _ _ _ _ Hh1). cbn [bind]. rewrite (get_rhs_ok _ _ _ _ Hh1). cbn [bind].
          rewrite (residual_ok b (mg H cyc top b x) false L1 L2 ltac:(discriminate) _
             (fun r => mg_loop levels coarse norm gt fuel cyc top maxIter tol (iterNo + 1) mem1 false (norm r) (norm r :: rs))).
          destruct (IH (iterNo + 1) mem1 false (mg H cyc top b x) (res_of b (mg H cyc top b x) :: rs)) as (k & mem' & E & A1 & A2 & A3 & A4); auto; [discriminate|lia|].
          exists (S k), mem'. split; [|split; [|split; [|split]]].
          -- etransitivity; [exact E|]. f_equal. f_equal; [f_equal; lia|]. rewrite tab_cons. cbn [rev]. rewrite <- app_assoc. cbn [app].
             f_equal. f_equal. apply tab_ext. intros j Hj. unfold res_of. rewrite iter_shift. reflexivity.
          -- rewrite <- iter_shift. exact A1.
          -- intros [|j] Hj; [exact Eg|]. rewrite <- iter_shift. apply A2. lia.
          -- right. lia.
          -- intros Hlt. rewrite <- iter_shift. apply A4. lia.
        * apply Nat.ltb_ge in Ei. exists 0, mem. rewrite Nat.add_0_r. split; [reflexivity|]. split; [exact Hh|]. split; [intros; lia|].
          split; [auto|]. intros; lia.
      + exists 0, mem. rewrite Nat.add_0_r. split; [reflexivity|]. split; [exact Hh|]. split; [intros; lia|]. split; [auto|]. intros; exact Eg.
  Qed.

  (** * The whole solver *)
  Lemma mem_set mem b x : mem_ok (dim H) top mem -> length b = dim H top -> length x = dim H top ->
    exists mem', aset mem top (b, x) = Ok mem' /\ mem_ok (dim H) top mem' /\ nth_error mem' top = Some (b, x).
  Proof.
    clear Htop. intros Hm Hb Hx. pose proof Hm as [HL _]. rewrite aset_ok by lia. eexists; split; [reflexivity|]. split; [apply mem_upd; auto|].
    apply nth_error_upd_eq. lia.
  Qed.

  Definition start (cycle : cycleType) (k : nat) (x0 : option (list Qc)) b : list Qc :=
    match cycle with
    | V | W => match x0 with None => zeros (dim H top) | Some x0 => x0 end
    | FMG_V | FMG_W => hS H top true b (nested H k top top b [])
    end.

  Lemma solve_ok cycle maxIter tol x0 mem b x : mem_ok (dim H) top mem -> length b = dim H top -> length x = dim H top ->
    (forall v, x0 = Some v -> length v = dim H top) ->
    let cyc := match cycle with V | FMG_V => 1 | W | FMG_W => 2 end in
    let off := match cycle with V | W => 0 | FMG_V | FMG_W => 1 end in
    let it := fun k => Nat.iter k (mg H cyc top b) (start cycle cyc x0 b) in
    exists k, mg_solve levels coarse norm gt cycle top maxIter tol x0 mem b x
        = Ok (off + k, it k, tab (S k) (fun j => res_of b (it j))) /\
      (forall j, j < k -> gt (res_of b (it j)) tol = true) /\
      (k = 0 \/ off + k <= maxIter) /\
      (off + k < maxIter -> gt (res_of b (it k)) tol = false).
  Proof using Hreal Htop.
    intros Hm Lb Lx Hx0 cyc off it. unfold mg_solve.
    set (s0 := match x0 with None => zeros (dim H top) | Some x0 => x0 end).
    assert (Ls0 : length s0 = dim H top) by (unfold s0; destruct x0; [auto|apply tab_length]).
    assert (E0 : match x0 with None => set0 x | Some x0 => assign x x0 end = Ok (map Some s0)).
    { unfold s0. destruct x0 as [v|].
      - apply assign_ok. rewrite (Hx0 v) by auto. auto.
      - rewrite set0_ok, Lx. reflexivity. }
    rewrite E0. cbn [bind].
    destruct (mem_set mem (map Some b) (map Some s0) Hm) as (mem1 & E1 & Hm1 & Hh1); try (rewrite map_length; auto).
    rewrite E1. cbn [bind]. fold cyc.
    set (simple := if match cycle with V | W => false | _ => true end then false else match x0 with None => true | Some _ => false end).
    assert (E2 : exists mem2, (if match cycle with V | W => false | _ => true end then fmg levels coarse cyc top mem1 else Ok mem1) = Ok mem2 /\
       mem_ok (dim H) top mem2 /\ holds mem2 top b (start cycle cyc x0 b) /\
       (simple = true -> forall i, i < dim H top -> vat (start cycle cyc x0 b) i = 0%Qc)).
    { destruct (fmg_ok cyc mem1 b (map Some s0) Hm1 Hh1) as (mem2 & E2 & A1 & A2 & _).
      unfold simple. destruct cycle; cbn [start].
      - exists mem1. split; auto. split; auto. split; [exact Hh1|]. unfold s0. destruct x0; [discriminate|]. intros; apply vat_zeros.
      - exists mem1. split; auto. split; auto. split; [exact Hh1|]. unfold s0. destruct x0; [discriminate|]. intros; apply vat_zeros.
      - exists mem2. split; auto. split; auto. split; [exact A2|discriminate].
      - exists mem2. split; auto. split; auto. split; [exact A2|discriminate]. }
    destruct E2 as (mem2 & E2 & Hm2 & Hh2 & Hsim). rewrite E2. cbn [bind].
    destruct (holds_len _ _ _ _ Hm2 Hh2) as [_ Ls].
    assert (Hr := residual_ok b (start cycle cyc x0 b) simple Lb Ls Hsim). 
    destruct (level_ok H top levels coarse Hreal (top - 1)) as (lvl & El); [lia|]. rewrite (aget_ok _ _ _ El) in Hr |- *. cbn [bind] in Hr |- *.
    rewrite (get_sol_ok _ _ _ _ Hh2). cbn [bind]. rewrite Hr.
    replace (if match cycle with V | W => false | _ => true end then 1 else 0) with off by (unfold off; destruct cycle; reflexivity).
    destruct (loop_ok cyc maxIter tol b maxIter off mem2 simple (start cycle cyc x0 b) [res_of b (start cycle cyc x0 b)] Hm2 Hh2 Hsim) as (k & mem3 & E3 & A1 & A2 & A3 & A4); [lia|].
    unfold res_of in E3. rewrite E3. cbn [bind fst snd].
    rewrite (get_sol_ok _ _ _ _ A1). cbn [bind]. exists k. split; [|auto].
    f_equal. f_equal. rewrite rev_app_distr, rev_involutive. cbn [rev app]. rewrite tab_cons. reflexivity.
  Qed.

  Lemma prec_ok cyc maxIter mem b y : mem_ok (dim H) top mem -> length b = dim H top -> length y = dim H top ->
    mg_prec levels coarse cyc top maxIter mem b y = Ok (Nat.iter maxIter (mg H cyc top b) (zeros (dim H top))).
  Proof using Hreal Htop.
    intros Hm Lb Ly. unfold mg_prec. rewrite set0_ok, Ly. cbn [bind]. fold (zeros (dim H top)).
    destruct (mem_set mem (map Some b) (map Some (zeros (dim H top))) Hm) as (mem1 & E1 & Hm1 & Hh1).
    { rewrite map_length; auto. } { rewrite map_length; apply tab_length. }
    rewrite E1. cbn [bind].
    loop_inv (fun i mem' => mem_ok (dim H) top mem' /\ holds mem' top b (Nat.iter i (mg H cyc top b) (zeros (dim H top)))) mem2 E2 HI2.
    3: { intros i m Hi [J1 J2].
      destruct (call_ok cyc top m (i =? 0) b (Nat.iter i (mg H cyc top b) (zeros (dim H top)))) as (m' & F & A1 & A2 & _); auto.
      { intros Hi0. apply Nat.eqb_eq in Hi0. subst i. intros; apply vat_zeros. }
      exists m'. split; auto. }
    { lia. } { split; auto. }
    rewrite E2. cbn [bind]. destruct HI2 as [_ J]. apply (get_sol_ok _ _ _ _ J).
  Qed.
End Solve.
