(** The inverses of block triangular operators, as they are built. *)
From Verif Require Import Util Lin CSRModel DenseModel SmootherModel CompModel CompSpec CompProofs CompProofs2 CompProofs3 CompProofs4 CompProofs5 CompProofs6 CompProofs7 BlockInvModel BlockInvSpec BlockInvProofs BlockInvProofs2.
Local Open Scope nat_scope.
Set Default Proof Using "Type".

Lemma bind_ext {A B} (r : res A) (f g : A -> res B) : (forall a, f a = g a) -> bind r f = bind r g.
Proof. intros H. destruct r; cbn; auto. Qed.
Lemma part_view ws v j : j < length ws -> v_len v = sum_nat ws ->
  (r0 <- aget (offsets 0 ws) j ;; r1 <- aget (offsets 0 ws) (j + 1) ;; subview v r0 r1) = Ok (part_of ws v j).
Proof.
  intros Hj Lv. pose proof (off_S ws j Hj) as OS. pose proof (off_bound ws j Hj) as OB. cbv zeta in OS, OB. rewrite !offsets_nth by lia. cbn [bind]. rewrite !Nat.add_0_l, (Nat.add_1_r j), OS.
  rewrite subview_ok by lia. unfold part_of. do 2 f_equal. lia.
Qed.
Lemma inverse_step_body ops invs ws t x y a b i row inv h : nth_error ops i = Some row -> nth_error invs i = Some inv -> i < length ws -> b <= length ws ->
  length row = length ws -> v_len x = sum_nat ws -> v_len y = sum_nat ws -> a <= b ->
  inverse_step ops invs (offsets 0 ws) (offsets 0 ws) (View t 0 (sum_nat ws)) x y a b i h =
  step_body t ws x y i a b (fun j => l_mv (nth j row (null_op 0 0)) false false) (l_mv inv false false) h.
Proof.
  intros Er Ei Hi Hb Lr Lx Ly Hab. unfold inverse_step, step_body.
  pose proof (off_S ws i Hi) as OS. pose proof (off_bound ws i Hi) as OB. cbv zeta in OS, OB.
  rewrite (aget_ok ops i row Er). cbn [bind]. rewrite !offsets_nth by lia. cbn [bind]. rewrite !Nat.add_0_l, (Nat.add_1_r i), OS.
  assert (ST : subview (View t 0 (sum_nat ws)) (sum_nat (firstn i ws)) (sum_nat (firstn i ws) + nth i ws 0) = Ok (View t (sum_nat (firstn i ws)) (nth i ws 0))).
  { rewrite subview_ok by (cbn [v_len]; lia). cbn [v_buf v_off]. do 2 f_equal. lia. }
  assert (SV : forall v, v_len v = sum_nat ws -> subview v (sum_nat (firstn i ws)) (sum_nat (firstn i ws) + nth i ws 0) = Ok (part_of ws v i)).
  { intros v Lv. rewrite subview_ok by lia. unfold part_of. do 2 f_equal. lia. }
  rewrite ST, (SV x Lx), (SV y Ly). unfold for_range.
  rewrite (for_n_ext (b - a) a _ (fun j h => h <- l_mv (nth j row (null_op 0 0)) false false (part_of ws y j) (View t (sum_nat (firstn i ws)) (nth i ws 0)) h ;;
      v_add (part_of ws y i) (View t (sum_nat (firstn i ws)) (nth i ws 0)) h)).
  - apply bind_ext. intros h1. cbn [bind]. apply bind_ext. intros h2. rewrite (aget_ok invs i inv Ei). cbn [bind]. reflexivity.
  - intros j h1 Hj. rewrite (aget_nth row j (null_op 0 0)) by lia. cbn [bind]. pose proof (part_view ws y j ltac:(lia) Ly) as PV.
    pose proof (off_S ws j ltac:(lia)) as OSj. cbv zeta in OSj. rewrite !offsets_nth in * by lia. cbn [bind] in *. rewrite PV. cbn [bind]. reflexivity.
Qed.
Lemma first_heights_ok lens rows ops : Forall2 (Forall2 (stands lens)) rows ops -> ~ In [] rows -> first_heights ops = Ok (sizes rows).
Proof.
  induction 1 as [|row orow rows ops H F IH]; intros Hne; [reflexivity|]. cbn [first_heights].
  inversion H as [Ea Eb|e o a' b' S1 H1 Ea Eb]; subst; [exfalso; apply Hne; left; auto|].
  cbn [aget nth_error bind]. rewrite IH by (intros X; apply Hne; right; auto). cbn [bind sizes map hd]. do 2 f_equal. apply S1.
Qed.
Lemma last_cols lens rows ops ws : Forall2 (Forall2 (stands lens)) rows ops -> rows <> [] -> (forall row, In row rows -> map (fun e => snd (dims e)) row = ws) ->
  map l_cols (last ops []) = ws.
Proof.
  induction 1 as [|row orow rows ops H F IH]; intros Hne Hw; [congruence|]. inversion F as [E1 E2|a2 b2 l2 l2' H2 F2 E1 E2]; subst.
  - cbn [last]. rewrite <- (Hw row (or_introl eq_refl)). clear - H. induction H as [|a b l l' (_ & E & _) H IH]; [reflexivity|]. cbn [map]. rewrite IH, E. reflexivity.
  - change (last (orow :: b2 :: l2') []) with (last (b2 :: l2') []). apply IH; [discriminate|]. intros r Hr. apply Hw. right; auto.
Qed.
Lemma scratch_entry rows i j : i < length rows -> j < length (nth i rows []) -> incl (scratch (entry rows i j)) (concat (map (fun row => concat (map scratch row)) rows)).
Proof.
  intros Hi Hj u Hu. apply in_concat. exists (concat (map scratch (nth i rows []))). split; [apply (in_map (fun row => concat (map scratch row))), nth_In; auto|].
  apply in_concat. exists (scratch (entry rows i j)). split; [apply in_map, nth_In; auto|exact Hu].
Qed.

Lemma blockInverse_ok lens (lower : bool) rows inverses t : triangular lens lower rows inverses t ->
  let n := sum_nat (sizes rows) in let T := scratch_all rows inverses t in
  exists f, blockInverse lower rows inverses t = Ok f /\ forall x y xs h, arguments lens T n n false x y xs [] h ->
  exists h' zs, f x y h = Ok h' /\ length zs = n /\ contents h' y = map Some zs /\
    (forall r, r < n -> mv n (meaning (EBlock rows t)) (vat zs) r = vat xs r) /\ only h h' (fun id k => In id T \/ touches y id k).
Proof.
  intros (HO & Hsq & Hoff & Hnull & Linv & HD) n T. set (ws := sizes rows) in *. set (N := length rows) in *.
  assert (Lws : length ws = N) by (unfold ws, sizes; apply map_length).
  pose proof HO as HO'. cbn [ok] in HO'. destruct HO' as (Hall & Hne & Hne' & _ & Hh & Hlt & Hnt).
  assert (Lrow : forall row, In row rows -> length row = N) by (intros row Hr; rewrite <- Lws, <- (Hsq row Hr), map_length; reflexivity).
  assert (OKe : forall row e, In row rows -> In e row -> ok lens e).
  { intros row e Hr He. apply (all_In _ _ (all_In _ _ Hall (in_map (fun row => all (map (ok lens) row)) _ _ Hr))). apply (in_map (ok lens)). exact He. }
  assert (Ent : forall i j, i < N -> j < N -> exists row, nth_error rows i = Some row /\ In row rows /\ nth_error row j = Some (entry rows i j) /\ In (entry rows i j) row).
  { intros i j Hi Hj. exists (nth i rows []). pose proof (nth_In rows [] Hi) as Hr. split; [apply nth_error_nth'; auto|]. split; [exact Hr|].
    split; [apply nth_error_nth'|apply nth_In]; rewrite Lrow by auto; auto. }
  assert (Dent : forall i j, i < N -> j < N -> dims (entry rows i j) = (nth i ws 0, nth j ws 0)).
  { intros i j Hi Hj. destruct (Ent i j Hi Hj) as (row & Er & Hr & Ee & He). rewrite (surjective_pairing (dims (entry rows i j))). f_equal.
    - unfold ws, sizes. symmetry. rewrite (nth_error_nth (map _ rows) i 0 (map_nth_error _ _ _ Er)). destruct row as [|e0 row]; [destruct He|]. cbn [map hd]. apply (Hh (e0 :: row)); auto. left; auto.
    - rewrite <- (Hsq row Hr). symmetry. apply nth_error_nth. rewrite nth_error_map, Ee. reflexivity. }
  (* the operators *)
  destruct (sequence_ok (fun row => sequence (map build row)) (Forall2 (stands lens)) rows) as (ops & Eops & FO).
  { intros row Hr. apply sequence_ok. intros e He. destruct (build_sound lens e (OKe row e Hr He)) as (o & E & S & _). exists o. auto. }
  destruct (sequence_ok build (stands lens) inverses) as (invs & Einvs & FI).
  { intros e He. apply (In_nth _ _ (ENull 0 0)) in He as (i & Hi & <-). rewrite Linv in Hi. destruct (HD i Hi) as (OD & _).
    destruct (build_sound lens _ OD) as (o & E & S & _). exists o. auto. }
  destruct (build_sound lens (EBlock rows t) HO) as (base & Eb & (Bn & _) & _). cbn [build] in Eb. rewrite Eops in Eb. cbn [bind] in Eb.
  assert (Dn : fst (dims (EBlock rows t)) = n) by reflexivity. rewrite Dn in Bn.
  unfold blockInverse. rewrite Eops. cbn [bind]. rewrite Einvs. cbn [bind]. rewrite Eb. cbn [bind]. fold N.
  assert (N0 : 0 < N) by (unfold N; destruct rows; [congruence|cbn; lia]).
  rewrite (aget_nth rows 0 []) by auto. cbn [bind]. rewrite (Lrow (nth 0 rows [])) by (apply nth_In; auto).
  assert (CK : for_range 0 N (fun i (_ : unit) => row <- aget rows i ;;
      let check lo hi := for_range lo hi (fun j _ => e <- aget row j ;; guard (is_null e) EAssert) tt in if lower then check (i + 1) N else check 0 i) tt = Ok tt).
  { destruct (for_range_inv (fun _ (u : unit) => u = tt) (fun i (_ : unit) => row <- aget rows i ;;
      let check lo hi := for_range lo hi (fun j _ => e <- aget row j ;; guard (is_null e) EAssert) tt in if lower then check (i + 1) N else check 0 i) 0 N tt) as (u & E & ->); [lia|reflexivity| |exact E].
    intros i u Hi _. exists tt. split; [|reflexivity]. rewrite (aget_nth rows i []) by (fold N; lia). cbn [bind]. cbv zeta.
    assert (G : forall lo hi, lo <= hi -> hi <= N -> (forall j, lo <= j < hi -> is_null (entry rows i j) = true) ->
      for_range lo hi (fun j (_ : unit) => e <- aget (nth i rows []) j ;; guard (is_null e) EAssert) tt = Ok tt).
    { intros lo hi H1 H2 H3. destruct (for_range_inv (fun _ (u : unit) => u = tt) (fun j (_ : unit) => e <- aget (nth i rows []) j ;; guard (is_null e) EAssert) lo hi tt) as (v & E & ->); [lia|reflexivity| |exact E].
      intros j v Hj _. exists tt. split; [|reflexivity]. rewrite (aget_nth _ j (ENull 0 0)) by (rewrite Lrow by (apply nth_In; fold N; lia); lia). cbn [bind].
      change (nth j (nth i rows []) (ENull 0 0)) with (entry rows i j). rewrite H3 by auto. reflexivity. }
    destruct lower; apply G; try lia; intros j Hj; apply Hnull; lia. }
  cbv zeta in CK. cbv zeta. rewrite CK. cbn [bind]. rewrite (first_heights_ok lens rows ops FO Hne'). cbn [bind]. fold ws. rewrite (last_cols lens rows ops ws FO Hne Hsq), Bn.
  eexists. split; [reflexivity|].
  intros x y xs h (AT & ALx & ALy & AIx & AIy & ACx & _ & ANx & ANy & ANxy).
  assert (Lxs : length xs = n) by (rewrite <- ALx, <- (contents_length h x AIx), ACx, map_length; reflexivity).
  assert (Htin : In t T) by (unfold T, scratch_all; cbn [scratch app]; left; reflexivity).
  assert (Cx : contents h x = map Some (tab n (vat xs))) by (rewrite ACx; f_equal; apply as_tab; auto).
  set (lo := fun i : nat => if lower then 0 else Datatypes.S i). set (hi := fun i : nat => if lower then i else N).
  set (blk := fun i j => l_mv (nth j (nth i ops []) (null_op 0 0)) false false). set (inv := fun i => l_mv (nth i invs (null_op 0 0)) false false).
  assert (HR : forall i, i < length ws -> lo i <= hi i /\ hi i <= length ws /\ ~ (lo i <= i < hi i)) by (intros i Hi; unfold lo, hi; destruct lower; lia).
  assert (PB : forall i j, i < length ws -> lo i <= j < hi i -> performs lens (scratch (entry rows i j)) (nth i ws 0) (nth j ws 0) (meaning (entry rows i j)) false (blk i j) /\
      incl (scratch (entry rows i j)) T /\ ~ In t (scratch (entry rows i j))).
  { intros i j Hi Hj. assert (Hj' : j < N) by (unfold lo, hi in Hj; destruct lower; lia). rewrite Lws in Hi.
    destruct (Ent i j Hi Hj') as (row & Er & Hr & Ee & He). destruct (Forall2_nth _ _ _ FO i row Er) as (orow & Eo & Fr). destruct (Forall2_nth _ _ _ Fr j _ Ee) as (o & Eoj & (_ & _ & P)).
    assert (Hf : offers (entry rows i j) false false = true) by (apply Hoff; auto; unfold lo, hi in Hj; destruct lower; lia).
    specialize (P false false Hf). cbv iota in P. rewrite Dent in P by auto. cbn [fst snd] in P.
    assert (SC : incl (scratch (entry rows i j)) (concat (map (fun row => concat (map scratch row)) rows))) by (apply scratch_entry; auto; rewrite (Lrow (nth i rows [])) by (apply nth_In; auto); auto).
    split; [|split].
    - unfold blk. rewrite (nth_error_nth _ _ [] Eo), (nth_error_nth _ _ _ Eoj). exact P.
    - intros u Hu. unfold T, scratch_all. apply in_or_app. left. right. apply SC, Hu.
    - intros X. apply Hnt, SC, X. }
  assert (PD : forall i, i < length ws -> performs lens (scratch (inverse_of inverses i)) (nth i ws 0) (nth i ws 0) (meaning (inverse_of inverses i)) false (inv i) /\
      incl (scratch (inverse_of inverses i)) T /\ ~ In t (scratch (inverse_of inverses i))).
  { intros i Hi. rewrite Lws in Hi. destruct (HD i Hi) as (OD & DD & FD & ND & _). assert (Hi' : i < length inverses) by lia.
    destruct (Forall2_nth _ _ _ FI i (inverse_of inverses i) (nth_error_nth' inverses (ENull 0 0) Hi')) as (o & Eo & (_ & _ & P)).
    specialize (P false false FD). cbv iota in P. rewrite DD in P. cbn [fst snd] in P. split; [|split; [|exact ND]].
    - unfold inv. rewrite (nth_error_nth _ _ _ Eo). exact P.
    - intros u Hu. unfold T, scratch_all. apply in_or_app. right. apply in_concat. exists (scratch (inverse_of inverses i)). split; [apply in_map, nth_In; auto|exact Hu]. }
  assert (RD : forall i, i < length ws -> right_inverse (nth i ws 0) (meaning (entry rows i i)) (meaning (inverse_of inverses i))) by (intros i Hi; rewrite Lws in Hi; apply (HD i Hi)).
  assert (Hlt' : sum_nat ws <= lens t) by exact Hlt.
  destruct (block_start lens T ws x y (vat xs) ANxy ALy h AT AIx AIy Cx) as (h0 & E0 & S0 & O0). rewrite E0. cbn [bind].
  assert (STEP : forall a b i h, i < N -> a <= b -> b <= N -> inverse_step ops invs (offsets 0 ws) (offsets 0 ws) (View t 0 n) x y a b i h = step_body t ws x y i a b (blk i) (inv i) h).
  { intros a b i h1 Hi Hab Hb. destruct (Ent i i Hi Hi) as (row & Er & Hr & _). destruct (Forall2_nth _ _ _ FO i row Er) as (orow & Eo & Fr).
    assert (Hi' : i < length inverses) by lia. destruct (Forall2_nth _ _ _ FI i _ (nth_error_nth' inverses (ENull 0 0) Hi')) as (o & Ei & _).
    change n with (sum_nat ws). rewrite (inverse_step_body ops invs ws t x y a b i orow o h1); auto; try lia.
    - unfold blk, inv. rewrite (nth_error_nth _ _ [] Eo), (nth_error_nth _ _ _ Ei). reflexivity.
    - rewrite (Forall2_length' _ _ _ Fr), Lws. apply Lrow. auto. }
  assert (FIN : forall h' z, result lens T ws x y (vat xs) h0 h' z -> (forall i, i < length ws -> solved ws (vat xs) (fun i j => meaning (entry rows i j)) lo hi z i) ->
    exists zs, length zs = n /\ contents h' y = map Some zs /\ (forall r, r < n -> mv n (meaning (EBlock rows t)) (vat zs) r = vat xs r) /\ only h h' (fun id k => In id T \/ touches y id k)).
  { intros h' z ((_ & _ & _ & _ & C) & O) SV. exists (tab n z). split; [apply tab_length|]. split; [exact C|]. split; [|eapply only_trans; [exact O0|exact O]].
    intros r Hr. destruct (position ws r Hr) as (i & wi & Ei & Hi). assert (Li : i < N) by (rewrite <- Lws; apply nth_error_Some; rewrite Ei; discriminate).
    pose proof (nth_error_nth ws i 0 Ei) as Ewi. specialize (SV i ltac:(lia)). unfold solved in SV. specialize (SV (r - sum_nat (firstn i ws)) ltac:(lia)).
    assert (RR : sum_nat (firstn i ws) + (r - sum_nat (firstn i ws)) = r) by lia. rewrite RR in SV. rewrite <- SV. clear RR.
    replace r with (sum_nat (firstn i (sizes rows)) + (r - sum_nat (firstn i ws))) at 1 by (fold ws; lia).
    transitivity (mv n (meaning (EBlock rows t)) z (sum_nat (firstn i (sizes rows)) + (r - sum_nat (firstn i ws)))).
    { unfold mv. apply sumf_ext. intros c Hc. rewrite vat_tab by auto. reflexivity. }
    unfold n. rewrite (block_mv rows t ws i z (r - sum_nat (firstn i ws)) Hsq Li) by (fold ws; lia). rewrite Lws.
    set (term := fun j => mv (nth j ws 0) (meaning (entry rows i j)) (fun c => z (sum_nat (firstn j ws) + c)) (r - sum_nat (firstn i ws))).
    assert (ZT : forall j, j < N -> (if lower then i < j else j < i) -> term j = 0%Qc).
    { intros j Hj Hc. unfold term, mv. apply sumf_zero. intros c _. specialize (Hnull i j Li Hj Hc). destruct (entry rows i j); try discriminate. cbn [meaning]. ring. }
    unfold gathered. change (sumf N term = (term i + sumf (hi i - lo i) (fun q => term (lo i + q)%nat))%Qc). unfold lo, hi. destruct lower.
    - rewrite (sumf_extend (Datatypes.S i) N term); [|lia|intros j Hj; apply ZT; lia]. cbn [sumf]. rewrite Nat.sub_0_r. rewrite Qcplus_comm. reflexivity.
    - replace N with (i + (Datatypes.S (N - Datatypes.S i))) at 1 by lia. rewrite sumf_app, sumf_first, (sumf_zero i) by (intros j Hj; apply ZT; lia). rewrite Qcplus_0_l, Nat.add_0_r. f_equal.
      apply sumf_ext. intros q _. f_equal. lia. }
  destruct lower.
  - destruct (solve_lower lens T t ws x y (vat xs) Htin Hlt' ANx ANy ANxy ALx ALy (fun i j => meaning (entry rows i j)) (fun i => meaning (inverse_of inverses i)) blk inv
      (fun i j => scratch (entry rows i j)) (fun i => scratch (inverse_of inverses i)) lo hi HR PB PD RD h0 (fun i => conj eq_refl eq_refl) S0) as (h' & z & E & R & SV).
    destruct (FIN h' z R SV) as (zs & F1 & F2 & F3 & F4). exists h', zs. split; [|auto]. rewrite Lws in E. rewrite <- E. unfold for_range. apply for_n_ext. intros i h1 Hi. apply STEP; lia.
  - destruct (solve_upper lens T t ws x y (vat xs) Htin Hlt' ANx ANy ANxy ALx ALy (fun i j => meaning (entry rows i j)) (fun i => meaning (inverse_of inverses i)) blk inv
      (fun i j => scratch (entry rows i j)) (fun i => scratch (inverse_of inverses i)) lo hi HR PB PD RD h0 (fun i => conj eq_refl (eq_sym Lws)) S0) as (h' & z & E & R & SV).
    destruct (FIN h' z R SV) as (zs & F1 & F2 & F3 & F4). exists h', zs. split; [|auto]. rewrite Lws in E. rewrite <- E. unfold for_range_down.
    assert (DE : forall k top (f g : nat -> heap -> res heap), k <= top -> (forall j s, 0 < j <= top -> f j s = g j s) -> forall s, for_down k top f s = for_down k top g s).
    { clear. induction k as [|k IH]; intros top f g Hk H s; [reflexivity|]. cbn [for_down]. rewrite H by lia. apply bind_ext. intros s1. apply IH; [lia|]. intros j s2 Hj. apply H. lia. }
    apply DE; [lia|]. intros k h1 Hk. apply STEP; lia.
Qed.
