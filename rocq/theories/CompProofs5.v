(** Block operators. *)
From Verif Require Import Util Lin CSRModel CSRSpec CSRProofs DenseModel DenseSpec DenseProofs SmootherModel CompModel CompSpec CompProofs CompProofs2 CompProofs3 CompProofs4.
Local Open Scope Qc_scope.

Lemma total_sum l : total l = sum_nat l.
Proof. induction l as [|a l IH]; [reflexivity|]. cbn. rewrite IH. reflexivity. Qed.
Lemma offsets_nth l : forall a i, (i <= length l)%nat -> aget (offsets a l) i = Ok (a + sum_nat (firstn i l))%nat.
Proof.
  induction l as [|b l IH]; intros a [|i] H; cbn [length] in H; try lia; cbn [offsets firstn sum_nat fold_right].
  - unfold aget. cbn. f_equal. lia.
  - unfold aget. cbn. f_equal. lia.
  - change (aget (a :: offsets (a + b) l) (S i)) with (aget (offsets (a + b) l) i). rewrite IH by lia. unfold sum_nat. f_equal. lia.
Qed.
Lemma sum_firstn_S l i a : nth_error l i = Some a -> sum_nat (firstn (S i) l) = (sum_nat (firstn i l) + a)%nat.
Proof.
  revert i. induction l as [|b l IH]; intros [|i] H; try discriminate.
  - injection H as ->. cbn. lia.
  - cbn [firstn]. change (sum_nat (b :: ?x)) with (b + sum_nat x)%nat. unfold sum_nat at 1 2. cbn [fold_right]. fold (sum_nat (firstn (S i) l)). 
    specialize (IH i H). change (b + sum_nat (firstn (S i) l) = b + sum_nat (firstn i l) + a)%nat. lia.
Qed.
Lemma sum_firstn_le l i j : (i <= j)%nat -> (sum_nat (firstn i l) <= sum_nat (firstn j l))%nat.
Proof.
  revert i j. induction l as [|b l IH]; intros i j H; [rewrite !firstn_nil; lia|]. destruct i as [|i], j as [|j]; cbn [firstn]; try lia; [cbn; lia|].
  change (b + sum_nat (firstn i l) <= b + sum_nat (firstn j l))%nat. specialize (IH i j ltac:(lia)). lia.
Qed.
Lemma sum_firstn_all l i : (length l <= i)%nat -> sum_nat (firstn i l) = sum_nat l.
Proof. intros H. rewrite firstn_all2 by auto. reflexivity. Qed.
Lemma sum_firstn_bound l i a : nth_error l i = Some a -> (sum_nat (firstn i l) + a <= sum_nat l)%nat.
Proof.
  intros H. rewrite <- (sum_firstn_S l i a H). rewrite <- (sum_firstn_all l (S i + length l)) by lia. apply sum_firstn_le. lia.
Qed.

(** Blocks side by side, by position *)
Lemma beside_sum l i : forall j, beside l i j =
  sumf (length l) (fun k => let o := sum_nat (firstn k (map fst l)) in let w := nth k (map fst l) O in
    if (o <=? j)%nat && (j <? o + w)%nat then nth k (map snd l) (fun _ _ => 0) i (j - o)%nat else 0).
Proof.
  induction l as [|(w, M) l IH]; intros j; [reflexivity|]. cbn [beside length map]. rewrite sumf_first. cbn [firstn nth fst snd]. cbv zeta.
  change (sum_nat []) with 0%nat. rewrite Nat.add_0_l, Nat.sub_0_r. cbn [Nat.leb andb].
  destruct (Nat.ltb_spec j w) as [H|H].
  - rewrite sumf_zero; [ring|]. intros k Hk. change (sum_nat (w :: ?x)) with (w + sum_nat x)%nat.
    destruct (Nat.leb_spec (w + sum_nat (firstn k (map fst l))) j); [lia|reflexivity].
  - rewrite IH, Qcplus_0_l. apply sumf_ext. intros k Hk. cbv zeta. change (sum_nat (w :: ?x)) with (w + sum_nat x)%nat.
    set (o := sum_nat (firstn k (map fst l))). set (v := nth k (map fst l) O).
    replace (w + o <=? j)%nat with (o <=? j - w)%nat by (destruct (Nat.leb_spec o (j - w)), (Nat.leb_spec (w + o) j); auto; lia).
    replace (j <? w + o + v)%nat with (j - w <? o + v)%nat by (destruct (Nat.ltb_spec (j - w) (o + v)), (Nat.ltb_spec j (w + o + v)); auto; lia).
    destruct ((o <=? j - w)%nat && (j - w <? o + v)%nat); [f_equal; lia|reflexivity].
Qed.
Lemma above_at l : forall i n M r c, nth_error l i = Some (n, M) -> (sum_nat (firstn i (map fst l)) <= r < sum_nat (firstn i (map fst l)) + n)%nat ->
  above l r c = M (r - sum_nat (firstn i (map fst l)))%nat c.
Proof.
  induction l as [|(n0, M0) l IH]; intros [|i] n M r c E H; try discriminate; cbn [above].
  - injection E as -> ->. cbn [firstn sum_nat fold_right] in *. change (sum_nat []) with 0%nat in *. destruct (Nat.ltb_spec r n); [f_equal; lia|lia].
  - cbn [map fst firstn] in *. change (sum_nat (n0 :: ?x)) with (n0 + sum_nat x)%nat in *. destruct (Nat.ltb_spec r n0); [lia|].
    rewrite (IH i n M (r - n0)%nat c E) by lia. f_equal. lia.
Qed.
Lemma position l r : (r < sum_nat l)%nat -> exists i n, nth_error l i = Some n /\ (sum_nat (firstn i l) <= r < sum_nat (firstn i l) + n)%nat.
Proof.
  revert r. induction l as [|n l IH]; intros r H; [cbn in H; lia|]. change (sum_nat (n :: l)) with (n + sum_nat l)%nat in H.
  destruct (Nat.ltb_spec r n) as [Hr|Hr].
  - exists 0%nat, n. split; [reflexivity|]. cbn. lia.
  - destruct (IH (r - n)%nat ltac:(lia)) as (i & k & E & Hk). exists (S i), k. split; [exact E|]. cbn [firstn].
    change (sum_nat (n :: firstn i l)) with (n + sum_nat (firstn i l))%nat. lia.
Qed.

Lemma subview_ok v a b : (a <= b)%nat -> (b <= v_len v)%nat -> subview v a b = Ok (View (v_buf v) (v_off v + a) (b - a)).
Proof. intros H1 H2. unfold subview. apply Nat.leb_le in H1, H2. rewrite H1, H2. reflexivity. Qed.

(** ** One row of blocks *)
Section row.
  Context (lens : nat -> nat) (T : list nat) (es : list expr) (row : list lop) (t hgt : nat).
  Hypothesis F : Forall2 (stands lens) es row.
  Hypothesis Hne : es <> [].
  Hypothesis Hh : forall e, In e es -> fst (dims e) = hgt.
  Hypothesis Ho : forall e, In e es -> offers e false false = true.
  Hypothesis HT : forall e, In e es -> incl (scratch e) T /\ ~ In t (scratch e).
  Hypothesis Ht : In t T.
  Let ws := map (fun e => snd (dims e)) es.
  Let m := sum_nat ws.
  Let blocks := map (fun e => (snd (dims e), meaning e)) es.
  Context (ti : view).
  Hypothesis Bt : v_buf ti = t.
  Hypothesis Lt : v_len ti = hgt.
  Hypothesis Int : (v_off ti + v_len ti <= lens t)%nat.

  Definition row_body (x yi : view) (h : heap) : res heap :=
    o <- aget row 0 ;;
    r0 <- aget (offsets 0 ws) 0 ;; r1 <- aget (offsets 0 ws) 1 ;;
    xj <- subview x r0 r1 ;;
    h <- l_mv o false false xj yi h ;;
    for_range 1 (length es) (fun j h =>
      o <- aget row j ;;
      r0 <- aget (offsets 0 ws) j ;; r1 <- aget (offsets 0 ws) (j + 1) ;;
      xj <- subview x r0 r1 ;;
      h <- l_mv o false false xj ti h ;;
      v_add yi ti h) h.

  Lemma row_nth j : (j < length es)%nat -> exists e o, nth_error es j = Some e /\ In e es /\ nth_error row j = Some o /\ stands lens e o /\
    nth_error ws j = Some (snd (dims e)) /\ (sum_nat (firstn j ws) + snd (dims e) <= m)%nat /\
    sum_nat (firstn (S j) ws) = (sum_nat (firstn j ws) + snd (dims e))%nat.
  Proof using F.
    clear Hne Hh Ho HT Ht Bt Lt Int. intros Hj. destruct (nth_error es j) as [e|] eqn:E; [|apply nth_error_None in E; lia].
    destruct (Forall2_nth _ _ _ F j e E) as (o & Eo & S). exists e, o.
    assert (Ew : nth_error ws j = Some (snd (dims e))) by (unfold ws; rewrite nth_error_map, E; reflexivity).
    split; [auto|]. split; [eapply nth_error_In; eauto|]. split; [auto|]. split; [auto|]. split; [auto|]. split; [apply sum_firstn_bound, Ew|apply sum_firstn_S, Ew].
  Qed.

  Definition col_mat (k : nat) : mat := fun i j =>
    let o := sum_nat (firstn k ws) in let w := nth k ws O in
    if (o <=? j)%nat && (j <? o + w)%nat then nth k (map meaning es) (fun _ _ => 0) i (j - o)%nat else 0.

  Lemma row_performs : performs lens T hgt m (beside blocks) false row_body.
  Proof using All.
    assert (Lw : length ws = length es) by (unfold ws; apply map_length).
    assert (Hpos : (0 < length es)%nat) by (clear - Hne; destruct es; [congruence|cbn; lia]).
    assert (Pj : forall j, (j < length es)%nat -> forall e o, nth_error es j = Some e -> In e es -> nth_error row j = Some o -> stands lens e o ->
              nth_error ws j = Some (snd (dims e)) -> (sum_nat (firstn j ws) + snd (dims e) <= m)%nat -> 
              performs lens (scratch e) hgt m (col_mat j) false (fun x y h => l_mv o false false (View (v_buf x) (v_off x + sum_nat (firstn j ws)) (snd (dims e))) y h)).
    { intros j Hj e o Ee Hin Eo (Rn & Rm & P) Ew B. specialize (P false false (Ho e Hin)). cbv iota in P. rewrite (Hh e Hin) in P.
      eapply performs_ext; [apply (performs_part _ _ _ _ m _ _ _ (sum_nat (firstn j ws)) P B)| |reflexivity].
      intros i c _ _. unfold col_mat. cbv zeta. rewrite (nth_error_nth ws j O Ew). rewrite (nth_error_nth (map meaning es) j _ (map_nth_error _ _ _ Ee)). reflexivity. }
    destruct (row_nth 0 Hpos) as (e0 & o0 & Ee0 & Hin0 & Eo0 & S0 & Ew0 & B0 & N0).
    pose proof (Pj 0%nat Hpos e0 o0 Ee0 Hin0 Eo0 S0 Ew0 B0) as P0.
    assert (PL : performs lens T hgt m (fun r c => sumf (length es - 1) (fun j => col_mat (1 + j) r c)) true
        (fun x y h => for_n (length es - 1) 1 (fun j h =>
            (fun x yi h => o <- aget row j ;;
              r0 <- aget (offsets 0 ws) j ;; r1 <- aget (offsets 0 ws) (j + 1) ;;
              xj <- subview x r0 r1 ;;
              h <- l_mv o false false xj ti h ;;
              v_add yi ti h) x y h) h)).
    { apply performs_loop. intros j Hj. destruct (row_nth j ltac:(lia)) as (e & o & Ee & Hin & Eo & S & Ew & B & N).
      destruct (HT e Hin) as (I & Nt).
      eapply performs_ext; [eapply (performs_via lens T (scratch e) hgt m (col_mat j) _ ti (Pj j ltac:(lia) e o Ee Hin Eo S Ew B)) with (g := fun y h => v_add y ti h)| |].
      - rewrite Bt. exact Ht.
      - rewrite Bt. exact Int.
      - exact Lt.
      - exact I.
      - rewrite Bt. exact Nt.
      - intros y ys zs h Iy Iz Cy Cz El. apply v_add_ok; auto.
      - reflexivity.
      - intros x y h Hx Hy. cbv beta. rewrite (aget_ok row j o Eo), bind_Ok, !offsets_nth by lia. rewrite !bind_Ok.
        rewrite (Nat.add_1_r j), N, !Nat.add_0_l. rewrite subview_ok by lia. rewrite bind_Ok.
        replace (sum_nat (firstn j ws) + snd (dims e) - sum_nat (firstn j ws))%nat with (snd (dims e)) by lia. reflexivity. }
    eapply performs_ext; [eapply performs_seq; [eapply performs_weaken; [exact P0|apply HT, Hin0]|exact PL]| |].
    - intros i j _ _. cbv beta. rewrite beside_sum. unfold blocks at 1. rewrite map_length.
      transitivity (sumf (length es) (fun k => col_mat k i j)).
      + destruct (length es) as [|k]; [lia|]. rewrite sumf_first. f_equal. replace (S k - 1)%nat with k by lia. apply sumf_ext. intros l _. reflexivity.
      + apply sumf_ext. intros k Hk. unfold col_mat, blocks. rewrite !map_map. reflexivity.
    - intros x y h Hx Hy. unfold row_body. rewrite (aget_ok row 0 o0 Eo0), bind_Ok, !offsets_nth by lia. rewrite !bind_Ok.
      rewrite N0, !Nat.add_0_l. change (sum_nat (firstn 0 ws)) with 0%nat in *. rewrite subview_ok by lia. rewrite bind_Ok.
      replace (snd (dims e0) - 0)%nat with (snd (dims e0)) by lia. reflexivity.
  Qed.
End row.

(** ** Rows on top of each other *)
Lemma performs_rows lens T m (l : list (nat * mat)) (g : nat -> view -> view -> heap -> res heap) :
  (forall i n M, nth_error l i = Some (n, M) -> performs lens T n m M false (g i)) ->
  performs lens T (sum_nat (map fst l)) m (above l) false
    (fun x y h => h <- v_zero y h ;;
       for_range 0 (length l) (fun i h =>
         g i x (View (v_buf y) (v_off y + sum_nat (firstn i (map fst l))) (nth i (map fst l) O)) h) h).
Proof.
  intros P x y xs ys h Ar. set (n := sum_nat (map fst l)) in *. pose proof Ar as (Hl & Hx & Hy & Ix & Iy & Cx & Cy & Nx & Ny & Nxy).
  destruct (v_zero_ok y h Iy) as (h0 & E0 & _ & O0). rewrite E0, bind_Ok.
  set (val := fun r => 0 + mv m (above l) (vat xs) r).
  destruct (for_range_inv (fun i h' => only h h' (mutable T y) /\ forall r, (r < sum_nat (firstn i (map fst l)))%nat -> nth_error (contents h' y) r = Some (Some (val r)))
    (fun i h => g i x (View (v_buf y) (v_off y + sum_nat (firstn i (map fst l))) (nth i (map fst l) O)) h) 0 (length l) h0) as (h2 & E2 & O2 & V2).
  - lia.
  - split; [eapply only_weaken; [exact O0|unfold mutable; auto]|]. cbn. lia.
  - intros i h1 Hi (O1 & V1). destruct (nth_error l i) as [(k, M)|] eqn:E; [|apply nth_error_None in E; lia].
    assert (Ef : nth_error (map fst l) i = Some k) by (rewrite nth_error_map, E; reflexivity). rewrite (nth_error_nth _ _ O Ef).
    pose proof (sum_firstn_bound _ _ _ Ef) as B. fold n in B. rewrite (sum_firstn_S _ _ _ Ef). set (o := sum_nat (firstn i (map fst l))) in *.
    set (yi := View (v_buf y) (v_off y + o) k).
    assert (Ari : arguments lens T k m false x yi xs [] h1).
    { split; [intros id Hid; rewrite (proj1 O1); auto|]. split; [auto|]. split; [reflexivity|]. split; [eapply only_inside; eauto|].
      split. { unfold inside. cbn [v_buf v_off v_len yi]. rewrite (proj1 O1). unfold inside in Iy. lia. }
      split; [rewrite <- Cx; eapply only_contents; [exact O1|intros c Hc [H|(H & _)]; auto]|]. split; [discriminate|]. split; [auto|]. split; auto. }
    destruct (P i k M E x yi xs [] h1 Ari) as (h2 & E2 & C2 & O2). exists h2. split; [exact E2|]. split.
    + eapply only_trans; [exact O1|]. eapply only_weaken; [exact O2|]. intros id c [H|(H1 & H2)]; [left; auto|right]. cbn [v_buf v_off v_len yi] in *. split; [auto|]. lia.
    + intros r Hr. destruct (Nat.ltb_spec r o) as [Hro|Hro].
      * rewrite <- (V1 r Hro). rewrite !nth_error_contents. destruct (Nat.ltb_spec r (v_len y)) as [_|?]; [|reflexivity].
        apply O2. intros [H|(H1 & H2)]; [auto|]. cbn [v_buf v_off v_len yi] in *. lia.
      * pose proof (nth_error_contents h2 yi (r - o)) as En. rewrite C2, nth_error_map, nth_error_tab in En by lia. cbn [option_map v_len v_off v_buf yi] in En.
        destruct (Nat.ltb_spec (r - o) k) as [_|?]; [|lia]. rewrite nth_error_contents. destruct (Nat.ltb_spec r (v_len y)) as [_|?]; [|lia].
        replace (v_off y + r)%nat with (v_off y + o + (r - o))%nat by lia. rewrite <- En. f_equal. f_equal. unfold val. f_equal. unfold mv. apply sumf_ext.
        intros c _. f_equal. symmetry. apply (above_at l i k M r c E). fold o. lia.
  - exists h2. split; [exact E2|]. split; [|exact O2].
    apply list_ext. intros r. rewrite nth_error_map. destruct (Nat.ltb_spec r n) as [Hr|Hr].
    + rewrite V2 by (rewrite sum_firstn_all; [auto|rewrite map_length; auto]). rewrite nth_error_tab by auto. reflexivity.
    + rewrite nth_error_contents. destruct (Nat.ltb_spec r (v_len y)) as [?|_]; [lia|]. rewrite (proj2 (nth_error_None _ _)); [reflexivity|]. rewrite tab_length. auto.
Qed.
