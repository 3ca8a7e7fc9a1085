(** The kernel at pairs of points and the blocks of the far field. *)
From Verif Require Import Util Lin DenseModel DenseSpec DenseProofs H2Model H2Spec H2Proofs TransferModel TransferSpec TransferProofs TransferProofs2 TransferProofs3 TransferProofs4 TransferProofs5.
Local Open Scope nat_scope.
Set Default Proof Using "Type".

Lemma nth_cut (l : list Qc) a d i : i < d -> vat (firstn d (skipn a l)) i = vat l (a + i).
Proof.
  unfold vat. revert a. induction l as [|x l IH]; intros a Hi; [rewrite skipn_nil, firstn_nil; destruct i, a; auto|].
  destruct a as [|a]; [|cbn [skipn]; rewrite IH by auto; auto]. cbn [skipn Nat.add].
  clear IH. revert i Hi. generalize (x :: l) as k. induction d as [|d IHd]; intros k i Hi; [lia|]. destruct k as [|y k]; [auto|]. cbn [firstn]. destruct i; [auto|]. cbn. apply IHd. lia.
Qed.
Lemma drow_ok n m D A i : is_array n m D A -> i < n -> drow D i = tab m (A i).
Proof.
  intros ((H1 & H2 & H3) & H) Hi. unfold drow. rewrite H2. apply vec_ext.
  - rewrite firstn_length, skipn_length, tab_length, H3. nia.
  - intros j Hj. rewrite firstn_length, skipn_length, H3 in Hj. rewrite nth_cut by lia. rewrite vat_tab by lia. rewrite <- H by lia.
    unfold dmat. rewrite H2. auto.
Qed.

Section Kernel.
  Variables (G : geo) (kernel : list Qc -> list Qc -> Qc).
  Hypothesis HG : wf_geo G.

  Lemma grid_points_ok n pit : wf_cluster G n -> length pit = dim G ->
    exists X, grid_points G n pit = Ok (X, repeat 0%Z (dim G)) /\ is_array (order n ^ dim G) (dim G) X (fun I l => node G n l (digit (order n) (dim G) I l)).
  Proof using HG.
    intros Hn Hp. unfold grid_points. rewrite (pit_loop_ok (order n) (dim G)) by (auto; apply (wg_dim _ HG)).
    destruct (obuf_any (order n ^ dim G) (dim G) (alloc (order n ^ dim G * dim G)) (alloc_length _)) as (P & HP).
    destruct (obuf_loop (order n ^ dim G) (dim G) P (fun I l => node G n l (digit (order n) (dim G) I l)) (fun I j x =>
      p <- aget (digits (order n) (dim G) I) j ;; e <- aget (cheb G (order n)) p ;; b <- aget (gbox n) j ;;
      q <- ix (order n ^ dim G) (dim G) I j ;;
      wr x q ((snd b - fst b) * half * (e + 1) + fst b)%Qc) _ HP) as (b & E & Hb).
    - intros I j b P1 HI Hj Hb _. rewrite (aget_nth _ j 0) by (rewrite digits_length; auto). cbn [bind]. unfold digits. rewrite nth_tab by auto.
      rewrite (aget_nth _ _ 0%Qc) by (rewrite (wc_nodes _ _ Hn); apply digit_lt; apply (wc_order _ _ Hn)). cbn [bind].
      rewrite (aget_nth _ j (0, 0)%Qc) by (rewrite (wc_box _ _ Hn); auto). cbn [bind]. rewrite ix_ok by auto. cbn [bind].
      match goal with |- exists _, wr _ _ ?v = _ /\ _ => replace v with (node G n j (digit (order n) (dim G) I j)) end; [apply obuf_wr; auto|].
      unfold node, vat. ring.
    - rewrite E. cbn [bind]. destruct (obuf_dense _ _ _ _ Hb) as (X & EX & AX). rewrite EX. cbn [bind]. exists X. auto.
  Qed.

  Lemma kernel_interpolant_ok n1 n2 pit : wf_cluster G n1 -> wf_cluster G n2 -> length pit = dim G ->
    exists K, kernel_interpolant G kernel n1 n2 pit = Ok (K, repeat 0%Z (dim G)) /\
      is_array (order n1 ^ dim G) (order n2 ^ dim G) K (fun a b => kernel (gpoint G n1 a) (gpoint G n2 b) * (- (1 + 1)))%Qc.
  Proof using HG.
    intros H1 H2 Hp. unfold kernel_interpolant.
    destruct (grid_points_ok n1 pit H1 Hp) as (X & EX & AX). rewrite EX. cbn [bind].
    destruct (grid_points_ok n2 (repeat 0%Z (dim G)) H2 (repeat_length _ _)) as (Y & EY & AY). rewrite EY. cbn [bind].
    set (k1 := order n1 ^ dim G) in *. set (k2 := order n2 ^ dim G) in *.
    destruct (obuf_any k1 k2 (alloc (k1 * k2)) (alloc_length _)) as (P & HP).
    destruct (obuf_loop k1 k2 P (fun a b => kernel (gpoint G n1 a) (gpoint G n2 b) * (- (1 + 1)))%Qc (fun i j K =>
      p <- ix k1 k2 i j ;; K1 <- wr K p (kernel (drow X i) (drow Y j)) ;; multo K1 p (- (1 + 1))%Qc) _ HP) as (b & E & Hb).
    - intros i j b P1 Hi Hj Hb _. rewrite ix_ok by auto. cbn [bind].
      rewrite (drow_ok _ _ _ _ i AX Hi), (drow_ok _ _ _ _ j AY Hj).
      destruct (obuf_wr k1 k2 b P1 i j (kernel (gpoint G n1 i) (gpoint G n2 j)) Hb Hi Hj) as (b1 & E1 & Hb1).
      change (tab (dim G) (fun l => node G n1 l (digit (order n1) (dim G) i l))) with (gpoint G n1 i).
      change (tab (dim G) (fun l => node G n2 l (digit (order n2) (dim G) j l))) with (gpoint G n2 j).
      rewrite E1. cbn [bind].
      destruct (obuf_multo k1 k2 b1 _ i j (- (1 + 1))%Qc _ Hb1 Hi Hj (put_same _ _ _ _)) as (b2 & E2 & Hb2).
      exists b2. split; auto. eapply obuf_ext; [exact Hb2|]. intros r c _ _. unfold put. destruct ((r =? i) && (c =? j)); auto.
    - rewrite E. cbn [bind]. destruct (obuf_dense _ _ _ _ Hb) as (K & EK & AK). rewrite EK. cbn [bind]. exists K. auto.
  Qed.

  (** The kernel interpolated in both variables. *)
  Lemma far_block_ok g1 s1 g2 s2 K r c : stands_for G g1 s1 -> stands_for G g2 s2 ->
    is_array (order (ginf g1) ^ dim G) (order (ginf g2) ^ dim G) K (fun a b => kernel (gpoint G (ginf g1) a) (gpoint G (ginf g2) b) * (- (1 + 1)))%Qc ->
    block_of 0 (Pair s1 s2 K) r c =
    (- (1 + 1) * nested G g1 r (interpolate G (ginf g1) (fun x => nested G g2 c (interpolate G (ginf g2) (kernel x)))))%Qc.
  Proof using.
    intros (_ & K1 & B1) (_ & K2 & B2) (_ & HK). unfold block_of. cbn [p1 p2 interpolant]. rewrite K1, K2.
    set (n1 := ginf g1) in *. set (n2 := ginf g2) in *.
    rewrite (sumf_ext _ _ (fun a => - (1 + 1) * (nested G g2 c (interpolate G n2 (kernel (gpoint G n1 a))) * nested G g1 r (LT G n1 a)))%Qc).
    - rewrite sumf_scal. f_equal. rewrite nested_sum. apply nested_ext. intros x _. apply sumf_ext. intros a Ha. auto.
    - intros a Ha. rewrite (sumf_ext _ _ (fun b => (- (1 + 1) * nested G g1 r (LT G n1 a)) * (kernel (gpoint G n1 a) (gpoint G n2 b) * nested G g2 c (LT G n2 b)))%Qc).
      + rewrite sumf_scal, nested_sum. unfold interpolate. ring.
      + intros b Hb. rewrite B1, B2, HK by auto. ring.
  Qed.

  Lemma far_block_exact_ok g1 s1 g2 s2 K r c : stands_for G g1 s1 -> stands_for G g2 s2 ->
    is_array (order (ginf g1) ^ dim G) (order (ginf g2) ^ dim G) K (fun a b => kernel (gpoint G (ginf g1) a) (gpoint G (ginf g2) b) * (- (1 + 1)))%Qc ->
    wf_tree G g1 -> wf_tree G g2 -> orders_grow g1 -> orders_grow g2 ->
    (forall y, length y = dim G -> poly (order (ginf g1)) (dim G) (fun x => kernel x y)) ->
    (forall x, length x = dim G -> poly (order (ginf g2)) (dim G) (kernel x)) ->
    block_of 0 (Pair s1 s2 K) r c = (- (1 + 1) * integral G g1 r (fun x => integral G g2 c (kernel x)))%Qc.
  Proof using.
    intros S1 S2 HK W1 W2 O1 O2 P1 P2. rewrite (far_block_ok g1 s1 g2 s2 K r c S1 S2 HK). f_equal.
    destruct S1 as (_ & K1 & B1). set (n1 := ginf g1) in *. set (n2 := ginf g2) in *.
    assert (Hn1 : wf_cluster G n1) by (apply (wt_nodes _ _ W1); apply gnode_self).
    assert (Hn2 : wf_cluster G n2) by (apply (wt_nodes _ _ W2); apply gnode_self).
    assert (E2 : forall x, length x = dim G -> nested G g2 c (interpolate G n2 (kernel x)) = integral G g2 c (kernel x)).
    { intros x Hx. rewrite (nested_ext G g2 c _ (kernel x)) by (intros y Hy; apply interpolate_exact; auto). apply nested_exact; auto. }
    rewrite (nested_ext G g1 r _ (interpolate G n1 (fun x => integral G g2 c (kernel x)))) by (intros x _; apply interpolate_ext; auto).
    unfold interpolate.
    rewrite <- nested_sum.
    rewrite (sumf_ext _ _ (fun I => integral G g2 c (kernel (gpoint G n1 I)) * integral G g1 r (LT G n1 I))%Qc).
    - rewrite integral_sum. apply integral_ext. intros x Hx.
      rewrite (sumf_ext _ _ (fun I => LT G n1 I x * integral G g2 c (kernel (gpoint G n1 I)))%Qc) by (intros; ring).
      rewrite integral_sum. apply integral_ext. intros y Hy.
      rewrite <- (interpolate_exact G n1 (fun x => kernel x y) x Hn1 (P1 y Hy) Hx). apply sumf_ext. intros. ring.
    - intros I HI. f_equal. apply nested_exact; auto. apply LT_poly; auto.
  Qed.
End Kernel.

(** ** Final forms *)
Lemma build_thm G p c pits : wf_geo G -> wf_cluster G p -> wf_cluster G c -> clear_nodes G p c -> length (fst pits) = dim G -> length (snd pits) = dim G ->
  exists T pits', build G p c pits = Ok (T, pits') /\ wf_dense (order p ^ dim G) (order c ^ dim G) T /\
    forall I J, I < order p ^ dim G -> J < order c ^ dim G -> dmat T I J = LT G p I (gpoint G c J).
Proof. intros HG Hp Hc Hcl H1 H2. destruct (build_ok G p c HG Hp Hc Hcl pits H1 H2) as (T & E & Hw & H). exists T, (pits0 G). auto. Qed.

Lemma transfer_exact G p c pits f : wf_geo G -> wf_cluster G p -> wf_cluster G c -> clear_nodes G p c -> length (fst pits) = dim G -> length (snd pits) = dim G ->
  poly (order p) (dim G) f ->
  exists T pits', build G p c pits = Ok (T, pits') /\
    forall J, J < order c ^ dim G -> sumf (order p ^ dim G) (fun I => dmat T I J * f (gpoint G p I))%Qc = f (gpoint G c J).
Proof.
  intros HG Hp Hc Hcl H1 H2 Hf. destruct (build_ok G p c HG Hp Hc Hcl pits H1 H2) as (T & E & Hw & H). exists T, (pits0 G). split; auto.
  intros J HJ. rewrite <- (interpolate_exact G p f (gpoint G c J) Hp Hf (gpoint_length _ _ _)). apply sumf_ext. intros I HI. rewrite H by auto. ring.
Qed.

Lemma NoDup_Forall2 G t h : Forall2 (stands_for G) (gnodes t) (nodes h) -> map (fun s => nid (inf s)) (nodes h) = map (fun s => gid (ginf s)) (gnodes t).
Proof. apply Forall2_map_eq. intros a b (H & _). auto. Qed.

Lemma prepare_thm G N t : wf_geo G -> wf_tree G t -> NoDup (map (fun s => gid (ginf s)) (gnodes t)) ->
  (forall s d, In s (gnodes t) -> In d (gdofs (ginf s)) -> d < N) ->
  exists h st, prepare G None t (pits0 G, leaf0 G) = Ok (h, st) /\ shaped N 1 h /\ Forall2 (stands_for G) (gnodes t) (nodes h).
Proof.
  intros HG Hw Hid HN. destruct (prepare_ok G N HG t None (pits0 G, leaf0 G) Hw HN I) as (h & st & E & _ & Hg & _).
  - unfold sok, pits0, leaf0, lok. cbn. rewrite !repeat_length. auto.
  - exists h, st. split; auto. split; [|apply Hg]. split; [|apply Hg|apply Hg]. rewrite (NoDup_Forall2 G t h); auto. apply Hg.
Qed.

Lemma basis_exact G g s : wf_tree G g -> orders_grow g -> stands_for G g s ->
  forall d I, I < ksize (inf s) -> bas 0 s d I = integral G g d (LT G (ginf g) I).
Proof.
  intros Hw Hg (_ & Hk & H) d I HI. rewrite Hk in HI. rewrite H by auto. apply nested_exact; auto. apply LT_poly; auto. apply (wt_nodes _ _ Hw). apply gnode_self.
Qed.

Lemma far_block_thm G kernel g1 s1 g2 s2 pit : wf_geo G -> wf_tree G g1 -> wf_tree G g2 -> stands_for G g1 s1 -> stands_for G g2 s2 -> length pit = dim G ->
  exists K pit', kernel_interpolant G kernel (ginf g1) (ginf g2) pit = Ok (K, pit') /\ wf_dense (ksize (inf s1)) (ksize (inf s2)) K /\
    (forall r c, block_of 0 (Pair s1 s2 K) r c =
      (- (1 + 1) * nested G g1 r (interpolate G (ginf g1) (fun x => nested G g2 c (interpolate G (ginf g2) (kernel x)))))%Qc) /\
    (orders_grow g1 -> orders_grow g2 ->
     (forall y, length y = dim G -> poly (order (ginf g1)) (dim G) (fun x => kernel x y)) ->
     (forall x, length x = dim G -> poly (order (ginf g2)) (dim G) (kernel x)) ->
     forall r c, block_of 0 (Pair s1 s2 K) r c = (- (1 + 1) * integral G g1 r (fun x => integral G g2 c (kernel x)))%Qc).
Proof.
  intros HG W1 W2 S1 S2 Hp.
  destruct (kernel_interpolant_ok G kernel HG (ginf g1) (ginf g2) pit) as (K & E & HK); auto.
  - apply (wt_nodes _ _ W1). apply gnode_self.
  - apply (wt_nodes _ _ W2). apply gnode_self.
  - exists K. eexists. split; [exact E|]. split; [|split].
    + destruct S1 as (_ & -> & _), S2 as (_ & -> & _). apply HK.
    + intros. apply far_block_ok; auto.
    + intros. apply far_block_exact_ok; auto.
Qed.
