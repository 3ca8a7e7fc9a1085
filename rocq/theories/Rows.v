(** Lemmas about arrays built as a concatenation of rows: offsets, counting,
    prefix sums and filling buckets at moving offsets. *)
From Verif Require Import Util Lin SparsitySpec CSRModel CSRProofs.

Fixpoint nsum (n : nat) (f : nat -> nat) : nat :=
  match n with O => 0 | S k => nsum k f + f k end.

Lemma nsum_ext n f g : (forall i, i < n -> f i = g i) -> nsum n f = nsum n g.
Proof. induction n as [|n IH]; intros H; cbn [nsum]; [reflexivity|]. rewrite IH, H by auto. reflexivity. Qed.

Lemma nsum_mono i j f : i <= j -> nsum i f <= nsum j f.
Proof. induction 1; cbn [nsum]; lia. Qed.

Section Cat.
  Context {X : Type}.
  Implicit Type R : nat -> list X.

  Definition len R (i : nat) : nat := length (R i).
  Definition cat (n : nat) R : list X := concat (tab n R).
  Definition ptr (n : nat) R : list nat := tab (n + 1) (fun k => nsum k (len R)).

  Lemma cat_S n R : cat (S n) R = cat n R ++ R n.
  Proof. unfold cat. rewrite tab_S, concat_app. cbn [concat]. rewrite app_nil_r. reflexivity. Qed.

  Lemma cat_length n R : length (cat n R) = nsum n (len R).
  Proof. induction n as [|n IH]; [reflexivity|]. rewrite cat_S, app_length, IH. reflexivity. Qed.

  Lemma cat_ext n R R' : (forall i, i < n -> R i = R' i) -> cat n R = cat n R'.
  Proof. intros H. unfold cat. f_equal. apply tab_ext; auto. Qed.

  Lemma cat_split n R i : i < n -> exists post, cat n R = cat i R ++ R i ++ post.
  Proof.
    induction n as [|n IH]; intros H; [lia|]. rewrite cat_S.
    destruct (Nat.eq_dec i n) as [->|Hne].
    - exists []. rewrite app_nil_r. reflexivity.
    - destruct (IH ltac:(lia)) as (post & ->). exists (post ++ R n). rewrite <- !app_assoc. reflexivity.
  Qed.

  Lemma slice_cat n R i : i < n -> slice (cat n R) (nsum i (len R)) (nsum (S i) (len R)) = R i.
  Proof.
    intros H. destruct (cat_split n R i H) as (post & ->). unfold slice. cbn [nsum].
    rewrite <- (cat_length i R), skipn_at.
    replace (length (cat i R) + len R i - length (cat i R)) with (length (R i)) by (unfold len; lia).
    apply firstn_at.
  Qed.

  Lemma ptr_length n R : length (ptr n R) = n + 1.
  Proof. apply tab_length. Qed.

  Lemma nth_ptr n R k : k <= n -> nth k (ptr n R) 0 = nsum k (len R).
  Proof. intros H. unfold ptr. rewrite nth_tab by lia. reflexivity. Qed.

  Lemma in_cat n R x : In x (cat n R) <-> exists i, i < n /\ In x (R i).
  Proof.
    induction n as [|n IH].
    - split; [intros []|intros (i & H & _); lia].
    - rewrite cat_S, in_app_iff, IH. split.
      + intros [(i & H & Hx)|Hx]; [exists i|exists n]; split; auto; lia.
      + intros (i & H & Hx). destruct (Nat.eq_dec i n) as [->|]; auto. left; exists i; split; auto; lia.
  Qed.
End Cat.

Lemma cat_map {X Y} (f : X -> Y) n (R : nat -> list X) : cat n (fun i => map f (R i)) = map f (cat n R).
Proof. induction n as [|n IH]; [reflexivity|]. rewrite !cat_S, map_app, IH. reflexivity. Qed.

(** * Counting loops *)
Definition incr (ip : list nat) (k : nat) : res (list nat) := q <- aget ip k ;; aset ip k (q + 1).

Lemma incr_ok ip k : k < length ip -> incr ip k = Ok (upd ip k (nth k ip 0 + 1)).
Proof. intros H. unfold incr. rewrite (aget_nth _ _ 0) by auto. cbn [bind]. apply aset_ok; auto. Qed.

Lemma incr_if_loop {A} (t : A -> bool) (l : list A) k : forall ip, k < length ip ->
  for_list l (fun p ip => if t p then incr ip k else Ok ip) ip
  = Ok (upd ip k (nth k ip 0 + length (filter t l))).
Proof.
  induction l as [|p l IH]; intros ip H; cbn [for_list filter].
  - cbn [length]. rewrite Nat.add_0_r, upd_same; auto. apply nth_error_nth'; auto.
  - destruct (t p).
    + rewrite incr_ok by auto. cbn [bind]. rewrite IH by (rewrite upd_length; auto).
      rewrite nth_upd_eq, upd_upd by auto. cbn [length]. do 2 f_equal. lia.
    + cbn [bind]. apply IH; auto.
Qed.

(** Counting keys into shifted slots. *)
Lemma count_loop (l : list nat) : forall ip nb, length ip = nb + 1 -> (forall c, In c l -> c < nb) ->
  exists ip', for_list l (fun c ip => incr ip (c + 1)) ip = Ok ip' /\ length ip' = nb + 1 /\
    nth 0 ip' 0 = nth 0 ip 0 /\
    forall k, k < nb -> nth (S k) ip' 0 = nth (S k) ip 0 + length (filter (fun c => c =? k) l).
Proof.
  induction l as [|c l IH]; intros ip nb Hl Hc; cbn [for_list filter].
  - exists ip. split; [reflexivity|]. split; [auto|]. split; [auto|]. intros. cbn [length]. lia.
  - assert (c < nb) by (apply Hc; left; auto). rewrite incr_ok by lia. cbn [bind].
    destruct (IH (upd ip (c + 1) (nth (c + 1) ip 0 + 1)) nb) as (ip' & E & H1 & H2 & H3).
    + rewrite upd_length; auto.
    + intros; apply Hc; right; auto.
    + exists ip'. split; [auto|]. split; [auto|]. split.
      * rewrite H2, nth_upd_neq by lia. reflexivity.
      * intros k Hk. rewrite H3 by auto. rewrite Nat.add_1_r.
        destruct (Nat.eqb_spec c k) as [->|Hne].
        -- rewrite nth_upd_eq by lia. cbn [length]. lia.
        -- rewrite nth_upd_neq by lia. reflexivity.
Qed.

(** Prefix sums. *)
Lemma prefix_loop nb ip (sz : nat -> nat) : length ip = nb + 1 -> nth 0 ip 0 = 0 ->
  (forall k, k < nb -> nth (S k) ip 0 = sz k) ->
  for_range 0 nb (fun i ip => a <- aget ip i ;; b <- aget ip (i + 1) ;; aset ip (i + 1) (b + a)) ip
  = Ok (tab (nb + 1) (fun k => nsum k sz)).
Proof.
  intros Hl H0 Hk.
  loop_inv (fun i ip' => length ip' = nb + 1 /\ (forall k, k <= i -> nth k ip' 0 = nsum k sz) /\
      (forall k, i < k -> nth k ip' 0 = nth k ip 0)) st E HI.
  3: { intros i s0 Hi (L & P & Q).
       rewrite (aget_nth _ _ 0) by lia. cbn [bind]. rewrite (aget_nth _ _ 0) by lia. cbn [bind].
       rewrite aset_ok by lia. eexists; split; [reflexivity|].
       split; [rewrite upd_length; auto|]. rewrite Nat.add_1_r. split.
       - intros k Hk'. destruct (Nat.eq_dec k (S i)) as [->|].
         + rewrite nth_upd_eq by lia. rewrite (P i), (Q (S i)), Hk by lia. cbn [nsum]. lia.
         + rewrite nth_upd_neq by lia. apply P; lia.
       - intros k Hk'. rewrite nth_upd_neq by lia. apply Q; lia. }
  - lia.
  - split; [auto|]. split; auto. intros k Hk'. replace k with 0 by lia. auto.
  - rewrite E. destruct HI as (L & P & _). f_equal. apply eq_tab with (d := 0); auto. intros; apply P; lia.
Qed.

(** The same loop written with the target index running from 1. *)
Lemma for_n_shift {S} (f g : nat -> S -> res S) n : forall i s,
  (forall k s, f (Datatypes.S k) s = g k s) -> for_n n (Datatypes.S i) f s = for_n n i g s.
Proof.
  induction n as [|n IH]; intros i s H; [reflexivity|]. cbn [for_n]. rewrite H.
  destruct (g i s); cbn [bind]; auto.
Qed.

Lemma prefix_loop1 nb ip (sz : nat -> nat) : length ip = nb + 1 -> nth 0 ip 0 = 0 ->
  (forall k, k < nb -> nth (S k) ip 0 = sz k) ->
  for_range 1 (nb + 1) (fun j ip => a <- aget ip j ;; b <- aget ip (j - 1) ;; aset ip j (a + b)) ip
  = Ok (tab (nb + 1) (fun k => nsum k sz)).
Proof.
  intros Hl H0 Hk.
  loop_inv (fun i ip' => length ip' = nb + 1 /\ (forall k, k < i -> nth k ip' 0 = nsum k sz) /\
      (forall k, i <= k -> nth k ip' 0 = nth k ip 0)) st E HI.
  3: { intros i s0 Hi (L & P & Q).
       rewrite (aget_nth _ _ 0) by lia. cbn [bind]. rewrite (aget_nth _ _ 0) by lia. cbn [bind].
       rewrite aset_ok by lia. eexists; split; [reflexivity|].
       split; [rewrite upd_length; auto|]. destruct i as [|i]; [lia|]. split.
       - intros k Hk'. destruct (Nat.eq_dec k (S i)) as [->|].
         + rewrite nth_upd_eq by lia. replace (S i - 1) with i by lia. rewrite (P i), (Q (S i)), Hk by lia. cbn [nsum]. lia.
         + rewrite nth_upd_neq by lia. apply P; lia.
       - intros k Hk'. rewrite nth_upd_neq by lia. apply Q; lia. }
  - lia.
  - split; [auto|]. split; auto. intros k Hk'. replace k with 0 by lia. auto.
  - rewrite E. destruct HI as (L & P & _). f_equal. apply eq_tab with (d := 0); auto.
Qed.

(** Moving the offsets back by one position. *)
Lemma shift_back_down nb (f : nat -> nat) :
  (ip3 <- for_range_down nb 0 (fun i ip => p <- aget ip (i - 1) ;; aset ip i p) (tab (nb + 1) f) ;;
   aset ip3 0 0)
  = Ok (tab (nb + 1) (fun k => match k with O => 0 | S k' => f k' end)).
Proof.
  loop_inv (fun i (ip : list nat) => length ip = nb + 1 /\ (forall k, k <= i -> nth k ip 0 = f k) /\
       (forall k, i < k <= nb -> nth k ip 0 = f (k - 1))) st E HI.
  3: { intros i s0 Hi (L & P & Q).
       rewrite (aget_nth _ _ 0) by lia. cbn [bind]. rewrite aset_ok by lia. eexists; split; [reflexivity|].
       split; [rewrite upd_length; auto|]. split.
       - intros k Hk. rewrite nth_upd_neq by lia. apply P; lia.
       - intros k Hk. destruct (Nat.eq_dec k i) as [->|].
         + rewrite nth_upd_eq by lia. apply P; lia.
         + rewrite nth_upd_neq by lia. apply Q; lia. }
  - lia.
  - split; [apply tab_length|]. split; [|lia]. intros k Hk. apply nth_tab. lia.
  - rewrite E. cbn [bind]. destruct HI as (L & P & Q). rewrite aset_ok by lia. f_equal.
    apply eq_tab with (d := 0); [rewrite upd_length; auto|].
    intros [|k] Hk.
    + rewrite nth_upd_eq by lia. reflexivity.
    + rewrite nth_upd_neq by lia. rewrite Q by lia. f_equal. lia.
Qed.

Lemma shift_back_temp nb (f : nat -> nat) :
  for_range 0 (nb + 1) (fun i '(ip, temp) => t <- aget ip i ;; ip' <- aset ip i temp ;; Ok (ip', t))
    (tab (nb + 1) f, 0)
  = Ok (tab (nb + 1) (fun k => match k with O => 0 | S k' => f k' end), f nb).
Proof.
  loop_inv (fun i (st : list nat * nat) => length (fst st) = nb + 1 /\
       snd st = (match i with O => 0 | S k' => f k' end) /\
       (forall k, i <= k <= nb -> nth k (fst st) 0 = f k) /\
       (forall k, k < i -> nth k (fst st) 0 = match k with O => 0 | S k' => f k' end)) st E HI.
  3: { intros i [ip temp] Hi (L & T & P & Q). cbn [fst snd] in *.
       rewrite (aget_nth _ _ 0) by lia. cbn [bind]. rewrite aset_ok by lia. cbn [bind].
       eexists; split; [reflexivity|]. cbn [fst snd]. split; [rewrite upd_length; auto|].
       split; [apply P; lia|]. split.
       - intros k Hk. rewrite nth_upd_neq by lia. apply P; lia.
       - intros k Hk. destruct (Nat.eq_dec k i) as [->|].
         + rewrite nth_upd_eq by lia. auto.
         + rewrite nth_upd_neq by lia. apply Q; lia. }
  - lia.
  - cbn [fst snd]. split; [apply tab_length|]. split; auto. split; [|lia]. intros k Hk. apply nth_tab. lia.
  - rewrite E. destruct st as [ip t]. destruct HI as (L & T & _ & Q). cbn [fst snd] in *. f_equal. f_equal.
    + apply eq_tab with (d := 0); auto.
    + rewrite T. rewrite Nat.add_1_r. reflexivity.
Qed.

(** * Filling buckets *)
Section Bucket.
  Context {X : Type}.
  Definition items (L : list (nat * X)) (c : nat) : list X := map snd (filter (fun p => fst p =? c) L).

  Lemma items_app L L' c : items (L ++ L') c = items L c ++ items L' c.
  Proof. unfold items. rewrite filter_app, map_app. reflexivity. Qed.

  Lemma items_cons p L c : items (p :: L) c = if fst p =? c then snd p :: items L c else items L c.
  Proof. unfold items. cbn [filter]. destruct (fst p =? c); reflexivity. Qed.

  Lemma in_items L c x : In x (items L c) <-> In (c, x) L.
  Proof.
    unfold items. rewrite in_map_iff. split.
    - intros ([c' x'] & E & H). apply filter_In in H as [H1 H2]. cbn [fst snd] in *. subst. apply Nat.eqb_eq in H2. subst; auto.
    - intros H. exists (c, x). split; auto. apply filter_In. split; auto. apply Nat.eqb_refl.
  Qed.
End Bucket.

(** Buffer in which bucket c has received [P c] and waits for [q c] more. *)
Definition part {X} (nb : nat) (P : nat -> list X) (q : nat -> nat) : buf X :=
  cat nb (fun c => map Some (P c) ++ alloc (q c)).

Lemma nsum_plus n f g : nsum n (fun i => f i + g i) = nsum n f + nsum n g.
Proof. induction n as [|n IH]; cbn [nsum]; auto. rewrite IH. lia. Qed.

Lemma part_wr {X} nb (P : nat -> list X) q c x sz :
  c < nb -> (forall k, k < nb -> length (P k) + q k = sz k) -> 0 < q c ->
  wr (part nb P q) (nsum c sz + length (P c)) x
  = Ok (part nb (fun k => if k =? c then P k ++ [x] else P k) (fun k => if k =? c then q k - 1 else q k)).
Proof.
  intros Hc Hsz Hq. unfold part.
  assert (HS : forall k, length (map Some (P k) ++ alloc (q k)) = length (P k) + q k).
  { intros k. rewrite app_length, map_length, alloc_length. reflexivity. }
  assert (Hlen : length (cat c (fun c => map Some (P c) ++ alloc (q c))) = nsum c sz).
  { rewrite cat_length. apply nsum_ext. intros k Hk. unfold len. rewrite HS. apply Hsz; lia. }
  (* split both at bucket c *)
  assert (Hgen : forall nb', c < nb' ->
    upd (cat nb' (fun c => map Some (P c) ++ alloc (q c))) (nsum c sz + length (P c)) (Some x)
    = cat nb' (fun k => map Some (if k =? c then P k ++ [x] else P k) ++ alloc (if k =? c then q k - 1 else q k)) /\
    nsum c sz + length (P c) < length (cat nb' (fun c => map Some (P c) ++ alloc (q c)))).
  { induction nb' as [|nb' IH]; intros Hn; [lia|]. rewrite !cat_S.
    destruct (Nat.eq_dec c nb') as [E|Hne].
    - subst nb'. rewrite Nat.eqb_refl. rewrite upd_app_r by (rewrite Hlen; lia).
      rewrite Hlen. replace (nsum c sz + length (P c) - nsum c sz) with (length (P c)) by lia.
      destruct (q c) as [|qc] eqn:Eq; [lia|]. rewrite alloc_S, upd_at by (rewrite map_length; auto).
      split.
      + f_equal.
        * apply cat_ext. intros k Hk. assert (k =? c = false) as -> by (apply Nat.eqb_neq; lia). reflexivity.
        * rewrite map_app, <- app_assoc. cbn [map app]. replace (S qc - 1) with qc by lia. reflexivity.
      + rewrite app_length, Hlen, app_length, map_length. cbn [length]. lia.
    - destruct (IH ltac:(lia)) as [E1 E2]. rewrite upd_app_l by auto. rewrite E1.
      assert (nb' =? c = false) as -> by (apply Nat.eqb_neq; lia). split; [reflexivity|].
      rewrite app_length. lia. }
  destruct (Hgen nb Hc) as [E1 E2]. rewrite wr_ok by auto. rewrite E1. reflexivity.
Qed.

Lemma part_ext {X} nb (P P' : nat -> list X) q q' :
  (forall c, c < nb -> P c = P' c) -> (forall c, c < nb -> q c = q' c) -> part nb P q = part nb P' q'.
Proof. intros H1 H2. apply cat_ext. intros c Hc. rewrite H1, H2 by auto. reflexivity. Qed.

Lemma part_done {X} nb (P : nat -> list X) q : (forall c, c < nb -> q c = 0) -> part nb P q = map Some (cat nb P).
Proof.
  intros H. unfold part. rewrite <- cat_map. apply cat_ext. intros c Hc. rewrite H by auto. apply app_nil_r.
Qed.

Lemma part_start {X} nb (q : nat -> nat) : part nb (fun _ => @nil X) q = alloc (nsum nb q).
Proof.
  unfold part. induction nb as [|nb IH]; [reflexivity|]. rewrite cat_S, IH. cbn [nsum map app].
  unfold alloc. rewrite repeat_app. reflexivity.
Qed.

(** One step of filling: write the pair (x, v) at the offset of bucket c and
    advance the offset. *)
Definition putb {A B} (c : nat) (x : A) (v : B) (st : list nat * buf A * buf B) : res (list nat * buf A * buf B) :=
  let '(ip, ind, dat) := st in
  p <- aget ip c ;; ind' <- wr ind p x ;; dat' <- wr dat p v ;; ip' <- aset ip c (p + 1) ;; Ok (ip', ind', dat').

Section Fill.
  Context {A B : Type}.
  Variable nb : nat.
  Variable L : list (nat * (A * B)).
  Hypothesis HL : forall p, In p L -> fst p < nb.

  Definition bsz (c : nat) : nat := length (items L c).
  (** state after the elements [P] of [L = P ++ Q] have been put *)
  Definition fill_state (P Q : list (nat * (A * B))) : list nat * buf A * buf B :=
    (tab (nb + 1) (fun c => nsum c bsz + (if c <? nb then length (items P c) else 0)),
     part nb (fun c => map fst (items P c)) (fun c => length (items Q c)),
     part nb (fun c => map snd (items P c)) (fun c => length (items Q c))).

  Lemma put_step P Q c x v : L = P ++ (c, (x, v)) :: Q ->
    putb c x v (fill_state P ((c, (x, v)) :: Q)) = Ok (fill_state (P ++ [(c, (x, v))]) Q).
  Proof using HL.
    intros E. assert (Hc : c < nb) by (apply (HL (c, (x, v))); rewrite E; apply in_or_app; right; left; auto).
    unfold putb, fill_state.
    rewrite (aget_nth _ _ 0) by (rewrite tab_length; lia). rewrite nth_tab by lia. cbn [bind].
    assert (Hlt : c <? nb = true) by (apply Nat.ltb_lt; auto). rewrite Hlt.
    assert (Hsz : forall k, length (items P k) + length (items ((c, (x, v)) :: Q) k) = bsz k).
    { intros k. unfold bsz. rewrite E, items_app, app_length. reflexivity. }
    assert (Hq : 0 < length (items ((c, (x, v)) :: Q) c)).
    { rewrite items_cons. cbn [fst]. rewrite Nat.eqb_refl. cbn [length]. lia. }
    pose proof (part_wr nb (fun k => map fst (items P k)) (fun k => length (items ((c, (x, v)) :: Q) k)) c x bsz Hc) as W1.
    pose proof (part_wr nb (fun k => map snd (items P k)) (fun k => length (items ((c, (x, v)) :: Q) k)) c v bsz Hc) as W2.
    cbn beta in W1, W2. rewrite map_length in W1, W2.
    rewrite W1 by (auto; intros k _; rewrite map_length; apply Hsz). cbn [bind].
    rewrite W2 by (auto; intros k _; rewrite map_length; apply Hsz).
    cbn [bind]. rewrite aset_ok by (rewrite tab_length; lia). cbn [bind].
    f_equal. f_equal; [f_equal|].
    - apply eq_tab with (d := 0); [rewrite upd_length; apply tab_length|].
      intros k Hk. destruct (Nat.eq_dec k c) as [->|Hne].
      + rewrite nth_upd_eq by (rewrite tab_length; lia). rewrite Hlt, items_app, app_length, items_cons.
        cbn [fst]. rewrite Nat.eqb_refl. cbn [length items filter map snd]. lia.
      + rewrite nth_upd_neq by auto. rewrite nth_tab by lia. rewrite items_app, items_cons.
        cbn [fst]. assert (c =? k = false) as -> by (apply Nat.eqb_neq; lia). cbn [items filter map].
        rewrite app_nil_r. reflexivity.
    - apply part_ext; intros k Hk.
      + rewrite items_app, items_cons. cbn [fst items filter map]. rewrite (Nat.eqb_sym c k).
        destruct (k =? c); rewrite ?app_nil_r; auto. rewrite map_app. reflexivity.
      + rewrite items_cons. cbn [fst snd]. rewrite (Nat.eqb_sym c k). destruct (k =? c); cbn [length]; lia.
    - apply part_ext; intros k Hk.
      + rewrite items_app, items_cons. cbn [fst items filter map]. rewrite (Nat.eqb_sym c k).
        destruct (k =? c); rewrite ?app_nil_r; auto. rewrite map_app. reflexivity.
      + rewrite items_cons. cbn [fst snd]. rewrite (Nat.eqb_sym c k). destruct (k =? c); cbn [length]; lia.
  Qed.

  Lemma fill_loop_ok :
    for_list L (fun p st => putb (fst p) (fst (snd p)) (snd (snd p)) st)
      (tab (nb + 1) (fun k => nsum k bsz), alloc (nsum nb bsz), alloc (nsum nb bsz))
    = Ok (fill_state L []).
  Proof using HL.
    assert (E0 : (tab (nb + 1) (fun k => nsum k bsz), alloc (nsum nb bsz), alloc (nsum nb bsz)) = fill_state [] L).
    { unfold fill_state. cbn [items filter map]. rewrite <- !part_start. f_equal. f_equal.
      apply tab_ext. intros k Hk. destruct (k <? nb); cbn [length]; lia. }
    rewrite E0.
    destruct (for_list_inv (fun P st => exists Q, L = P ++ Q /\ st = fill_state P Q)
      (fun p st => putb (fst p) (fst (snd p)) (snd (snd p)) st) L [] (fill_state [] L)) as (s' & E & Q & HQ & ->).
    - exists L. split; reflexivity.
    - intros p x q s0 Hpq (Q & HPQ & ->). cbn [app] in *.
      assert (Q = x :: q) as -> by (apply (app_inv_head p); rewrite <- HPQ; auto).
      destruct x as [c [x v]]. cbn [fst snd]. rewrite put_step by auto.
      eexists; split; [reflexivity|]. exists q. split; [rewrite <- app_assoc; auto|reflexivity].
    - rewrite E. cbn [app] in *. assert (Q = []) as ->.
      { apply (app_inv_head L). rewrite app_nil_r. auto. }
      reflexivity.
  Qed.

  Lemma fill_state_done :
    fill_state L [] = (tab (nb + 1) (fun c => nsum (if c <? nb then S c else nb) bsz),
       map Some (map fst (cat nb (items L))), map Some (map snd (cat nb (items L)))).
  Proof using Type.
    unfold fill_state. rewrite !part_done by (intros; reflexivity). rewrite !cat_map. f_equal. f_equal.
    apply tab_ext. intros c Hc. destruct (Nat.ltb_spec c nb).
    - cbn [nsum]. reflexivity.
    - replace c with nb by lia. lia.
  Qed.
End Fill.
