(** Proofs about the substitution kernels. *)
From Coq Require Import Permutation.
From Verif Require Import Util Lin SparsitySpec CSRModel CSRSpec CSRProofs TriModel TriSpec.
Set Default Proof Using "Type".

Lemma qdiv_ok a b : b <> 0%Qc -> qdiv a b = Ok (a / b)%Qc.
Proof.
  intros H. unfold qdiv. destruct (Qc_eq_bool b 0) eqn:E; auto.
  apply Qc_eq_bool_correct in E. contradiction.
Qed.

Lemma set0_ok y : set0 y = Ok (map Some (tab (length y) (fun _ => 0%Qc))).
Proof. apply zero_loop. Qed.

Lemma for_back_inv {S} (I : nat -> S -> Prop) f n s :
  I n s -> (forall k s0, k < n -> I (Datatypes.S k) s0 -> exists s1, f k s0 = Ok s1 /\ I k s1) ->
  exists s', for_back n f s = Ok s' /\ I 0 s'.
Proof.
  intros H0 Hs. unfold for_back. apply for_range_down_inv; [lia|auto|].
  intros k s0 Hk HI. destruct k as [|k]; [lia|]. cbn [Nat.sub]. rewrite Nat.sub_0_r.
  apply Hs; auto; lia.
Qed.

(** * Sums split at the diagonal *)
Section Split.
  Local Open Scope Qc_scope.

  Definition sum_ge (n j : nat) (f : nat -> Qc) : Qc := sumf n (fun l => if (j <=? l)%nat then f l else 0).

  Lemma sum_ge_n n f : sum_ge n n f = 0.
  Proof. apply sumf_zero. intros i Hi. destruct (Nat.leb_spec n i); auto; lia. Qed.

  Lemma sum_ge_step n j f : (j < n)%nat -> sum_ge n j f = f j + sum_ge n (S j) f.
  Proof.
    intros H. unfold sum_ge.
    rewrite (sumf_ext n (fun l => if (j <=? l)%nat then f l else 0)
      (fun l => (if (l =? j)%nat then f l else 0) + (if (S j <=? l)%nat then f l else 0))).
    - rewrite sumf_plus, sumf_delta by auto. reflexivity.
    - intros i Hi. destruct (Nat.leb_spec j i), (Nat.eqb_spec i j), (Nat.leb_spec (S j) i); try lia; ring.
  Qed.

  Lemma sum_ge_ext n j f g : (forall l, (j <= l < n)%nat -> f l = g l) -> sum_ge n j f = sum_ge n j g.
  Proof. intros H. apply sumf_ext. intros i Hi. destruct (Nat.leb_spec j i); auto. Qed.

  Lemma sum_split n i f : (i < n)%nat -> sumf n f = sumf i f + f i + sum_ge n (S i) f.
  Proof.
    intros H. unfold sum_ge. replace n with (i + (n - i))%nat at 1 2 by lia. rewrite !sumf_app.
    rewrite (sumf_zero i (fun l => if (S i <=? l)%nat then f l else 0))
      by (intros l Hl; destruct (Nat.leb_spec (S i) l); auto; lia).
    destruct (n - i)%nat as [|r] eqn:E; [lia|]. rewrite !sumf_first. rewrite Nat.add_0_r.
    destruct (Nat.leb_spec (S i) i) as [Hh|_]; [lia|].
    rewrite (sumf_ext r (fun l => if (S i <=? i + S l)%nat then f (i + S l)%nat else 0) (fun l => f (i + S l)%nat)).
    - ring.
    - intros l Hl. destruct (Nat.leb_spec (S i) (i + S l)); auto; lia.
  Qed.

  Definition lowertri (n : nat) (M : mat) : Prop :=
    (forall i j, (i < n)%nat -> (i < j < n)%nat -> M i j = 0) /\ forall i, (i < n)%nat -> M i i <> 0.
  Definition uppertri (n : nat) (M : mat) : Prop :=
    (forall i j, (i < n)%nat -> (j < i)%nat -> M i j = 0) /\ forall i, (i < n)%nat -> M i i <> 0.

  Lemma mv_lower n M x i : lowertri n M -> (i < n)%nat -> mv n M x i = sumf i (fun j => M i j * x j) + M i i * x i.
  Proof.
    intros [H _] Hi. unfold mv. rewrite (sum_split n i) by auto.
    replace (sum_ge n (S i) (fun j => M i j * x j)) with (0:Qc); [ring|].
    unfold sum_ge. rewrite sumf_zero; auto. intros l Hl. destruct (Nat.leb_spec (S i) l); auto.
    rewrite H by lia. ring.
  Qed.

  Lemma mv_upper n M x i : uppertri n M -> (i < n)%nat -> mv n M x i = sum_ge n (S i) (fun j => M i j * x j) + M i i * x i.
  Proof.
    intros [H _] Hi. unfold mv. rewrite (sum_split n i) by auto.
    rewrite (sumf_zero i); [ring|]. intros l Hl. rewrite H by lia. ring.
  Qed.

  Lemma qc_cancel (d a b : Qc) : d <> 0 -> d * a = d * b -> a = b.
  Proof.
    intros Hd H. replace a with (d * a / d) by (field; auto). rewrite H. field; auto.
  Qed.

  Lemma lower_unique n M x z : lowertri n M ->
    (forall i, (i < n)%nat -> mv n M x i = mv n M z i) -> forall i, (i < n)%nat -> x i = z i.
  Proof.
    intros HM He i. induction i as [i IH] using (well_founded_induction lt_wf). intros Hi.
    specialize (He i Hi). rewrite !(mv_lower n M _ i HM Hi) in He.
    rewrite (sumf_ext i (fun j => M i j * x j) (fun j => M i j * z j)) in He by (intros l Hl; rewrite IH by lia; auto).
    apply (qc_cancel (M i i)); [apply HM; auto|].
    replace (M i i * x i) with (sumf i (fun j => M i j * z j) + M i i * x i - sumf i (fun j => M i j * z j)) by ring.
    rewrite He. ring.
  Qed.

  Lemma upper_unique n M x z : uppertri n M ->
    (forall i, (i < n)%nat -> mv n M x i = mv n M z i) -> forall i, (i < n)%nat -> x i = z i.
  Proof.
    intros HM He.
    assert (H : forall k i, (n - i <= k)%nat -> (i < n)%nat -> x i = z i).
    { induction k as [|k IH]; intros i Hk Hi; [lia|].
      specialize (He i Hi). rewrite !(mv_upper n M _ i HM Hi) in He.
      rewrite (sum_ge_ext n (S i) (fun j => M i j * x j) (fun j => M i j * z j)) in He
        by (intros l Hl; rewrite (IH l) by lia; auto).
      apply (qc_cancel (M i i)); [apply HM; auto|].
      replace (M i i * x i) with (sum_ge n (S i) (fun j => M i j * z j) + M i i * x i - sum_ge n (S i) (fun j => M i j * z j)) by ring.
      rewrite He. ring. }
    intros i Hi. apply (H (n - i)%nat); lia.
  Qed.
End Split.

Lemma the_solution_of n M b x : (lowertri n M \/ uppertri n M) -> is_solution n M b x -> the_solution n M b x.
Proof.
  intros HM [Hl Hx] z. split.
  - intros [Hz He]. apply vec_ext; [lia|]. intros i Hi. rewrite Hz in Hi. revert i Hi.
    destruct HM as [HM|HM]; [apply (lower_unique n M)|apply (upper_unique n M)]; auto;
      intros i Hi; rewrite He, Hx; auto.
  - intros ->. split; auto.
Qed.

(** * Generic substitution loops *)
Section Generic.
  Variables (n : nat) (M : mat) (b y0 : list Qc).
  Hypothesis Ly : length y0 = n.

  Lemma forward_gen (body : nat -> buf Qc -> res (buf Qc)) :
    lowertri n M ->
    (forall j yl, j < n -> length yl = n -> exists yl', body j (map Some yl) = Ok (map Some yl') /\ length yl' = n /\
       (M j j * vat yl' j = vat b j - vat yl j)%Qc /\
       forall k, k < n -> k <> j -> vat yl' k = (vat yl k + (if j <? k then M k j * vat yl' j else 0))%Qc) ->
    exists y, for_range 0 n body (map Some y0) = Ok (map Some y) /\
      the_solution n M (tab n (fun i => vat b i - vat y0 i)%Qc) y.
  Proof using Ly.
    intros HM Hb.
    loop_inv (fun j y => exists yl, y = map Some yl /\ length yl = n /\
      (forall k, k < j -> (sumf k (fun l => M k l * vat yl l) + M k k * vat yl k = vat b k - vat y0 k)%Qc) /\
      (forall k, j <= k < n -> (vat yl k = vat y0 k + sumf j (fun l => M k l * vat yl l))%Qc)) st E HI.
    3: { intros j y Hj (yl & -> & Hl & H1 & H2). destruct (Hb j yl) as (yl' & Eb & Hl' & Hd & Hk); [lia|auto|].
         exists (map Some yl'). split; auto. exists yl'. split; auto. split; auto.
         assert (Hlow : forall k, k < j -> vat yl' k = vat yl k).
         { intros k Hkj. rewrite Hk by lia. destruct (Nat.ltb_spec j k); [lia|]. ring. }
         split.
         - intros k Hkj. destruct (Nat.eq_dec k j) as [->|Hne].
           + rewrite Hd, H2 by lia. rewrite (sumf_ext j (fun l => M j l * vat yl' l)%Qc (fun l => M j l * vat yl l)%Qc)
               by (intros l Hlj; rewrite Hlow by lia; auto). ring.
           + rewrite <- H1 by lia. rewrite (Hlow k) by lia. f_equal.
             apply sumf_ext. intros l Hlk. rewrite Hlow by lia. auto.
         - intros k Hkj. rewrite Hk by lia. destruct (Nat.ltb_spec j k) as [_|]; [|lia].
           rewrite H2 by lia. cbn [sumf].
           rewrite (sumf_ext j (fun l => M k l * vat yl' l)%Qc (fun l => M k l * vat yl l)%Qc)
             by (intros l Hlj; rewrite Hlow by lia; auto). ring. }
    - lia.
    - exists y0. split; auto. split; auto. split; [intros; lia|]. intros k Hk. cbn [sumf]. ring.
    - destruct HI as (yl & -> & Hl & H1 & _). exists yl. split; auto.
      apply the_solution_of; auto. split; auto. intros i Hi. rewrite (mv_lower n M) by auto.
      rewrite vat_tab by auto. auto.
  Qed.

  Lemma backward_gen (body : nat -> buf Qc -> res (buf Qc)) :
    uppertri n M ->
    (forall j yl, j < n -> length yl = n -> exists yl', body j (map Some yl) = Ok (map Some yl') /\ length yl' = n /\
       (M j j * vat yl' j = vat b j - vat yl j)%Qc /\
       forall k, k < n -> k <> j -> vat yl' k = (vat yl k + (if k <? j then M k j * vat yl' j else 0))%Qc) ->
    exists y, for_back n body (map Some y0) = Ok (map Some y) /\
      the_solution n M (tab n (fun i => vat b i - vat y0 i)%Qc) y.
  Proof using Ly.
    intros HM Hb.
    destruct (for_back_inv (fun j y => exists yl, y = map Some yl /\ length yl = n /\
      (forall k, j <= k < n -> (sum_ge n (S k) (fun l => M k l * vat yl l) + M k k * vat yl k = vat b k - vat y0 k)%Qc) /\
      (forall k, k < j -> (vat yl k = vat y0 k + sum_ge n j (fun l => M k l * vat yl l))%Qc)) body n (map Some y0))
      as (st & E & HI).
    - exists y0. split; auto. split; auto. split; [intros; lia|]. intros k Hk. rewrite sum_ge_n. ring.
    - intros j y Hj (yl & -> & Hl & H1 & H2). destruct (Hb j yl) as (yl' & Eb & Hl' & Hd & Hk); [lia|auto|].
         exists (map Some yl'). split; auto. exists yl'. split; auto. split; auto.
         assert (Hup : forall k, j < k < n -> vat yl' k = vat yl k).
         { intros k Hkj. rewrite Hk by lia. destruct (Nat.ltb_spec k j); [lia|]. ring. }
         split.
         + intros k Hkj. destruct (Nat.eq_dec k j) as [->|Hne].
           * rewrite Hd, H2 by lia. rewrite (sum_ge_ext n (S j) (fun l => M j l * vat yl' l)%Qc (fun l => M j l * vat yl l)%Qc)
               by (intros l Hlj; rewrite Hup by lia; auto). ring.
           * rewrite <- H1 by lia. rewrite (Hup k) by lia. f_equal.
             apply sum_ge_ext. intros l Hlk. rewrite Hup by lia. auto.
         + intros k Hkj. rewrite Hk by lia. destruct (Nat.ltb_spec k j) as [_|]; [|lia].
           rewrite H2 by lia. rewrite (sum_ge_step n j) by auto.
           rewrite (sum_ge_ext n (S j) (fun l => M k l * vat yl' l)%Qc (fun l => M k l * vat yl l)%Qc)
             by (intros l Hlj; rewrite Hup by lia; auto). ring.
    - destruct HI as (yl & -> & Hl & H1 & _). exists yl. split; auto.
      apply the_solution_of; auto. split; auto. intros i Hi. rewrite (mv_upper n M) by auto.
      rewrite vat_tab by auto. apply H1; lia.
  Qed.

  (** Row-oriented back substitution: the output buffer may be uninitialised. *)
  Lemma backward_row_gen (body : nat -> buf Qc -> res (buf Qc)) (yb : buf Qc) :
    uppertri n M -> length yb = n ->
    (forall i (u : nat -> Qc) (y : buf Qc), i < n -> length y = n ->
       (forall k, i < k < n -> nth_error y k = Some (Some (u k))) ->
       nth_error y i = nth_error yb i ->
       exists v, body i y = wr y i v /\ (M i i * v = vat b i - sum_ge n (S i) (fun l => M i l * u l))%Qc) ->
    exists y, for_back n body yb = Ok (map Some y) /\ the_solution n M b y.
  Proof.
    clear y0 Ly. intros HM Hyb Hb.
    destruct (for_back_inv (fun j y => length y = n /\ exists u : nat -> Qc,
      (forall k, j <= k < n -> nth_error y k = Some (Some (u k))) /\
      (forall k, k < j -> nth_error y k = nth_error yb k) /\
      (forall k, j <= k < n -> (sum_ge n (S k) (fun l => M k l * u l) + M k k * u k = vat b k)%Qc)) body n yb)
      as (st & E & HI).
    - split; auto. exists (fun _ => 0%Qc). split; [intros; lia|]. split; auto. intros; lia.
    - intros j y Hj (Hl & u & H1 & H2 & H3).
      destruct (Hb j u y) as (v & Ev & Hv); auto.
      eexists. split; [rewrite Ev; apply wr_ok; lia|]. split; [rewrite upd_length; auto|].
      exists (fun k => if k =? j then v else u k). split; [|split].
      + intros k Hk. rewrite nth_error_upd, Hl. destruct (Nat.eqb_spec j k), (Nat.ltb_spec j n), (Nat.eqb_spec k j);
          try lia; cbn [andb]; auto. apply H1; lia.
      + intros k Hk. rewrite nth_error_upd_neq by lia. auto.
      + intros k Hk.
        rewrite (sum_ge_ext n (S k) _ (fun l => M k l * u l)%Qc)
          by (intros l Hlk; destruct (Nat.eqb_spec l j); [lia|auto]).
        destruct (Nat.eqb_spec k j); [subst; rewrite Hv; ring|]. apply H3; lia.
    - destruct HI as (Hl & u & H1 & _ & H3). exists (tab n u). split.
      + rewrite E. f_equal. apply nth_ext with (d := None) (d' := None); [rewrite map_length, tab_length; auto|].
        intros k Hk. rewrite Hl in Hk. erewrite nth_error_nth by (apply H1; lia).
        erewrite nth_error_nth; [reflexivity|]. erewrite map_nth_error; [reflexivity|].
        rewrite nth_error_tab; auto.
      + apply the_solution_of; auto. split; [apply tab_length|]. intros i Hi. rewrite (mv_upper n M) by auto.
        rewrite vat_tab, <- H3 by lia. f_equal. apply sum_ge_ext. intros l Hl'. rewrite vat_tab by lia. auto.
  Qed.
End Generic.

(** * The scatter loop that re-reads y[j] *)
Lemma scatter_self (col : list (nat * Qc)) j : forall yl, j < length yl ->
  (forall p, In p col -> fst p < length yl /\ fst p <> j) ->
  exists yl', for_list col (fun p y => yj <- rd y j ;; addto y (fst p) (snd p * yj)%Qc) (map Some yl) = Ok (map Some yl') /\
    length yl' = length yl /\ forall k, vat yl' k = (vat yl k + ent col k * vat yl j)%Qc.
Proof.
  induction col as [|p col IH]; intros yl Hj H; cbn [for_list].
  - exists yl. split; auto. split; auto. intros; rewrite ent_nil; ring.
  - destruct (H p (or_introl eq_refl)) as [H1 H2].
    rewrite (rd_some _ _ 0%Qc) by auto. cbn [bind]. rewrite addto_ok by auto. cbn [bind].
    destruct (IH (upd yl (fst p) (vat yl (fst p) + snd p * vat yl j)%Qc)) as (yl' & E & L & V).
    + rewrite upd_length; auto.
    + intros q Hq. rewrite upd_length. apply H; right; auto.
    + exists yl'. unfold vat at 2 in E. rewrite E. split; auto. split; [rewrite L, upd_length; auto|].
      intros k. rewrite V, !vat_upd, ent_cons by auto.
      destruct (Nat.eqb_spec j (fst p)); [congruence|].
      rewrite (Nat.eqb_sym (fst p) k). destruct (Nat.eqb_spec k (fst p)); subst; ring.
Qed.
