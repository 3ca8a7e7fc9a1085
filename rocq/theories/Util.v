(** Result monad, checked buffers and counted loops used by all models. *)
From Coq Require Export List Arith ZArith Lia Bool.
Export ListNotations.

(** [EOob]: access outside an allocated buffer (the code is compiled with
    boundscheck=False, so the real program would silently corrupt memory).
    [EUninit]: read of memory that was never written.  [EFuel]: artefact of a
    fuelled loop, excluded by every theorem.  The others are exceptions. *)
Inductive err := EOob | EUninit | EFuel | EKey | EIndex | EAssert | EType | EValue | EDiv0 | ENotImpl.

Inductive res (A : Type) : Type := Ok (a : A) | Err (e : err).
Arguments Ok {A} a.
Arguments Err {A} e.

Definition bind {A B} (x : res A) (f : A -> res B) : res B :=
  match x with Ok a => f a | Err e => Err e end.

Declare Scope res_scope.
Notation "x <- e ;; k" := (bind e (fun x => k))
  (at level 61, e at next level, right associativity) : res_scope.
Notation "' p <- e ;; k" := (bind e (fun p => k))
  (at level 61, p pattern, e at next level, right associativity) : res_scope.
Open Scope res_scope.

Definition guard (b : bool) (e : err) : res unit := if b then Ok tt else Err e.

(** Checked arrays. *)
Definition aget {A} (l : list A) (i : nat) : res A :=
  match nth_error l i with Some x => Ok x | None => Err EOob end.

Fixpoint upd {A} (l : list A) (i : nat) (x : A) : list A :=
  match l, i with
  | [], _ => []
  | _ :: t, O => x :: t
  | h :: t, S j => h :: upd t j x
  end.

Definition aset {A} (l : list A) (i : nat) (x : A) : res (list A) :=
  if i <? length l then Ok (upd l i x) else Err EOob.

(** Buffers whose cells may be uninitialised. *)
Notation buf A := (list (option A)) (only parsing).

Definition rd {A} (b : buf A) (i : nat) : res A :=
  match nth_error b i with
  | Some (Some x) => Ok x
  | Some None => Err EUninit
  | None => Err EOob
  end.

Definition wr {A} (b : buf A) (i : nat) (x : A) : res (buf A) := aset b i (Some x).

(** malloc / realloc of [n] cells: the common prefix is kept, the rest is
    uninitialised. *)
Definition alloc {A} (n : nat) : buf A := repeat None n.
Definition realloc {A} (b : buf A) (n : nat) : buf A := firstn n b ++ repeat None (n - length b).

(** Counted loops. *)
Fixpoint for_n {S} (n : nat) (i : nat) (f : nat -> S -> res S) (s : S) : res S :=
  match n with
  | O => Ok s
  | Datatypes.S m => s' <- f i s ;; for_n m (Datatypes.S i) f s'
  end.

(** [for i in range(lo, hi)]. *)
Definition for_range {S} (lo hi : nat) (f : nat -> S -> res S) (s : S) : res S :=
  for_n (hi - lo) lo f s.

(** [for i in range(hi, lo, -1)]: i = hi, hi-1, ..., lo+1. *)
Fixpoint for_down {S} (n : nat) (hi : nat) (f : nat -> S -> res S) (s : S) : res S :=
  match n with
  | O => Ok s
  | Datatypes.S m => s' <- f hi s ;; for_down m (hi - 1) f s'
  end.
Definition for_range_down {S} (hi lo : nat) (f : nat -> S -> res S) (s : S) : res S :=
  for_down (hi - lo) hi f s.

(** [for x in l]. *)
Fixpoint for_list {A S} (l : list A) (f : A -> S -> res S) (s : S) : res S :=
  match l with
  | [] => Ok s
  | x :: t => s' <- f x s ;; for_list t f s'
  end.

(** Basic lemmas. *)
Lemma bind_ok {A B} (x : res A) (f : A -> res B) b :
  bind x f = Ok b -> exists a, x = Ok a /\ f a = Ok b.
Proof. destruct x as [a|e]; simpl; intros H; [eauto|discriminate]. Qed.

Lemma upd_length {A} (l : list A) i x : length (upd l i x) = length l.
Proof. revert i; induction l as [|a l IH]; intros [|i]; simpl; auto. Qed.

Lemma nth_error_upd_eq {A} (l : list A) i x : i < length l -> nth_error (upd l i x) i = Some x.
Proof. revert i; induction l as [|a l IH]; intros [|i]; simpl; intros H; try lia; auto. apply IH; lia. Qed.

Lemma nth_error_upd_neq {A} (l : list A) i j x : i <> j -> nth_error (upd l i x) j = nth_error l j.
Proof. revert i j; induction l as [|a l IH]; intros [|i] [|j]; simpl; intros H; auto; try congruence. Qed.

Lemma nth_error_upd {A} (l : list A) i j x :
  nth_error (upd l i x) j = if (i =? j) && (i <? length l) then Some x else nth_error l j.
Proof.
  destruct (Nat.eqb_spec i j) as [->|H]; simpl.
  - destruct (Nat.ltb_spec j (length l)).
    + apply nth_error_upd_eq; lia.
    + assert (nth_error l j = None) as -> by (apply nth_error_None; lia).
      apply nth_error_None. rewrite upd_length; lia.
  - apply nth_error_upd_neq; auto.
Qed.

Lemma upd_app_l {A} (l l' : list A) i x : i < length l -> upd (l ++ l') i x = upd l i x ++ l'.
Proof. revert i; induction l as [|a l IH]; intros [|i]; simpl; intros H; try lia; auto. f_equal; apply IH; lia. Qed.

Lemma upd_app_r {A} (l l' : list A) i x : length l <= i -> upd (l ++ l') i x = l ++ upd l' (i - length l) x.
Proof.
  revert i; induction l as [|a l IH]; intros i; simpl; intros H; [f_equal; lia|].
  destruct i as [|i]; [lia|]. simpl. f_equal. apply IH; lia.
Qed.

Lemma upd_middle {A} (l l' : list A) y x : upd (l ++ y :: l') (length l) x = l ++ x :: l'.
Proof. rewrite upd_app_r by lia. rewrite Nat.sub_diag. reflexivity. Qed.

Lemma upd_at {A} (l l' : list A) y x k : k = length l -> upd (l ++ y :: l') k x = l ++ x :: l'.
Proof. intros ->; apply upd_middle. Qed.

Lemma upd_same {A} (l : list A) i x : nth_error l i = Some x -> upd l i x = l.
Proof. revert i; induction l as [|a l IH]; intros [|i]; simpl; intros H; try congruence. f_equal; auto. Qed.

Lemma upd_upd {A} (l : list A) i x y : upd (upd l i x) i y = upd l i y.
Proof. revert i; induction l as [|a l IH]; intros [|i]; simpl; auto. f_equal; auto. Qed.

Lemma map_upd {A B} (f : A -> B) l i x : map f (upd l i x) = upd (map f l) i (f x).
Proof. revert i; induction l as [|a l IH]; intros [|i]; simpl; auto. f_equal; auto. Qed.

Lemma nth_upd_eq {A} (l : list A) i x d : i < length l -> nth i (upd l i x) d = x.
Proof. revert i; induction l as [|a l IH]; intros [|i]; simpl; intros; try lia; auto. apply IH; lia. Qed.

Lemma nth_upd_neq {A} (l : list A) i j x d : i <> j -> nth j (upd l i x) d = nth j l d.
Proof. revert i j; induction l as [|a l IH]; intros [|i] [|j]; simpl; intros H; auto; try congruence. Qed.

Lemma aget_ok {A} (l : list A) i x : nth_error l i = Some x -> aget l i = Ok x.
Proof. unfold aget; intros ->; reflexivity. Qed.

Lemma aget_inv {A} (l : list A) i x : aget l i = Ok x -> nth_error l i = Some x.
Proof. unfold aget; destruct (nth_error l i); congruence. Qed.

Lemma aget_nth {A} (l : list A) i d : i < length l -> aget l i = Ok (nth i l d).
Proof. intros H. apply aget_ok. apply nth_error_nth'; auto. Qed.

Lemma aset_ok {A} (l : list A) i x : i < length l -> aset l i x = Ok (upd l i x).
Proof. intros H; unfold aset. destruct (Nat.ltb_spec i (length l)); [reflexivity|lia]. Qed.

Lemma aset_inv {A} (l : list A) i x l' : aset l i x = Ok l' -> i < length l /\ l' = upd l i x.
Proof. unfold aset; destruct (Nat.ltb_spec i (length l)); intros E; inversion E; auto. Qed.

Lemma rd_ok {A} (b : buf A) i x : nth_error b i = Some (Some x) -> rd b i = Ok x.
Proof. unfold rd; intros ->; reflexivity. Qed.

Lemma wr_ok {A} (b : buf A) i x : i < length b -> wr b i x = Ok (upd b i (Some x)).
Proof. apply aset_ok. Qed.

Lemma alloc_length {A} n : length (@alloc A n) = n.
Proof. apply repeat_length. Qed.

Lemma realloc_length {A} (b : buf A) n : length (realloc b n) = n.
Proof. unfold realloc. rewrite app_length, firstn_length, repeat_length. lia. Qed.

Lemma for_n_inv {S} (I : nat -> S -> Prop) f n : forall i s,
  I i s ->
  (forall k s0, i <= k < i + n -> I k s0 -> exists s1, f k s0 = Ok s1 /\ I (Datatypes.S k) s1) ->
  exists s', for_n n i f s = Ok s' /\ I (i + n) s'.
Proof.
  induction n as [|n IH]; intros i s Hs Hstep; simpl.
  - exists s. rewrite Nat.add_0_r. auto.
  - destruct (Hstep i s) as (s1 & E & H1); [lia|assumption|].
    rewrite E; simpl. destruct (IH (Datatypes.S i) s1) as (s' & E' & H'); auto.
    { intros k s0 Hk. apply Hstep; lia. }
    exists s'. split; auto. replace (i + Datatypes.S n) with (Datatypes.S i + n) by lia. assumption.
Qed.

Lemma for_range_inv {S} (I : nat -> S -> Prop) f lo hi s :
  lo <= hi -> I lo s ->
  (forall k s0, lo <= k < hi -> I k s0 -> exists s1, f k s0 = Ok s1 /\ I (Datatypes.S k) s1) ->
  exists s', for_range lo hi f s = Ok s' /\ I hi s'.
Proof.
  intros Hl Hs Hstep. unfold for_range.
  destruct (for_n_inv I f (hi - lo) lo s) as (s' & E & H); auto.
  - intros k s0 Hk. apply Hstep; lia.
  - exists s'. split; auto. replace (lo + (hi - lo)) with hi in H by lia. assumption.
Qed.

Lemma for_range_empty {S} (f : nat -> S -> res S) lo hi s : hi <= lo -> for_range lo hi f s = Ok s.
Proof. intros H; unfold for_range. replace (hi - lo) with 0 by lia. reflexivity. Qed.

Lemma for_down_inv {S} (I : nat -> S -> Prop) f n : forall hi s,
  n <= hi ->
  I hi s ->
  (forall k s0, hi - n < k <= hi -> I k s0 -> exists s1, f k s0 = Ok s1 /\ I (k - 1) s1) ->
  exists s', for_down n hi f s = Ok s' /\ I (hi - n) s'.
Proof.
  induction n as [|n IH]; intros hi s Hn Hs Hstep; simpl.
  - exists s. rewrite Nat.sub_0_r. auto.
  - destruct (Hstep hi s) as (s1 & E & H1); [lia|assumption|].
    rewrite E; simpl. destruct (IH (hi - 1) s1) as (s' & E' & H'); auto; try lia.
    { intros k s0 Hk. apply Hstep; lia. }
    exists s'. split; auto. replace (hi - Datatypes.S n) with (hi - 1 - n) by lia. assumption.
Qed.

Lemma for_range_down_inv {S} (I : nat -> S -> Prop) f hi lo s :
  lo <= hi -> I hi s ->
  (forall k s0, lo < k <= hi -> I k s0 -> exists s1, f k s0 = Ok s1 /\ I (k - 1) s1) ->
  exists s', for_range_down hi lo f s = Ok s' /\ I lo s'.
Proof.
  intros Hl Hs Hstep. unfold for_range_down.
  destruct (for_down_inv I f (hi - lo) hi s) as (s' & E & H); auto; try lia.
  - intros k s0 Hk. apply Hstep; lia.
  - exists s'. split; auto. replace (hi - (hi - lo)) with lo in H by lia. assumption.
Qed.

Lemma for_list_inv {A S} (I : list A -> S -> Prop) f (l : list A) : forall done s,
  I done s ->
  (forall p x q s0, l = p ++ x :: q -> I (done ++ p) s0 ->
     exists s1, f x s0 = Ok s1 /\ I (done ++ p ++ [x]) s1) ->
  exists s', for_list l f s = Ok s' /\ I (done ++ l) s'.
Proof.
  induction l as [|x l IH]; intros done s Hs Hstep; simpl.
  - exists s. rewrite app_nil_r. auto.
  - destruct (Hstep [] x l s) as (s1 & E & H1); [reflexivity|rewrite app_nil_r; assumption|].
    rewrite E; simpl. destruct (IH (done ++ [x]) s1) as (s' & E' & H'); auto.
    { intros p y q s0 Hl Hp. subst l. destruct (Hstep (x :: p) y q s0) as (s2 & E2 & H2); auto.
      - rewrite <- app_assoc in Hp. assumption.
      - exists s2. split; auto. rewrite <- app_assoc. exact H2. }
    exists s'. split; auto. rewrite <- app_assoc in H'. exact H'.
Qed.

Lemma for_list_app {A S} (l1 l2 : list A) (f : A -> S -> res S) s :
  for_list (l1 ++ l2) f s = bind (for_list l1 f s) (for_list l2 f).
Proof.
  revert s; induction l1 as [|x l IH]; intros s; simpl; [reflexivity|].
  destruct (f x s) as [s'|e]; simpl; auto.
Qed.

(** Apply an invariant to the (first) loop of the goal.  Leaves the goals:
    bounds, initialisation, step, and the continuation. *)
Ltac loop_inv Inv st E HI :=
  match goal with
  | |- context [for_range ?lo ?hi ?f ?s] =>
      destruct (for_range_inv Inv f lo hi s) as (st & E & HI)
  | |- context [for_range_down ?hi ?lo ?f ?s] =>
      destruct (for_range_down_inv Inv f hi lo s) as (st & E & HI)
  end.

Lemma alloc_S {A} n : @alloc A (S n) = None :: alloc n.
Proof. reflexivity. Qed.

(** Writing the next cell of a buffer filled from the front. *)
Lemma wr_next {A} (out : list A) m x :
  wr (map Some out ++ alloc (S m)) (length out) x = Ok (map Some (out ++ [x]) ++ alloc m).
Proof.
  rewrite wr_ok by (rewrite app_length, map_length, alloc_length; lia).
  rewrite alloc_S, upd_at by (rewrite map_length; reflexivity). rewrite map_app, <- app_assoc. reflexivity.
Qed.

(** Lists cut at a position. *)
Lemma firstn_at {A} (a b : list A) : firstn (length a) (a ++ b) = a.
Proof. rewrite firstn_app, Nat.sub_diag, firstn_all, firstn_O, app_nil_r. reflexivity. Qed.
Lemma skipn_at {A} (a b : list A) : skipn (length a) (a ++ b) = b.
Proof. rewrite skipn_app, Nat.sub_diag, skipn_all. reflexivity. Qed.
Lemma cut_at {A} (l : list A) i x : nth_error l i = Some x ->
  firstn (S i) l = firstn i l ++ [x] /\ skipn i l = x :: skipn (S i) l /\ i < length l.
Proof.
  intros E. assert (i < length l) by (apply nth_error_Some; congruence).
  apply nth_error_split in E as (a & b & -> & <-).
  replace (a ++ x :: b) with ((a ++ [x]) ++ b) at 1 4 by (rewrite <- app_assoc; reflexivity).
  replace (S (length a)) with (length (a ++ [x])) by (rewrite app_length; simpl; lia).
  rewrite !firstn_at, !skipn_at. auto.
Qed.
Lemma nth_error_lt {A} (l : list A) i : i < length l -> exists x, nth_error l i = Some x.
Proof. intros H. destruct (nth_error l i) eqn:E; eauto. apply nth_error_None in E; lia. Qed.
Lemma wr_next_at {A} (out : list A) m x k : k = length out ->
  wr (map Some out ++ alloc (S m)) k x = Ok (map Some (out ++ [x]) ++ alloc m).
Proof. intros ->. apply wr_next. Qed.
