(** Exact scalars, finite sums, vectors and matrices given entry-wise: the
    specification vocabulary of the linear algebra models, with its lemmas. *)
From Coq Require Export QArith Qcanon.
From Verif Require Export Util.
Close Scope Q_scope.
Open Scope nat_scope.

Delimit Scope Qc_scope with Qc.

(** [tab n f] is the list f 0, ..., f (n-1). *)
Definition tab {A} (n : nat) (f : nat -> A) : list A := map f (seq 0 n).

(** Entry of a vector. *)
Definition vat (v : list Qc) (i : nat) : Qc := nth i v 0%Qc.

(** Sum of f 0, ..., f (n-1). *)
Fixpoint sumf (n : nat) (f : nat -> Qc) : Qc :=
  match n with O => 0%Qc | S k => (sumf k f + f k)%Qc end.

(** Sum of a list. *)
Fixpoint suml (l : list Qc) : Qc :=
  match l with [] => 0%Qc | x :: t => (x + suml t)%Qc end.

(** Matrices given by their entries, and the matrix-vector product with [m]
    columns. *)
Definition mat := nat -> nat -> Qc.
Definition mv (m : nat) (A : mat) (x : nat -> Qc) (i : nat) : Qc := sumf m (fun j => (A i j * x j)%Qc).
Definition mt (A : mat) : mat := fun i j => A j i.
Definition mm (k : nat) (A B : mat) : mat := fun i j => sumf k (fun l => (A i l * B l j)%Qc).
Definition dotf (n : nat) (x y : nat -> Qc) : Qc := sumf n (fun i => (x i * y i)%Qc).

(** * tab *)
Lemma tab_length {A} n (f : nat -> A) : length (tab n f) = n.
Proof. unfold tab. rewrite map_length, seq_length. reflexivity. Qed.

Lemma nth_error_tab {A} n (f : nat -> A) i : i < n -> nth_error (tab n f) i = Some (f i).
Proof.
  intros H. unfold tab. rewrite nth_error_map, (nth_error_nth' _ 0) by (rewrite seq_length; auto).
  rewrite seq_nth by auto. reflexivity.
Qed.

Lemma nth_tab {A} n (f : nat -> A) i d : i < n -> nth i (tab n f) d = f i.
Proof. intros H. apply nth_error_nth, nth_error_tab; auto. Qed.

Lemma tab_ext {A} n (f g : nat -> A) : (forall i, i < n -> f i = g i) -> tab n f = tab n g.
Proof. intros H. apply map_ext_in. intros i Hi. apply in_seq in Hi. apply H; lia. Qed.

Lemma tab_S {A} n (f : nat -> A) : tab (S n) f = tab n f ++ [f n].
Proof. unfold tab. rewrite seq_S, map_app. reflexivity. Qed.

Lemma list_eq_tab {A} (l : list A) d : l = tab (length l) (fun i => nth i l d).
Proof.
  apply nth_ext with (d := d) (d' := d); [rewrite tab_length; auto|].
  intros i Hi. rewrite nth_tab; auto.
Qed.

Lemma eq_tab {A} (l : list A) n f d : length l = n -> (forall i, i < n -> nth i l d = f i) -> l = tab n f.
Proof. intros <- H. rewrite (list_eq_tab l d) at 1. apply tab_ext; auto. Qed.

Lemma vat_tab n f i : i < n -> vat (tab n f) i = f i.
Proof. apply nth_tab. Qed.

Lemma vat_overflow v i : length v <= i -> vat v i = 0%Qc.
Proof. apply nth_overflow. Qed.

Lemma vat_nth_error v i x : nth_error v i = Some x -> vat v i = x.
Proof. intros H. apply nth_error_nth; auto. Qed.

Lemma nth_error_vat v i : i < length v -> nth_error v i = Some (vat v i).
Proof. intros H. apply nth_error_nth'; auto. Qed.

Lemma vec_ext u v : length u = length v -> (forall i, i < length u -> vat u i = vat v i) -> u = v.
Proof. intros H1 H2. apply nth_ext with (d := 0%Qc) (d' := 0%Qc); auto. Qed.

(** * Sums *)
Section Sums.
  Local Open Scope Qc_scope.

  Lemma sumf_ext n f g : (forall i, (i < n)%nat -> f i = g i) -> sumf n f = sumf n g.
  Proof. induction n as [|n IH]; intros H; cbn [sumf]; auto. rewrite IH, H; auto. Qed.

  Lemma sumf_0 n : sumf n (fun _ => 0) = 0.
  Proof. induction n as [|n IH]; cbn [sumf]; auto. rewrite IH. ring. Qed.

  Lemma sumf_zero n f : (forall i, (i < n)%nat -> f i = 0) -> sumf n f = 0.
  Proof. intros H. rewrite (sumf_ext n f (fun _ => 0)); auto. apply sumf_0. Qed.

  Lemma sumf_plus n f g : sumf n (fun i => f i + g i) = sumf n f + sumf n g.
  Proof. induction n as [|n IH]; cbn [sumf]; [ring|]. rewrite IH. ring. Qed.

  Lemma sumf_opp n f : sumf n (fun i => - f i) = - sumf n f.
  Proof. induction n as [|n IH]; cbn [sumf]; [ring|]. rewrite IH. ring. Qed.

  Lemma sumf_minus n f g : sumf n (fun i => f i - g i) = sumf n f - sumf n g.
  Proof. induction n as [|n IH]; cbn [sumf]; [ring|]. rewrite IH. ring. Qed.

  Lemma sumf_scal n c f : sumf n (fun i => c * f i) = c * sumf n f.
  Proof. induction n as [|n IH]; cbn [sumf]; [ring|]. rewrite IH. ring. Qed.

  Lemma sumf_scal_r n c f : sumf n (fun i => f i * c) = sumf n f * c.
  Proof. induction n as [|n IH]; cbn [sumf]; [ring|]. rewrite IH. ring. Qed.

  Lemma sumf_swap n m f : sumf n (fun i => sumf m (fun j => f i j)) = sumf m (fun j => sumf n (fun i => f i j)).
  Proof.
    induction n as [|n IH]; cbn [sumf].
    - rewrite sumf_0. reflexivity.
    - rewrite IH, <- sumf_plus. reflexivity.
  Qed.

  Lemma sumf_app n k f : sumf (n + k) f = sumf n f + sumf k (fun i => f (n + i)%nat).
  Proof.
    induction k as [|k IH]; cbn [sumf].
    - rewrite Nat.add_0_r. ring.
    - rewrite Nat.add_succ_r. cbn [sumf]. rewrite IH. ring.
  Qed.

  Lemma sumf_first n f : sumf (S n) f = f 0%nat + sumf n (fun i => f (S i)).
  Proof. change (S n) with (1 + n)%nat. rewrite (sumf_app 1 n f). cbn [sumf Nat.add]. ring. Qed.

  (** The sum with all terms but one equal to zero. *)
  Lemma sumf_single n f k : (k < n)%nat -> (forall i, (i < n)%nat -> i <> k -> f i = 0) -> sumf n f = f k.
  Proof.
    induction n as [|n IH]; intros Hk H; [lia|]. cbn [sumf].
    destruct (Nat.eq_dec k n) as [->|Hne].
    - rewrite sumf_zero; [ring|]. intros i Hi. apply H; lia.
    - rewrite (IH ltac:(lia)) by (intros; apply H; lia). rewrite (H n) by lia. ring.
  Qed.

  Lemma sumf_delta n (f : nat -> Qc) k : (k < n)%nat -> sumf n (fun i => if (i =? k)%nat then f i else 0) = f k.
  Proof.
    intros Hk. rewrite (sumf_single n _ k Hk); [rewrite Nat.eqb_refl; auto|].
    intros i _ Hne. apply Nat.eqb_neq in Hne. rewrite Hne. reflexivity.
  Qed.

  Lemma sumf_extend n m f : (n <= m)%nat -> (forall i, (n <= i < m)%nat -> f i = 0) -> sumf m f = sumf n f.
  Proof.
    intros H Hz. replace m with (n + (m - n))%nat by lia. rewrite sumf_app, (sumf_zero (m - n)); [ring|].
    intros i Hi. apply Hz; lia.
  Qed.

  Lemma suml_app a b : suml (a ++ b) = suml a + suml b.
  Proof. induction a as [|x a IH]; cbn [suml app]; [ring|]. rewrite IH. ring. Qed.

  Lemma suml_tab n f : suml (tab n f) = sumf n f.
  Proof.
    induction n as [|n IH]; [reflexivity|]. rewrite tab_S, suml_app, IH. cbn [suml sumf]. ring.
  Qed.

  Lemma suml_map_plus {A} (l : list A) f g : suml (map (fun x => f x + g x) l) = suml (map f l) + suml (map g l).
  Proof. induction l as [|x l IH]; cbn [suml map]; [ring|]. rewrite IH. ring. Qed.

  Lemma suml_map_scal {A} (l : list A) c f : suml (map (fun x => c * f x) l) = c * suml (map f l).
  Proof. induction l as [|x l IH]; cbn [suml map]; [ring|]. rewrite IH. ring. Qed.

  Lemma suml_map_zero {A} (l : list A) f : (forall x, In x l -> f x = 0) -> suml (map f l) = 0.
  Proof.
    induction l as [|x l IH]; intros H; cbn [suml map]; [ring|].
    rewrite (H x (or_introl eq_refl)), IH; [ring|]. intros y Hy; apply H; right; auto.
  Qed.

  Lemma sumf_suml_swap {A} n (l : list A) (f : nat -> A -> Qc) :
    sumf n (fun i => suml (map (f i) l)) = suml (map (fun x => sumf n (fun i => f i x)) l).
  Proof.
    induction l as [|x l IH]; cbn [suml map].
    - apply sumf_0.
    - rewrite sumf_plus, IH. reflexivity.
  Qed.

  Lemma dotf_comm n x y : dotf n x y = dotf n y x.
  Proof. unfold dotf. apply sumf_ext. intros; ring. Qed.

  Lemma mv_adjoint n m A x y : dotf n y (mv m A x) = dotf m (mv n (mt A) y) x.
  Proof.
    unfold dotf, mv, mt.
    rewrite (sumf_ext n _ (fun i => sumf m (fun j => y i * (A i j * x j)))) by (intros; rewrite sumf_scal; auto).
    rewrite sumf_swap. apply sumf_ext. intros j Hj. rewrite <- sumf_scal_r. apply sumf_ext. intros; ring.
  Qed.
End Sums.

(** * Output buffers *)

(** Loop writing cell after cell; the value for cell i may depend on the old
    content of cell i. *)
Lemma fill_loop {A} n (body : nat -> buf A -> res (buf A)) (y0 : buf A) f :
  length y0 = n ->
  (forall i y, i < n -> length y = n -> nth_error y i = nth_error y0 i -> body i y = wr y i (f i)) ->
  for_range 0 n body y0 = Ok (map Some (tab n f)).
Proof.
  intros Hl Hb.
  destruct (for_range_inv (fun i y => y = map Some (tab i f) ++ skipn i y0) body 0 n y0) as (y & E & HI).
  - lia.
  - reflexivity.
  - intros i y Hi ->. destruct (nth_error_lt y0 i) as (c & Ec); [lia|].
    destruct (cut_at _ _ _ Ec) as (_ & Hs & _).
    rewrite Hb.
    + eexists; split.
      * apply wr_ok. rewrite app_length, map_length, tab_length, skipn_length. lia.
      * rewrite Hs, upd_at by (rewrite map_length, tab_length; auto).
        rewrite tab_S, map_app, <- app_assoc. reflexivity.
    + lia.
    + rewrite app_length, map_length, tab_length, skipn_length. lia.
    + rewrite nth_error_app2 by (rewrite map_length, tab_length; lia).
      rewrite map_length, tab_length, Nat.sub_diag, Hs. cbn. auto.
  - rewrite E, HI, <- Hl, skipn_all, app_nil_r. reflexivity.
Qed.

(** y[j] += v *)
Definition addto (y : buf Qc) (j : nat) (v : Qc) : res (buf Qc) :=
  o <- rd y j ;; wr y j (o + v)%Qc.

Lemma rd_some {A} (l : list A) i d : i < length l -> rd (map Some l) i = Ok (nth i l d).
Proof. intros H. apply rd_ok. erewrite map_nth_error; [reflexivity|]. apply nth_error_nth'; auto. Qed.

Lemma wr_some {A} (l : list A) i x : i < length l -> wr (map Some l) i x = Ok (map Some (upd l i x)).
Proof. intros H. rewrite wr_ok by (rewrite map_length; auto). rewrite map_upd. reflexivity. Qed.

Lemma addto_ok yl j v : j < length yl -> addto (map Some yl) j v = Ok (map Some (upd yl j (vat yl j + v)%Qc)).
Proof.
  intros H. unfold addto. rewrite (rd_some _ _ 0%Qc) by auto. cbn [bind]. apply wr_some; auto.
Qed.

Lemma vat_upd yl j v k : j < length yl -> vat (upd yl j v) k = if k =? j then v else vat yl k.
Proof.
  intros H. unfold vat. destruct (Nat.eqb_spec k j) as [->|Hne].
  - apply nth_upd_eq; auto.
  - apply nth_upd_neq; auto.
Qed.

(** A result buffer all of whose cells must have been written. *)
Fixpoint all_init {A} (b : buf A) : res (list A) :=
  match b with
  | [] => Ok []
  | Some x :: t => r <- all_init t ;; Ok (x :: r)
  | None :: _ => Err EUninit
  end.

Lemma all_init_some {A} (l : list A) : all_init (map Some l) = Ok l.
Proof. induction l as [|x l IH]; cbn [map all_init]; auto. rewrite IH. reflexivity. Qed.

(** For examples: small constants and plain rationals to print. *)
Definition qz (z : Z) : Qc := Q2Qc (inject_Z z).
Definition show_buf (r : res (buf Qc)) : res (list (option Q)) :=
  b <- r ;; Ok (map (option_map this) b).
Definition show_list (r : res (list Qc)) : res (list Q) := b <- r ;; Ok (map this b).
Definition show_one (r : res Qc) : res Q := b <- r ;; Ok (this b).

Lemma show_list_eq r l : show_list r = Ok (map this l) -> r = Ok l.
Proof.
  destruct r as [a|e]; cbn; [|discriminate]. intros H. injection H as H. f_equal. revert l H.
  induction a as [|x a IH]; intros [|y l] H; cbn in H; try discriminate; auto. injection H as H1 H2. f_equal; auto.
  apply Qc_is_canon. rewrite H1. reflexivity.
Qed.
Lemma show_buf_eq r l : show_buf r = Ok (map (option_map this) l) -> r = Ok l.
Proof.
  destruct r as [a|e]; cbn; [|discriminate]. intros H. injection H as H. f_equal. revert l H.
  induction a as [|x a IH]; intros [|y l] H; cbn in H; try discriminate; auto. injection H as H1 H2. f_equal; auto.
  destruct x, y; cbn in H1; try discriminate; auto. injection H1 as H1. f_equal. apply Qc_is_canon. rewrite H1. reflexivity.
Qed.
