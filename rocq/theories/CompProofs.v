(** Heaps, views, and operations on vectors. *)
From Verif Require Import Util Lin CSRModel CSRSpec DenseModel DenseSpec SmootherModel SmootherProofs3 CompModel CompSpec.

Lemma bind_Ok {X Y} (x : X) (f : X -> res Y) : bind (Ok x) f = f x.
Proof. reflexivity. Qed.

Lemma nth_error_contents h v r : nth_error (contents h v) r = if r <? v_len v then nth_error (nth (v_buf v) h []) (v_off v + r) else None.
Proof.
  unfold contents. generalize (nth (v_buf v) h []). intros b. destruct (Nat.ltb_spec r (v_len v)) as [H|H].
  - transitivity (nth_error (skipn (v_off v) b) r).
    + generalize (skipn (v_off v) b) as c. clear b. revert r H. generalize (v_len v) as k. induction k as [|k IH]; intros r H c; [lia|].
      destruct c as [|c0 c]; [destruct r; reflexivity|]. destruct r as [|r]; [reflexivity|]. cbn [firstn nth_error]. apply IH. lia.
    + revert b. generalize (v_off v) as o. induction o as [|o IH]; intros b; [reflexivity|]. destruct b as [|b0 b]; [cbn [skipn]; destruct r; reflexivity|]. cbn [skipn]. apply IH.
  - apply nth_error_None. rewrite firstn_length. lia.
Qed.
Lemma contents_length h v : inside h v -> length (contents h v) = v_len v.
Proof. unfold inside, contents. intros H. rewrite firstn_length, skipn_length. lia. Qed.
Lemma list_ext {A} (l l' : list A) : (forall i, nth_error l i = nth_error l' i) -> l = l'.
Proof.
  revert l'. induction l as [|a l IH]; intros [|b l'] H; auto.
  - specialize (H 0). discriminate.
  - specialize (H 0). discriminate.
  - pose proof (H 0) as E. injection E as ->. f_equal. apply IH. intros i. apply (H (S i)).
Qed.

Lemma vread_ok h v : inside h v -> vread h v = Ok (contents h v).
Proof. unfold inside, vread. intros H. apply Nat.leb_le in H. rewrite H. reflexivity. Qed.

Lemma nth_upd_any (h : heap) i b id : (length b = length (nth i h [])) -> nth id (upd h i b) [] = if id =? i then b else nth id h [].
Proof.
  intros Hl. destruct (Nat.eqb_spec id i) as [-> |N]; [|apply nth_upd_neq; auto].
  destruct (Nat.ltb_spec i (length h)) as [H|H]; [apply nth_upd_eq; auto|].
  rewrite nth_overflow in * by (rewrite ?upd_length; auto). destruct b; [reflexivity|discriminate].
Qed.

Lemma vwrite_ok h v c : inside h v -> length c = v_len v ->
  exists h', vwrite h v c = Ok h' /\ contents h' v = c /\ only h h' (touches v).
Proof.
  intros Hi Hc. unfold vwrite. unfold inside in Hi. pose proof Hi as Hi'. apply Nat.leb_le in Hi'. rewrite Hi'.
  pose proof Hc as Hc'. apply Nat.eqb_eq in Hc'. rewrite Hc'. cbn [andb].
  set (b := nth (v_buf v) h []) in *.
  set (b' := firstn (v_off v) b ++ c ++ skipn (v_off v + v_len v) b).
  assert (L : length b' = length b) by (unfold b'; rewrite !app_length, firstn_length, skipn_length; lia).
  assert (N : forall k, nth_error b' k = if (v_off v <=? k) && (k <? v_off v + v_len v) then nth_error c (k - v_off v) else nth_error b k).
  { intros k. unfold b'. destruct (Nat.leb_spec (v_off v) k) as [H1|H1]; cbn [andb].
    - rewrite nth_error_app2 by (rewrite firstn_length; lia). rewrite firstn_length, Nat.min_l by lia.
      destruct (Nat.ltb_spec k (v_off v + v_len v)) as [H2|H2].
      + rewrite nth_error_app1 by lia. reflexivity.
      + rewrite nth_error_app2 by lia. 
        destruct (Nat.ltb_spec k (length b)) as [H3|H3].
        * rewrite (nth_error_nth' b None) by auto. rewrite (nth_error_nth' (skipn (v_off v + v_len v) b) None) by (rewrite skipn_length; lia). f_equal.
          rewrite <- (firstn_skipn (v_off v + v_len v) b) at 2. rewrite app_nth2; rewrite firstn_length; [|lia]. f_equal. lia.
        * rewrite (proj2 (nth_error_None b k)) by auto. apply nth_error_None. rewrite skipn_length. lia.
    - rewrite nth_error_app1 by (rewrite firstn_length; lia).
      rewrite <- (firstn_skipn (v_off v) b) at 2. rewrite nth_error_app1 by (rewrite firstn_length; lia). reflexivity. }
  eexists. split; [reflexivity|]. split.
  - apply list_ext. intros r. rewrite nth_error_contents, nth_upd_any, Nat.eqb_refl by auto. 
    destruct (Nat.ltb_spec r (v_len v)) as [H|H].
    + rewrite N. destruct (Nat.leb_spec (v_off v) (v_off v + r)) as [H1|H1]; [|lia]. destruct (Nat.ltb_spec (v_off v + r) (v_off v + v_len v)); [|lia]. cbn [andb]. f_equal. lia.
    + symmetry. apply nth_error_None. lia.
  - split.
    + intros id. rewrite nth_upd_any by auto. destruct (Nat.eqb_spec id (v_buf v)) as [-> |]; auto.
    + intros id k H. rewrite nth_upd_any by auto. destruct (Nat.eqb_spec id (v_buf v)) as [-> |]; auto. rewrite N.
      destruct (Nat.leb_spec (v_off v) k) as [H1|H1]; [|reflexivity]. destruct (Nat.ltb_spec k (v_off v + v_len v)) as [H2|H2]; [|reflexivity].
      exfalso. apply H. unfold touches. split; auto.
Qed.

(** ** Changes *)
Lemma only_refl h W : only h h W.
Proof. split; auto. Qed.
Lemma only_trans h h' h'' W : only h h' W -> only h' h'' W -> only h h'' W.
Proof. intros (L1 & E1) (L2 & E2). split; [intros id; rewrite L2; apply L1|]. intros id k H. rewrite E2, E1; auto. Qed.
Lemma only_weaken h h' (W W' : nat -> nat -> Prop) : only h h' W -> (forall id k, W id k -> W' id k) -> only h h' W'.
Proof. intros (L & E) H. split; [exact L|]. intros id k N. apply E. intros C. apply N, H, C. Qed.
Lemma only_inside h h' W v : only h h' W -> inside h v -> inside h' v.
Proof. intros (L & _). unfold inside. rewrite L. auto. Qed.
Lemma only_contents h h' (W : nat -> nat -> Prop) v : only h h' W -> (forall k, v_off v <= k < v_off v + v_len v -> ~ W (v_buf v) k) -> contents h' v = contents h v.
Proof.
  intros (L & E) H. apply list_ext. intros r. rewrite !nth_error_contents. destruct (Nat.ltb_spec r (v_len v)) as [Hr|Hr]; [|reflexivity].
  apply E, H. lia.
Qed.

(** ** Operations *)
Lemma kernel_ok k x y xs h c : v_buf x <> v_buf y -> inside h x -> inside h y -> contents h x = map Some xs ->
  k xs (contents h y) = Ok c -> length c = v_len y ->
  exists h', kernel k x y h = Ok h' /\ contents h' y = c /\ only h h' (touches y).
Proof.
  intros Hxy Ix Iy Cx Hk Hc. unfold kernel. apply Nat.eqb_neq in Hxy. rewrite Hxy. cbn [negb guard]. rewrite bind_Ok.
  rewrite (vread_ok h x Ix), bind_Ok, Cx, all_init_some, bind_Ok, (vread_ok h y Iy), bind_Ok, Hk, bind_Ok.
  apply vwrite_ok; auto.
Qed.
Lemma v_scale_ok y a ys h : inside h y -> contents h y = map Some ys ->
  exists h', v_scale y a h = Ok h' /\ contents h' y = map Some (tab (v_len y) (fun i => vat ys i * a)%Qc) /\ only h h' (touches y).
Proof.
  intros Iy Cy. assert (L : length ys = v_len y) by (rewrite <- (contents_length h y Iy), Cy, map_length; reflexivity).
  unfold v_scale. rewrite vread_ok, bind_Ok, Cy, scaleScalar_ok, bind_Ok, L by auto. apply vwrite_ok; [auto|]. rewrite map_length, tab_length. reflexivity.
Qed.
Lemma v_assign3_ok y a z b ys zs h : inside h y -> inside h z -> contents h y = map Some ys -> contents h z = map Some zs -> v_len z = v_len y ->
  exists h', v_assign3 y a z b h = Ok h' /\ contents h' y = map Some (tab (v_len y) (fun i => a * vat ys i + b * vat zs i)%Qc) /\ only h h' (touches y).
Proof.
  intros Iy Iz Cy Cz Hl. assert (L : length ys = v_len y) by (rewrite <- (contents_length h y Iy), Cy, map_length; reflexivity).
  assert (L' : length zs = v_len y) by (rewrite <- Hl, <- (contents_length h z Iz), Cz, map_length; reflexivity).
  unfold v_assign3. rewrite vread_ok, bind_Ok, Cy by auto. rewrite vread_ok, bind_Ok, Cz by auto. rewrite assign3_own_ok, bind_Ok, L by lia.
  apply vwrite_ok; [auto|]. rewrite map_length, tab_length. reflexivity.
Qed.
Lemma v_add_ok y z ys zs h : inside h y -> inside h z -> contents h y = map Some ys -> contents h z = map Some zs -> v_len z = v_len y ->
  exists h', v_add y z h = Ok h' /\ contents h' y = map Some (tab (v_len y) (fun i => vat ys i + vat zs i)%Qc) /\ only h h' (touches y).
Proof.
  intros Iy Iz Cy Cz Hl. assert (L : length ys = v_len y) by (rewrite <- (contents_length h y Iy), Cy, map_length; reflexivity).
  assert (L' : length zs = v_len y) by (rewrite <- Hl, <- (contents_length h z Iz), Cz, map_length; reflexivity).
  unfold v_add. rewrite vread_ok, bind_Ok, Cy by auto. rewrite vread_ok, bind_Ok, Cz by auto. rewrite update_ok, bind_Ok, L by lia.
  apply vwrite_ok; [auto|]. rewrite map_length, tab_length. reflexivity.
Qed.
Lemma v_zero_ok y h : inside h y ->
  exists h', v_zero y h = Ok h' /\ contents h' y = repeat (Some 0%Qc) (v_len y) /\ only h h' (touches y).
Proof.
  intros Iy. unfold v_zero. rewrite vread_ok, bind_Ok, contents_length by auto. apply vwrite_ok; [auto|apply repeat_length].
Qed.
