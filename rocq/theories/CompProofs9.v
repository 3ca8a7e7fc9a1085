(** Dense copies of operators. *)
From Verif Require Import Util Lin CSRModel CSRSpec DenseModel DenseSpec SmootherModel CompModel CompSpec CompProofs CompProofs2 CompProofs3 CompProofs4 CompProofs7.
Local Open Scope Qc_scope.

Lemma cell_write h b k c : (k < length (nth b h []))%nat -> exists h', vwrite h (View b k 1) [Some c] = Ok h' /\ only h h' (fun id j => id = b /\ j = k) /\
  nth_error (nth b h' []) k = Some (Some c).
Proof.
  intros Hk. destruct (vwrite_ok h (View b k 1) [Some c]) as (h' & E & C & O); [unfold inside; cbn; lia|reflexivity|].
  exists h'. split; [exact E|]. split.
  - eapply only_weaken; [exact O|]. intros id j (H1 & H2). cbn in *. split; [auto|lia].
  - pose proof (nth_error_contents h' (View b k 1) 0) as N. rewrite C in N. cbn [v_len v_off v_buf] in N. rewrite Nat.add_0_r in N. symmetry. exact N.
Qed.

Lemma repeat_tab_some {X} (c : X) n : repeat c n = tab n (fun _ => c).
Proof. unfold tab. generalize 0%nat. induction n as [|n IH]; intros k; [reflexivity|]. cbn [repeat seq map]. rewrite <- IH. reflexivity. Qed.

Section dense.
  Context (lens : nat -> nat) (T : list nat) (n m : nat) (A : mat) (o : lop) (x B : nat).
  Hypothesis Hn : l_rows o = n.
  Hypothesis Hm : l_cols o = m.
  Hypothesis P : performs lens T n m A false (l_mv o false false).
  Hypothesis Nx : ~ In x T.
  Hypothesis NB : ~ In B T.
  Hypothesis NxB : x <> B.

  Let xv := View x 0 m.
  Let Bv := View B 0 (n * m).
  Let W (id k : nat) : Prop := In id T \/ touches xv id k \/ touches Bv id k.

  Lemma dense_copy h : (forall id, In id T -> (lens id <= length (nth id h []))%nat) -> (m <= length (nth x h []))%nat -> (n * m <= length (nth B h []))%nat ->
    exists h', getDenseOpFromApply o x B h = Ok h' /\ contents h' Bv = map Some (tab (n * m) (fun k => A (k mod n) (k / n))%nat) /\ only h h' W.
  Proof using All.
    intros HT Hx HB. unfold getDenseOpFromApply. rewrite Hn, Hm. cbv zeta. fold xv. fold Bv.
    destruct (v_zero_ok xv h) as (h0 & E0 & C0 & O0); [unfold inside; cbn; lia|]. rewrite E0, bind_Ok.
    destruct (v_zero_ok Bv h0) as (h1 & E1 & C1 & O1); [unfold inside; cbn [Bv v_buf v_off v_len]; rewrite (proj1 O0); lia|]. rewrite E1, bind_Ok.
    assert (Oh1 : only h h1 W).
    { eapply only_trans; eapply only_weaken; [exact O0| |exact O1|]; unfold W; auto. }
    assert (C1x : contents h1 xv = repeat (Some 0) m).
    { transitivity (contents h0 xv); [|exact C0]. eapply only_contents; [exact O1|]. intros k _ (H & _). cbn in H. auto. }
    destruct (for_range_inv (fun i s => only h s W /\ (forall r, (r < m)%nat -> nth_error (nth x s []) r = Some (Some (if (S r =? i)%nat then 1 else 0))) /\
        forall k, (k < i * n)%nat -> nth_error (nth B s []) k = Some (Some (A (k mod n) (k / n))%nat))
      (fun i h => h <- (if (0 <? i)%nat then vwrite h (View x (i - 1) 1) [Some 0] else Ok h) ;; h <- vwrite h (View x i 1) [Some 1] ;; l_mv o false false xv (View B (i * n) n) h) 0 m h1) as (h2 & E2 & O2 & _ & V2).
    - lia.
    - split; [exact Oh1|]. split; [|lia]. intros r Hr. pose proof (nth_error_contents h1 xv r) as N. rewrite C1x in N. cbn [v_len v_off v_buf xv] in N.
      destruct (Nat.ltb_spec r m); [|lia]. cbn [Nat.add] in N. rewrite <- N. rewrite repeat_tab_some, nth_error_tab by auto. reflexivity.
    - intros i s Hi (Os & Vx & VB). 
      assert (Lx : (m <= length (nth x s []))%nat) by (rewrite (proj1 Os); auto).
      assert (G : exists s1, (if (0 <? i)%nat then vwrite s (View x (i - 1) 1) [Some 0] else Ok s) = Ok s1 /\ only s s1 (touches xv) /\
                  forall r, (r < m)%nat -> nth_error (nth x s1 []) r = Some (Some 0)).
      { destruct (Nat.ltb_spec 0 i) as [Hpos|Hz].
        - destruct (cell_write s x (i - 1) 0) as (s1 & Ew & Ow & Vw); [lia|]. exists s1. split; [exact Ew|]. split.
          + eapply only_weaken; [exact Ow|]. intros id k (-> & ->). split; [reflexivity|]. cbn. lia.
          + intros r Hr. destruct (Nat.eq_dec r (i - 1)) as [-> |Hne]; [exact Vw|]. rewrite (proj2 Ow) by (intros (_ & H); auto). rewrite Vx by auto.
            destruct (Nat.eqb_spec (S r) i); [lia|reflexivity].
        - exists s. split; [reflexivity|]. split; [apply only_refl|]. intros r Hr. rewrite Vx by auto. destruct (Nat.eqb_spec (S r) i); [lia|reflexivity]. }
      destruct G as (s1 & Es1 & Os1 & Vs1). rewrite Es1, bind_Ok.
      destruct (cell_write s1 x i 1) as (s2 & Es2 & Os2 & Vs2); [rewrite (proj1 Os1); lia|]. rewrite Es2, bind_Ok.
      assert (Os2' : only s s2 (touches xv)).
      { eapply only_trans; [exact Os1|]. eapply only_weaken; [exact Os2|]. intros id k (-> & ->). split; [reflexivity|]. cbn. lia. }
      assert (Vx2 : forall r, (r < m)%nat -> nth_error (nth x s2 []) r = Some (Some (if (r =? i)%nat then 1 else 0))).
      { intros r Hr. destruct (Nat.eqb_spec r i) as [-> |Hne]; [exact Vs2|]. rewrite (proj2 Os2) by (intros (_ & H); auto). apply Vs1, Hr. }
      set (yv := View B (i * n) n).
      assert (Bnd : (i * n + n <= n * m)%nat) by nia.
      assert (Os2h : only h s2 W) by (eapply only_trans; [exact Os|eapply only_weaken; [exact Os2'|unfold W; auto]]).
      assert (Ar : arguments lens T n m false xv yv (tab m (fun r => if (r =? i)%nat then 1 else 0)) [] s2).
      { split; [intros id Hid; rewrite (proj1 Os2h); auto|]. split; [reflexivity|]. split; [reflexivity|].
        split; [unfold inside; rewrite (proj1 Os2h); cbn; lia|]. split; [unfold inside; rewrite (proj1 Os2h); cbn [yv v_buf v_off v_len]; lia|]. split.
        - apply list_ext. intros r. rewrite nth_error_contents, nth_error_map. cbn [xv v_len v_off v_buf]. destruct (Nat.ltb_spec r m) as [Hr|Hr].
          + cbn [Nat.add]. rewrite Vx2, nth_error_tab by auto. reflexivity.
          + rewrite (proj2 (nth_error_None _ _)); [reflexivity|]. rewrite tab_length. auto.
        - split; [discriminate|]. split; [auto|]. split; auto. }
      destruct (P xv yv _ [] s2 Ar) as (s3 & E3 & C3 & O3). exists s3. split; [exact E3|].
      split. { eapply only_trans; [exact Os2h|]. eapply only_weaken; [exact O3|]. intros id k [H|(-> & H)]; [left; auto|]. right. right. split; [reflexivity|]. cbn [yv Bv v_off v_len] in *. lia. }
      split.
      + intros r Hr. rewrite (proj2 O3); [apply Vx2, Hr|]. intros [H|(H & _)]; auto.
      + intros k Hk. destruct (Nat.ltb_spec k (i * n)) as [Hlt|Hge].
        * rewrite (proj2 O3); [|intros [H|(_ & H)]; [auto|cbn [yv v_off v_len] in H; lia]].
          rewrite (proj2 Os2'); [apply VB, Hlt|]. intros (H & _). cbn in H. auto.
        * pose proof (nth_error_contents s3 yv (k - i * n)) as N. rewrite C3, nth_error_map, nth_error_tab in N by lia. cbn [yv v_len v_off v_buf option_map] in N.
          destruct (Nat.ltb_spec (k - i * n) n) as [_|?]; [|lia]. replace (i * n + (k - i * n))%nat with k in N by lia. rewrite <- N. f_equal. f_equal.
          assert (Hd : (k / n = i)%nat) by (symmetry; apply (Nat.div_unique k n i (k - i * n)); lia).
          assert (Hmod : (k mod n = k - i * n)%nat) by (symmetry; apply (Nat.mod_unique k n i (k - i * n)); lia).
          rewrite Hd, Hmod, Qcplus_0_l. unfold mv. rewrite (sumf_single m _ i ltac:(lia)).
          -- rewrite vat_tab by lia. rewrite Nat.eqb_refl. ring.
          -- intros j Hj Hne. rewrite vat_tab by auto. destruct (Nat.eqb_spec j i); [congruence|ring].
    - exists h2. split; [exact E2|]. split; [|exact O2]. apply list_ext. intros r. rewrite nth_error_contents, nth_error_map. cbn [Bv v_len v_off v_buf].
      destruct (Nat.ltb_spec r (n * m)) as [Hr|Hr].
      + cbn [Nat.add]. rewrite V2, nth_error_tab by nia. reflexivity.
      + rewrite (proj2 (nth_error_None _ _)); [reflexivity|]. rewrite tab_length. auto.
  Qed.
End dense.
