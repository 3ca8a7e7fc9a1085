(** All ranks together. *)
From Coq Require Import Sorted.
From Verif Require Import Util Lin OverlapModel OverlapSpec OverlapProofs OverlapProofs2 OverlapProofs3 OverlapProofs4.
Local Open Scope nat_scope.

Lemma finished_dec P w : finished P w \/ ~ finished P w.
Proof.
  unfold finished. induction P as [|n IH]; [left; lia|]. destruct IH as [IH|IH].
  - destruct (r_ops (w_rank w n)) eqn:E.
    + left. intros p Hp. destruct (Nat.eq_dec p n) as [->|]; auto. apply IH. lia.
    + right. intros H. specialize (H n ltac:(lia)). congruence.
  - right. intros H. apply IH. intros p Hp. apply H. lia.
Qed.
Lemma step_any P mgr b w w' : step P mgr false w w' -> step P mgr b w w'.
Proof.
  intros [p ws Hp E Hin|p q i Hp Hq E|p q i Hp Hq E].
  - exact (StepRank P mgr b w w' p ws Hp E Hin).
  - refine (StepCopy P mgr b w w' p q i Hp Hq _). unfold copy_next in *. destruct (nth_error (w_send w p q) i); [|discriminate].
    cbn [orb] in E. destruct (pending n (w_recv w p q)); [|discriminate]. rewrite orb_true_r. exact E.
  - exact (StepDeliver P mgr b w w' p q i Hp Hq E).
Qed.

Section All.
  Variables (P K : nat) (size : nat -> nat) (mgr : nat -> manager) (prog : list round) (x : nat -> mem).
  Hypothesis Hvalid : valid P size mgr.
  Hypothesis Hshape : forall p, p < P -> shaped K (size p) (x p).
  Hypothesis Hprop : proper P K size mgr prog.
  Hypothesis Huni : unique_first prog.

  Let chan a b := chan_list P mgr a b 0 prog x.
  Let cols := col_list P mgr 0 prog x.
  Let l0 p := Lst (x p) (fun _ => 0) (fun _ => 0) [] [] [] 0 0.
  Let fin p := fold_left (fun l o => lpost P mgr chan cols p (snd o) l) (stamped_program (mgr p) p 0 prog) (l0 p).

  Lemma lrun_end p ops : forall l f, lrun P mgr chan cols p ops l f -> f = fold_left (fun l o => lpost P mgr chan cols p (snd o) l) ops l.
  Proof. induction ops as [|o ops IH]; cbn; intros l f H; [auto|]. apply IH. tauto. Qed.

  Lemma fin_ok p : p < P -> lrun P mgr chan cols p (stamped_program (mgr p) p 0 prog) (l0 p) (fin p) /\
    l_mem (fin p) = program_spec P mgr prog x p /\ (forall q, q < P -> l_sent (fin p) q = length (chan p q)) /\ (forall q, q < P -> l_post (fin p) q = length (chan q p)) /\ l_con (fin p) = length cols.
  Proof using Hvalid Hshape Hprop Huni.
    intros Hp. destruct (run_program P K size mgr chan cols Hvalid p Hp prog 0 x (fun _ _ => []) [] (l0 p)) as (f & Rn & E); auto.
    - constructor; cbn; auto. intros q t [].
    - pose proof (lrun_end p _ (l0 p) f Rn) as Ef. unfold fin. rewrite <- Ef. split; [exact Rn|exact E].
  Qed.

  Lemma inv_start : exists ops l, inv P mgr chan cols fin (start mgr prog x) ops l.
  Proof using Hvalid Hshape Hprop Huni.
    exists (fun p => stamped_program (mgr p) p 0 prog), l0. constructor; cbn -[Nat.add].
    - intros p Hp. constructor; cbn -[Nat.add]; auto.
      + symmetry. apply stamped_program_snd.
      + apply program_sorted.
      + apply fin_ok. auto.
      + constructor; cbn; try (intros q t []). constructor.
    - intros p q Hp Hq Hpq. exists 0, 0, 0, 0, 0. constructor; cbn -[Nat.add]; auto; try lia.
      + destruct (find_overlap (mgr q) p) as [o|e] eqn:E.
        * rewrite repeat_length. f_equal. apply find_overlap_shared. auto.
        * rewrite shared_not_in; auto. intros Hi. apply find_overlap_in in Hi as (o & Eo). congruence.
    - auto.
    - auto.
  Qed.

  Lemma start_weight : weight P (start mgr prog x) = 3 * list_sum (map (fun p => length (program_ops (mgr p) p prog)) (seq 0 P)).
  Proof.
    unfold weight, total. cbn [start w_rank].
    assert (forall l, list_sum (map (fun p => rank_weight (new_rank (mgr p) (program_ops (mgr p) p prog) (x p))) l) = 3 * list_sum (map (fun p => length (program_ops (mgr p) p prog)) l)) as ->.
    { induction l as [|p l IH]; cbn [map list_sum fold_right]; [reflexivity|]. unfold list_sum in IH. rewrite IH. unfold rank_weight. cbn. lia. }
    assert (forall l l', list_sum (map (fun p => list_sum (map (chan_weight (start mgr prog x) p) l')) l) = 0) as ->; [|lia].
    intros l l'. assert (forall p, list_sum (map (chan_weight (start mgr prog x) p) l') = 0) as E by (intros p; induction l' as [|q l' IH]; cbn; auto).
    induction l as [|p l IH]; cbn [map list_sum fold_right]; auto. unfold list_sum in *. rewrite IH, E. reflexivity.
  Qed.

  Lemma exchange_ok b n w : runs P mgr b n (start mgr prog x) w ->
    n <= 3 * list_sum (map (fun p => length (program_ops (mgr p) p prog)) (seq 0 P)) /\
    ~ fails P mgr w /\
    (finished P w \/ exists w', step P mgr b w w') /\
    (forall p, p < P -> r_ops (w_rank w p) = [] -> r_mem (w_rank w p) = program_spec P mgr prog x p).
  Proof using Hvalid Hshape Hprop Huni.
    intros R.
    assert (forall p q, p < P -> q < P -> length (shared mgr p q) = length (shared mgr q p)) as Hl by (apply Hvalid).
    assert (forall p q, p < P -> In q (neighbours (mgr p)) -> q < P /\ q <> p) as Hr by apply Hvalid.
    pose proof (runs_inv P mgr chan cols fin Hl Hr b n _ w inv_start R) as HI.
    split; [|split; [|split]].
    - rewrite <- start_weight. apply runs_weight in R; [lia|]. intros p q Hp Hq. apply (Hr p q); auto.
    - exact (inv_safe P mgr chan cols fin Hl Hr w HI).
    - destruct (finished_dec P w) as [Hf|Hf]; auto. right.
      destruct (inv_progress P mgr chan cols fin Hl Hr) with (w := w) as (w' & Hw); auto.
      + intros p q Hp Hq. destruct (fin_ok p Hp) as (_ & _ & -> & _); auto. destruct (fin_ok q Hq) as (_ & _ & _ & -> & _); auto.
      + intros p q Hp Hq. destruct (fin_ok p Hp) as (_ & _ & _ & _ & ->); auto. destruct (fin_ok q Hq) as (_ & _ & _ & _ & ->); auto.
      + exists w'. apply step_any. auto.
    - intros p Hp E. rewrite (inv_done P mgr chan cols fin w p HI Hp E). apply fin_ok. auto.
  Qed.
End All.

(** * [unique] while messages of [accumulate] are on the way *)
Definition in_range (P : nat) (c : choice) : bool :=
  match c with CRank p _ => p <? P | CCopy p q _ | CDeliver p q _ => (p <? P) && (q <? P) end.
Lemma take_step P mgr c w w' : in_range P c = true -> take P mgr c w = Some w' -> step P mgr true w w'.
Proof.
  destruct c as [p i|p q i|p q i]; cbn [in_range take]; intros Hr E.
  - apply Nat.ltb_lt in Hr. destruct (rank_next P mgr p w) as [l|e] eqn:El; [|discriminate]. eapply StepRank; eauto. eapply nth_error_In; eauto.
  - apply andb_true_iff in Hr as (Hp & Hq). apply Nat.ltb_lt in Hp, Hq. exact (StepCopy P mgr true w w' p q i Hp Hq E).
  - apply andb_true_iff in Hr as (Hp & Hq). apply Nat.ltb_lt in Hp, Hq. destruct (deliver_next p q i w) as [o|e] eqn:Ed; [|discriminate]. subst o. exact (StepDeliver P mgr true w w' p q i Hp Hq Ed).
Qed.
Lemma runs_cons P mgr b w w1 w2 n : step P mgr b w w1 -> runs P mgr b n w1 w2 -> runs P mgr b (S n) w w2.
Proof. intros Hs R. induction R as [|n w1 w2 w3 R IH Hs']; [econstructor; [constructor|auto]|]. econstructor; eauto. Qed.
Lemma take_runs P mgr : forall l w w', forallb (in_range P) l = true -> take_all P mgr l w = Some w' -> runs P mgr true (length l) w w'.
Proof.
  induction l as [|c l IH]; cbn [forallb take_all length]; intros w w' Hr E; [injection E as <-; constructor|].
  apply andb_true_iff in Hr as (Hc & Hr). destruct (take P mgr c w) as [w1|] eqn:E1; [|discriminate].
  eapply runs_cons; [eapply take_step; eauto|auto].
Qed.

Definition race_mgr (p : nat) : manager := [Ov (1 - p) [0]].
Definition race_prog : list round := [Round (fun _ m => m) (Acc 0 None); Round (fun _ m => m) (Uni 1)].
Definition race_start (p : nat) : mem := match p with 0 => [[qz 1]; [qz 10]] | _ => [[qz 2]; [qz 20]] end.
Definition race_schedule : list choice :=
  [CRank 0 0; CRank 0 0; CRank 0 0; CRank 0 0; CRank 1 0; CRank 1 0; CRank 1 0; CRank 1 0; CCopy 0 1 0; CDeliver 0 1 0;
   CRank 1 0; CRank 1 0; CRank 1 0; CRank 1 0; CRank 1 0; CCopy 1 0 0; CDeliver 1 0 0; CRank 0 0; CRank 0 0; CRank 0 0; CRank 0 0; CRank 0 0;
   CCopy 1 0 0; CDeliver 1 0 0; CRank 0 0; CRank 0 0; CRank 0 0; CRank 1 0; CRank 1 0].
Definition show_mem (m : mem) : list (list Q) := map (map this) m.
Definition show_world (P : nat) (w : world) : list (nat * list (list Q)) := map (fun p => (length (r_ops (w_rank w p)), show_mem (r_mem (w_rank w p)))) (seq 0 P).

Lemma race_valid : valid 2 (fun _ => 1) race_mgr.
Proof.
  constructor.
  - intros p _. repeat constructor. intros [].
  - intros [|[|p]] q Hp; try lia; intros [<-|[]]; cbn; lia.
  - intros [|[|p]] [|[|q]] Hp Hq; try lia; cbn; auto; intros [E|[]]; lia.
  - intros [|[|p]] [|[|q]] Hp Hq; try lia; reflexivity.
  - intros [|[|p]] [|[|q]] i Hp; try lia; cbn; try (intros [<-|[]]; lia); intros [].
Qed.
Lemma unique_race : exists P size mgr K prog x n w, valid P size mgr /\ (forall p, p < P -> shaped K (size p) (x p)) /\ proper P K size mgr prog /\
  runs P mgr true n (start mgr prog x) w /\ finished P w /\ exists p, p < P /\ r_mem (w_rank w p) <> program_spec P mgr prog x p.
Proof.
  exists 2, (fun _ => 1), race_mgr, 2, race_prog, race_start.
  destruct (take_all 2 race_mgr race_schedule (start race_mgr race_prog race_start)) as [w|] eqn:E.
  2:{ exfalso. apply (f_equal (option_map (show_world 2))) in E. vm_compute in E. discriminate. }
  exists (length race_schedule), w. split; [apply race_valid|]. split; [|split; [|split; [|split]]].
  - intros p Hp. split; [destruct p; reflexivity|]. intros [|[|k]] Hk; try lia; destruct p; reflexivity.
  - constructor; [|constructor; [|constructor]].
    + split; [intros p m _ H; exact H|cbn; lia].
    + split; [intros p m _ H; exact H|]. split; [lia|]. intros [|[|p]] [|[|q]] Hp; try lia; cbn; repeat constructor; intros [].
  - apply take_runs; auto.
  - intros p Hp. assert (length (r_ops (w_rank w p)) = 0) as L; [|destruct (r_ops (w_rank w p)); [auto|discriminate]].
    apply (f_equal (option_map (fun w => map (fun p => length (r_ops (w_rank w p))) (seq 0 2)))) in E. vm_compute in E. injection E as E0 E1.
    destruct p as [|[|p]]; try lia; auto.
  - exists 0. split; [lia|]. intros Eq. apply (f_equal show_mem) in Eq.
    apply (f_equal (option_map (fun w => show_mem (r_mem (w_rank w 0))))) in E. cbn [option_map] in E. rewrite Eq in E. vm_compute in E. discriminate.
Qed.
