(** Counting the degrees of freedom of the whole; an order of the ranks for which numbering fails. *)
From Verif Require Import Util Lin OverlapModel OverlapSpec OverlapProofs5 DistModel DistSpec DistProofs DistProofs2 DistProofs3 DistProofs4 NumberSpec NumberProofs NumberProofs2.
From Coq Require Import Permutation.
Set Default Proof Using "Type".
Local Open Scope nat_scope.

Lemma filter_map_length (f : nat -> nat) (g : nat -> bool) l : length (filter g (map f l)) = length (filter (fun i => g (f i)) l).
Proof. induction l as [|a l IH]; auto. cbn. destruct (g (f a)); cbn; auto. Qed.
Lemma filter_split (g : nat -> bool) l : length l = length (filter g l) + length (filter (fun x => negb (g x)) l).
Proof. induction l as [|a l IH]; auto. cbn. destruct (g a); cbn; lia. Qed.

Section Consistent.
  Context {P N : nat} {size : nat -> nat} {mgr : nat -> manager} {glob : nat -> list nat}.
  Hypothesis Hc : consistent P N size mgr glob.
  Let Hv := con_valid _ _ _ _ _ Hc.

  Definition lower (p I : nat) : bool := existsb (fun q => existsb (Nat.eqb I) (glob q)) (seq 0 p).
  Lemma lower_In p I : lower p I = true <-> exists q, q < p /\ In I (glob q).
  Proof.
    unfold lower. rewrite existsb_exists. split; intros (q & H1 & H2); exists q; [apply in_seq in H1; apply has_In in H2|apply has_In in H2; rewrite in_seq]; split; auto; lia.
  Qed.
  Definition new (p : nat) : list nat := filter (fun I => negb (lower p I)) (glob p).
  Lemma lowest I p : p < P -> In I (glob p) -> exists q, q < P /\ In I (new q).
  Proof.
    induction p as [p IH] using lt_wf_ind. intros Hp Hin. destruct (lower p I) eqn:E.
    - apply lower_In in E as (q & Hq & HI). apply (IH q); auto; lia.
    - exists p. split; auto. apply filter_In. split; auto. rewrite E. auto.
  Qed.
  Lemma new_once q q' I : In I (new q) -> In I (new q') -> q = q'.
  Proof.
    intros H H'. apply filter_In in H as (H1 & H2), H' as (H1' & H2'). apply negb_true_iff in H2, H2'.
    destruct (lt_eq_lt_dec q q') as [[Hl|]|Hl]; auto; exfalso.
    - assert (lower q' I = true) as E by (apply lower_In; eauto). congruence.
    - assert (lower q I = true) as E by (apply lower_In; eauto). congruence.
  Qed.
  Lemma new_all : Permutation (flat_map new (seq 0 P)) (seq 0 N).
  Proof using Hc.
    apply NoDup_Permutation; [|apply seq_NoDup|].
    - apply flat_map_NoDup; [|apply new_once|apply seq_NoDup]. intros q Hq. apply in_seq in Hq. apply NoDup_filter. apply (con_once _ _ _ _ _ Hc). lia.
    - intros I. rewrite in_seq, in_flat_map. split.
      + intros (p & Hp & HI). apply in_seq in Hp. apply filter_In in HI as (HI & _). split; [lia|]. apply (con_range _ _ _ _ _ Hc p); auto; lia.
      + intros (_ & HI). destruct (con_cover _ _ _ _ _ Hc I HI) as (p & Hp & Hin). destruct (lowest I p Hp Hin) as (q & Hq & Hn). exists q. split; auto. apply in_seq. lia.
  Qed.
  Lemma lower_count p : p < P ->
    length (nodup Nat.eq_dec (flat_map o_shared (filter (fun o => o_other o <? p) (mgr p)))) = length (filter (lower p) (glob p)).
  Proof using Hc.
    intros Hp. pose proof (con_size _ _ _ _ _ Hc p Hp) as L. transitivity (length (filter (fun i => lower p (at_ glob p i)) (seq 0 (size p)))).
    - apply Permutation_length. apply NoDup_Permutation; [apply NoDup_nodup|apply NoDup_filter, seq_NoDup|].
      intros i. rewrite nodup_In, in_flat_map, filter_In, in_seq, lower_In. split.
      + intros (o & Ho & Hi). apply filter_In in Ho as (Ho & Hlt). apply Nat.ltb_lt in Hlt.
        rewrite <- (shared_of Hc o p Hp Ho) in Hi. assert (o_other o < P) as Hq by lia.
        assert (In (at_ glob p i) (map (at_ glob (o_other o)) (shared mgr (o_other o) p))) as H.
        { rewrite <- (con_same _ _ _ _ _ Hc p (o_other o) Hp Hq). apply in_map. auto. }
        apply in_map_iff in H as (j & E & Hj). split; [split; [lia|]; exact (valid_range _ _ _ Hv p (o_other o) i Hp Hi)|].
        exists (o_other o). split; auto. rewrite <- E. apply (at_in Hc); auto. eapply valid_range; eauto.
      + intros ((_ & Hi) & q & Hq & HI). assert (In (at_ glob p i) (map (at_ glob p) (shared mgr p q))) as H.
        { apply (con_all _ _ _ _ _ Hc); auto; try lia. apply (at_in Hc); auto. }
        apply in_map_iff in H as (i' & E & Hi'). assert (i' = i) as -> by (apply (at_inj Hc p); auto; exact (valid_range _ _ _ Hv p q i' Hp Hi')).
        unfold shared in Hi'. destruct (find _ _) as [o|] eqn:Ef; [|destruct Hi']. apply find_some in Ef as (Ho & Eo). apply Nat.eqb_eq in Eo. subst q.
        exists o. split; auto. apply filter_In. split; auto. apply Nat.ltb_lt. auto.
    - rewrite <- (filter_map_length (at_ glob p)). do 2 f_equal. rewrite <- L. symmetry. apply (list_eq_tab (glob p) 0).
  Qed.
  Lemma count_dofs_ok (m : nat -> mem) : (forall p, p < P -> 1 <= length (m p)) -> always P mgr (countDoFs size mgr) m (fun p r => reg r 0 = [qn N]).
  Proof using Hc.
    intros Hm. apply (always_ok P 0 size); auto.
    - intros p Hp. split; [lia|]. intros k Hk. lia.
    - constructor; [|constructor]. split.
      + intros p r Hp Hr. split; [lia|]. intros k Hk. lia.
      + apply proper_reduce. lia.
    - repeat constructor.
    - intros p Hp. cbn [countDoFs program_spec fold_left]. unfold round_spec. cbn [pre what].
      rewrite (reduce_ok _ 0 _ (fun q => qn (length (new q)))).
      + unfold reg. rewrite nth_upd_eq by (rewrite upd_length; auto). f_equal. rewrite <- qn_flat. f_equal. rewrite (Permutation_length new_all). apply seq_length.
      + intros q Hq. rewrite nth_upd_eq by auto. f_equal. rewrite lower_count by auto. rewrite <- (con_size _ _ _ _ _ Hc q Hq). rewrite (filter_split (lower q) (glob q)) at 1. rewrite qn_add. unfold new. ring.
  Qed.
End Consistent.

(** Ranks 0, 1 and 2 share their only degree of freedom, and rank 0 lists rank 2 before rank 1 *)
Definition bad_mgr (p : nat) : manager := match p with 0 => [Ov 2 [0]; Ov 1 [0]] | 1 => [Ov 0 [0]; Ov 2 [0]] | _ => [Ov 0 [0]; Ov 1 [0]] end.
Lemma bad_consistent : consistent 3 1 (fun _ => 1) bad_mgr (fun _ => [0]).
Proof.
  constructor.
  - constructor.
    + intros p _. destruct p as [|[|p]]; repeat constructor; cbn; intuition discriminate.
    + intros p q _ H. destruct p as [|[|p]]; cbn in H; intuition lia.
    + intros p q Hp Hq H. destruct p as [|[|[|p]]], q as [|[|[|q]]]; try lia; cbn in H |- *; intuition lia.
    + intros p q Hp Hq. destruct p as [|[|[|p]]], q as [|[|[|q]]]; try lia; reflexivity.
    + intros p q i Hp H. destruct p as [|[|[|p]]], q as [|[|[|q]]]; try lia; cbn in H; intuition lia.
  - auto.
  - intros. repeat constructor. intros [].
  - intros p I _ [<-|[]]. lia.
  - intros I HI. exists 0. split; [lia|]. left. lia.
  - intros p q Hp Hq. destruct p as [|[|[|p]]], q as [|[|[|q]]]; try lia; repeat constructor; intros [].
  - intros p q Hp Hq. destruct p as [|[|[|p]]], q as [|[|[|q]]]; try lia; reflexivity.
  - intros p q I Hp Hq Hne [<-|[]] _. destruct p as [|[|[|p]]], q as [|[|[|q]]]; try lia; left; reflexivity.
Qed.
Fixpoint go (fuel : nat) (w : world) (done : list choice) : list choice :=
  match fuel with
  | 0 => rev done
  | S fuel => match find (fun c => match take 3 bad_mgr c w with Some _ => true | None => false end)
      (map (fun p => CRank p 0) (seq 0 3) ++ flat_map (fun p => flat_map (fun q => [CCopy p q 0; CDeliver p q 0]) (seq 0 3)) (seq 0 3)) with
              | Some c => match take 3 bad_mgr c w with Some w' => go fuel w' (c :: done) | None => rev done end
              | None => rev done
              end
  end.
Definition bad_start (p : nat) : mem := [[0%Qc]; [0%Qc]].
Definition bad_schedule : list choice := Eval vm_compute in go 200 (start bad_mgr (getGlobalIndices (fun _ => 1)) bad_start) [].
Lemma bad_result : option_map (fun w => map (fun p => (length (r_ops (w_rank w p)), map this (reg (r_mem (w_rank w p)) 0))) (seq 0 3)) (take_all 3 bad_mgr bad_schedule (start bad_mgr (getGlobalIndices (fun _ => 1)) bad_start)) =
  Some [(0, [2%Q]); (0, [0%Q]); (0, [0%Q])].
Proof. vm_compute. reflexivity. Qed.
Lemma numbers_differ : exists P N size mgr glob m n w, consistent P N size mgr glob /\ (forall p, p < P -> shaped 1 (size p) (m p) /\ 2 <= length (m p)) /\
  runs P mgr true n (start mgr (getGlobalIndices size) m) w /\ finished P w /\
  exists p q i j, p < P /\ q < P /\ i < size p /\ j < size q /\ at_ glob p i = at_ glob q j /\ vat (reg (r_mem (w_rank w p)) 0) i <> vat (reg (r_mem (w_rank w q)) 0) j.
Proof.
  exists 3, 1, (fun _ => 1), bad_mgr, (fun _ => [0]), bad_start. pose proof bad_result as F.
  destruct (take_all 3 bad_mgr bad_schedule (start bad_mgr (getGlobalIndices (fun _ => 1)) bad_start)) as [w|] eqn:E; [|discriminate].
  cbn [option_map seq map] in F. injection F as L0 V0 L1 V1 L2 V2.
  exists (length bad_schedule), w. split; [apply bad_consistent|]. split; [|split; [|split]].
  - intros p _. split; [split; [cbn; lia|]; intros [|k] Hk; [reflexivity|lia]|cbn; lia].
  - apply take_runs; auto.
  - intros p Hp. destruct p as [|[|[|p]]]; try lia; [destruct (r_ops (w_rank w 0))|destruct (r_ops (w_rank w 1))|destruct (r_ops (w_rank w 2))]; auto; discriminate.
  - exists 0, 1, 0, 0. repeat (split; [lia|]). split; auto. intros Eq. unfold vat in Eq.
    destruct (reg (r_mem (w_rank w 0)) 0) as [|a l]; [discriminate|]. destruct (reg (r_mem (w_rank w 1)) 0) as [|b l']; [discriminate|]. cbn [map nth] in V0, V1, Eq. injection V0 as V0 _. injection V1 as V1 _.
    rewrite Eq, V1 in V0. discriminate V0.
Qed.
