(** Property theorems C41 (exchanging shared degrees of freedom).  Proofs are in OverlapProofs*.v. *)
From Verif Require Import Util Lin OverlapModel OverlapSpec OverlapProofs OverlapProofs2 OverlapProofs3 OverlapProofs4 OverlapProofs5.
Local Open Scope nat_scope.

(** C41. All ranks run the same program of computations, [accumulate], [send] and [receive],
    [unique] and collective operations. Whatever the order in which the ranks proceed and the
    messages arrive, and whether or not MPI buffers messages, no rank fails, the ranks can proceed
    until all of them are done, they are done after a bounded number of steps, and a rank
    that is done has what the program means for all ranks at once.
    Missing: programs that call [unique] after [accumulate] or [send]; for those it is
    false, see below. *)
Theorem C41_exchange_partial :
  forall P K size mgr prog x,
  valid P size mgr -> (forall p, p < P -> shaped K (size p) (x p)) -> proper P K size mgr prog -> unique_first prog ->
  forall b n w, runs P mgr b n (start mgr prog x) w ->
  n <= 3 * list_sum (map (fun p => length (program_ops (mgr p) p prog)) (seq 0 P)) /\
  ~ fails P mgr w /\ (finished P w \/ exists w', step P mgr b w w') /\
  (forall p, p < P -> r_ops (w_rank w p) = [] -> r_mem (w_rank w p) = program_spec P mgr prog x p).
Proof. exact exchange_ok. Qed.
Print Assumptions C41_exchange_partial.

(** C41, [unique] does not wait for the messages that [accumulate] has started to send but
    writes into their buffer, so the other rank may add values of the wrong vector. *)
Theorem C41_unique_refuted :
  exists P size mgr K prog x n w, valid P size mgr /\ (forall p, p < P -> shaped K (size p) (x p)) /\ proper P K size mgr prog /\
  runs P mgr true n (start mgr prog x) w /\ finished P w /\ exists p, p < P /\ r_mem (w_rank w p) <> program_spec P mgr prog x p.
Proof. exact unique_race. Qed.
Print Assumptions C41_unique_refuted.

(** Three ranks with two degrees of freedom each: 0 and 1, 1 and 2, 2 and 1 of the whole; the
    vectors are 1, 2 | 3, 4 | 5, 6 *)
Definition exMgr (p : nat) : manager :=
  match p with 0 => [Ov 1 [1]; Ov 2 [1]] | 1 => [Ov 0 [0]; Ov 2 [0; 1]] | _ => [Ov 0 [1]; Ov 1 [1; 0]] end.
Definition exProg : list round :=
  [Round (fun _ m => m) (Uni 1);
   Round (fun _ m => m) (Acc 0 None);
   Round (fun p m => upd m 0 (map (fun x => x + qz (Z.of_nat p))%Qc (reg m 0))) (Coll (fun _ m => [vat (reg m 0) 0]) (fun p l m => upd m 1 [suml (map (fun v => vat v 0) l); 0%Qc]));
   Round (fun _ m => m) (Exch 0 (fun p m => m) 1)].
Definition exStart (p : nat) : mem :=
  match p with 0 => [[qz 1; qz 2]; [qz 1; qz 2]] | 1 => [[qz 3; qz 4]; [qz 3; qz 4]] | _ => [[qz 5; qz 6]; [qz 5; qz 6]] end.
(** Take the first possible step, over and over *)
Fixpoint greedy (fuel : nat) (order : list choice) (w : world) (done : list choice) : list choice :=
  match fuel with
  | 0 => rev done
  | S fuel => match find (fun c => match take 3 exMgr c w with Some _ => true | None => false end) order with
              | Some c => match take 3 exMgr c w with Some w' => greedy fuel order w' (c :: done) | None => rev done end
              | None => rev done
              end
  end.
Definition exOrder : list choice :=
  map (fun p => CRank p 0) (seq 0 3) ++ flat_map (fun p => flat_map (fun q => [CCopy p q 0; CDeliver p q 0]) (seq 0 3)) (seq 0 3).

Example C41_example_hyps :
  valid 3 (fun _ => 2) exMgr /\ (forall p, p < 3 -> shaped 2 2 (exStart p)) /\ proper 3 2 (fun _ => 2) exMgr exProg /\ unique_first exProg.
Proof.
  split; [|split; [|split]].
  - constructor.
    + intros p _. destruct p as [|[|p]]; repeat constructor; cbn; intuition discriminate.
    + intros p q _ H. destruct p as [|[|p]]; cbn in H; intuition lia.
    + intros p q Hp Hq H. destruct p as [|[|[|p]]], q as [|[|[|q]]]; try lia; cbn in H |- *; intuition lia.
    + intros p q Hp Hq. destruct p as [|[|[|p]]], q as [|[|[|q]]]; try lia; reflexivity.
    + intros p q i Hp H. destruct p as [|[|[|p]]], q as [|[|[|q]]]; try lia; cbn in H; intuition lia.
  - intros p Hp. split; [destruct p as [|[|p]]; reflexivity|]. intros [|[|k]] Hk; try lia; destruct p as [|[|p]]; reflexivity.
  - assert (forall v m, length v = 2 -> forall k, k < 2 -> shaped 2 2 m -> shaped 2 2 (upd m k v)) as U.
    { intros v m Lv k Hk (Lm & H). destruct m as [|a [|b m]]; cbn [length] in Lm; try lia.
      destruct k as [|[|k]]; try lia; (split; [cbn; lia|]); intros [|[|j]] Hj; try lia; cbn; auto; solve [exact (H 0 Hj)|exact (H 1 Hj)]. }
    repeat (constructor; [split; [intros p m Hp H|]|]); auto.
    + split; [lia|]. intros p q Hp. destruct p as [|[|[|p]]], q as [|[|[|q]]]; try lia; repeat constructor; cbn; intuition discriminate.
    + cbn. lia.
    + apply U; auto. rewrite map_length. destruct H as (_ & H). apply H. lia.
    + intros p l m Hp H. apply U; auto.
    + split; [lia|]. split; [lia|]. intros p m Hp H. exact H.
  - cbn. repeat constructor.
Qed.
Example C41_example_meaning :
  map (fun p => show_mem (program_spec 3 exMgr exProg exStart p)) (seq 0 3) =
  [[[1; 11]; [24; 25]]; [[12; 10]; [48; 11]]; [[11; 13]; [34; 23]]]%Q.
Proof. vm_compute. reflexivity. Qed.
Example C41_example_run :
  option_map (show_world 3) (take_all 3 exMgr (greedy 500 exOrder (start exMgr exProg exStart) []) (start exMgr exProg exStart)) =
  Some [(0%nat, [[1; 11]; [24; 25]]); (0%nat, [[12; 10]; [48; 11]]); (0%nat, [[11; 13]; [34; 23]])]%Q.
Proof. vm_compute. reflexivity. Qed.
(** Another order, in which the last rank and its messages come first *)
Example C41_example_other_order :
  option_map (show_world 3) (take_all 3 exMgr (greedy 500 (rev exOrder) (start exMgr exProg exStart) []) (start exMgr exProg exStart)) =
  Some [(0%nat, [[1; 11]; [24; 25]]); (0%nat, [[12; 10]; [48; 11]]); (0%nat, [[11; 13]; [34; 23]])]%Q.
Proof. vm_compute. reflexivity. Qed.
(** The race: rank 0 adds 20, a value of the second vector, instead of 2 *)
Example C41_example_race :
  option_map (show_world 2) (take_all 2 race_mgr race_schedule (start race_mgr race_prog race_start)) =
    Some [(0%nat, [[21]; [20]]); (0%nat, [[3]; [20]])]%Q /\
  map (fun p => show_mem (program_spec 2 race_mgr race_prog race_start p)) (seq 0 2) = [[[3]; [20]]; [[3]; [20]]]%Q.
Proof. split; vm_compute; reflexivity. Qed.
