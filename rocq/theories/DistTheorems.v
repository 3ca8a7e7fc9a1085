(** Property theorems C43 (vectors and operators that are distributed over ranks).  Proofs are in DistProofs*.v. *)
From Verif Require Import Util Lin CSRModel CSRSpec OverlapModel OverlapSpec OverlapProofs5 DistModel DistSpec DistProofs3 DistProofs4 DistProofs5.
Local Open Scope nat_scope.

(** C43, [accumulate]: if the vectors of the ranks add up to x, each rank ends with the values
    of x at its degrees of freedom, in whatever order ranks and messages proceed; [always] says
    that nothing fails or waits for ever, too. *)
Theorem C43_accumulate :
  forall P N size mgr glob K m a ret x, consistent P N size mgr glob -> (forall p, p < P -> shaped K (size p) (m p)) ->
  a < K -> (match ret with Some b => b < K | None => True end) -> represents P N glob false (fun p => reg (m p) a) x ->
  always P mgr [Round nothing (Acc a ret)] m (fun p r => reg r (match ret with Some b => b | None => a end) = restricted glob x p).
Proof. intros P N size mgr glob K m a ret x Hc. exact (accumulate_ok Hc K m a ret x). Qed.
Print Assumptions C43_accumulate.

(** C43, [distribute] is a partition of unity: the values of x at the degrees of freedom of each rank
    become summands of x. *)
Theorem C43_distribute :
  forall P N size mgr glob v u w x, consistent P N size mgr glob -> represents P N glob true v x -> (forall p, p < P -> length (u p) = size p) ->
  (forall p, p < P -> exists z, distribute (prepareDistribute (mgr p)) (size p) (v p) (Some (u p)) = Ok z /\ length z = size p) /\
  ((forall p, p < P -> distribute (prepareDistribute (mgr p)) (size p) (v p) (Some (u p)) = Ok (w p)) -> represents P N glob false w x).
Proof.
  intros P N size mgr glob v u w x Hc Hv Hu. split; [intros p Hp|].
  - apply (distribute_total Hc); auto. rewrite (Hv p Hp). exact (restricted_length Hc x p Hp).
  - exact (distribute_represents Hc v u w x Hv Hu).
Qed.
Print Assumptions C43_distribute.

(** C43, the inner product of vectors of which each may be accumulated or distributed is that of
    the whole, on all ranks. *)
Theorem C43_inner_product :
  forall P N size mgr glob acc1 acc2 m x y, consistent P N size mgr glob ->
  (forall p, p < P -> shaped 3 (size p) (m p) /\ 4 <= length (m p)) ->
  represents P N glob acc1 (fun p => reg (m p) 0) x -> represents P N glob acc2 (fun p => reg (m p) 1) y ->
  always P mgr (ip_distributed size (fun p => prepareDistribute (mgr p)) acc1 acc2) m
    (fun p r => reg r 0 = reg (m p) 0 /\ reg r 1 = reg (m p) 1 /\ reg r 3 = [dotf N x y]).
Proof. intros P N size mgr glob acc1 acc2 m x y Hc. exact (ip_ok Hc acc1 acc2 m x y). Qed.
Print Assumptions C43_inner_product.

(** C43, the norm; sqrt is any function. *)
Theorem C43_norm :
  forall P N size mgr glob sqrt acc m x, consistent P N size mgr glob ->
  (forall p, p < P -> shaped 3 (size p) (m p) /\ 4 <= length (m p)) -> represents P N glob acc (fun p => reg (m p) 0) x ->
  always P mgr (norm_distributed size (fun p => prepareDistribute (mgr p)) sqrt acc) m
    (fun p r => reg r 0 = reg (m p) 0 /\ reg r 3 = [sqrt (dotf N x x)]).
Proof. intros P N size mgr glob sqrt acc m x Hc. exact (norm_ok Hc sqrt acc m x). Qed.
Print Assumptions C43_norm.

(** C43, [DistributedLinearOperator.matvec] is the matrix of the whole, the sum of those of the
    ranks, times x, or, if doDistribute is set, times x divided by the numbers of ranks; with keepDistributedResult
    the local product remains, too. *)
Theorem C43_matvec :
  forall P N size mgr glob dd kk Mat K m x A, consistent P N size mgr glob -> (forall p, p < P -> shaped K (size p) (m p)) ->
  (forall p z w, p < P -> length z = size p -> length w = size p -> A p z w = Ok (tab (size p) (mv (size p) (Mat p) (vat z)))) ->
  4 <= K -> represents P N glob true (fun p => reg (m p) 0) x ->
  let x' I := if dd : bool then (x I / qn (multiplicity P glob I))%Qc else x I in
  always P mgr (dist_matvec size (fun p => prepareDistribute (mgr p)) dd kk A) m
    (fun p r => reg r 0 = reg (m p) 0 /\ reg r 1 = restricted glob (mv N (assembled_matrix P glob Mat) x') p /\
      (kk = true -> reg r 3 = tab (size p) (mv (size p) (Mat p) (vat (restricted glob x' p))))).
Proof. intros P N size mgr glob dd kk Mat K m x A Hc Hm. exact (dist_matvec_ok Hc dd kk Mat K m x Hm A). Qed.
Print Assumptions C43_matvec.

(** C43, [DistributedLinearOperator.residual]: x is accumulated, b is distributed, the residual
    is accumulated. *)
Theorem C43_residual :
  forall P N size mgr glob dd kk Mat K m x b R, consistent P N size mgr glob -> (forall p, p < P -> shaped K (size p) (m p)) ->
  (forall p z v w, p < P -> length z = size p -> length v = size p -> length w = size p ->
     R p z v w = Ok (tab (size p) (fun i => (vat v i - mv (size p) (Mat p) (vat z) i)%Qc))) ->
  5 <= K -> represents P N glob true (fun p => reg (m p) 0) x -> represents P N glob false (fun p => reg (m p) 4) b ->
  let x' I := if dd : bool then (x I / qn (multiplicity P glob I))%Qc else x I in
  always P mgr (dist_residual size (fun p => prepareDistribute (mgr p)) dd kk R) m
    (fun p r => reg r 0 = reg (m p) 0 /\ reg r 4 = reg (m p) 4 /\
      reg r 1 = restricted glob (fun I => (b I - mv N (assembled_matrix P glob Mat) x' I)%Qc) p).
Proof. intros P N size mgr glob dd kk Mat K m x b R Hc Hm. exact (dist_residual_ok Hc dd kk Mat K m x Hm R b). Qed.
Print Assumptions C43_residual.

(** C43, the operator that computes the rows of shared degrees of freedom first and the others
    while messages travel has the same result. Nothing is assumed about the order of
    overlap_indices but that they are the shared degrees of freedom. *)
Theorem C43_csr_matvec :
  forall P N size mgr glob kk A idx K m x, consistent P N size mgr glob -> (forall p, p < P -> shaped K (size p) (m p)) ->
  (forall p, p < P -> wf_csr (size p) (size p) (A p)) -> (forall p i, p < P -> In i (idx p) <-> In i (flat_map o_shared (mgr p))) ->
  4 <= K -> represents P N glob true (fun p => reg (m p) 0) x ->
  always P mgr (csr_dist_matvec false kk A idx) m
    (fun p r => reg r 0 = reg (m p) 0 /\ reg r 1 = restricted glob (mv N (assembled_matrix P glob (fun q => matrix (A q))) x) p).
Proof. intros P N size mgr glob kk A idx K m x Hc Hm Hw Hi HK. exact (csr_dist_matvec_ok Hc false kk A idx K m x Hm Hw Hi HK eq_refl). Qed.
Print Assumptions C43_csr_matvec.

Theorem C43_csr_residual :
  forall P N size mgr glob dd kk A idx K m x b, consistent P N size mgr glob -> (forall p, p < P -> shaped K (size p) (m p)) ->
  (forall p, p < P -> wf_csr (size p) (size p) (A p)) -> (forall p i, p < P -> In i (idx p) <-> In i (flat_map o_shared (mgr p))) ->
  5 <= K -> represents P N glob true (fun p => reg (m p) 0) x -> represents P N glob false (fun p => reg (m p) 4) b ->
  let x' I := if dd : bool then (x I / qn (multiplicity P glob I))%Qc else x I in
  always P mgr (csr_dist_residual size (fun p => prepareDistribute (mgr p)) dd kk A idx) m
    (fun p r => reg r 0 = reg (m p) 0 /\ reg r 4 = reg (m p) 4 /\
      reg r 1 = restricted glob (fun I => (b I - mv N (assembled_matrix P glob (fun q => matrix (A q))) x' I)%Qc) p).
Proof. intros P N size mgr glob dd kk A idx K m x b Hc Hm Hw Hi HK. exact (csr_dist_residual_ok Hc dd kk A idx K m x Hm Hw Hi b HK). Qed.
Print Assumptions C43_csr_residual.

(** C43, with doDistribute the CSR operator has no result: it reads attributes that do not
    exist. *)
Theorem C43_csr_distribute_refuted :
  exists P N size mgr glob A idx m x, consistent P N size mgr glob /\ (forall p, p < P -> shaped 4 (size p) (m p)) /\
  (forall p, p < P -> wf_csr (size p) (size p) (A p)) /\ (forall p i, p < P -> In i (idx p) <-> In i (flat_map o_shared (mgr p))) /\
  represents P N glob true (fun p => reg (m p) 0) x /\
  ~ always P mgr (csr_dist_matvec true false A idx) m
      (fun p r => reg r 1 = restricted glob (mv N (assembled_matrix P glob (fun q => matrix (A q))) (fun I => (x I / qn (multiplicity P glob I))%Qc)) p).
Proof. exact csr_distribute_fails. Qed.
Print Assumptions C43_csr_distribute_refuted.

(** C43, the diagonal of a distributed CSR operator is that of the whole. *)
Theorem C43_diagonal :
  forall P N size mgr glob K m A, consistent P N size mgr glob -> (forall p, p < P -> shaped K (size p) (m p)) -> 2 <= K ->
  (forall p, p < P -> wf_csr (size p) (size p) (A p) /\ nodup_csr (size p) (A p)) ->
  always P mgr (dist_diagonal (fun p => csr_get_diagonal (A p))) m
    (fun p r => reg r 0 = reg (m p) 0 /\ reg r 1 = restricted glob (fun I => assembled_matrix P glob (fun q => matrix (A q)) I I) p).
Proof. intros P N size mgr glob K m A Hc. exact (csr_dist_diagonal_ok Hc K m A). Qed.
Print Assumptions C43_diagonal.

(** C43, reading the diagonal of a distributed SSS or diagonal operator changes the operator: the diagonals
    that the ranks use are accumulated in place. *)
Theorem C43_diagonal_refuted :
  exists P N size mgr glob m, consistent P N size mgr glob /\ (forall p, p < P -> shaped 1 (size p) (m p)) /\
  always P mgr dist_diagonal_own m (fun p r => reg r 0 <> reg (m p) 0).
Proof. exact diagonal_own_changes. Qed.
Print Assumptions C43_diagonal_refuted.

(** Three ranks have 0 and 1, 1 and 2, 2 and 1 of three degrees of freedom; each has the matrix
    [[1, -1], [-1, 2]]; x = (1, 10, 100), b = (6, 7, 8) in parts *)
Definition exMgr (p : nat) : manager :=
  match p with 0 => [Ov 1 [1]; Ov 2 [1]] | 1 => [Ov 0 [0]; Ov 2 [0; 1]] | _ => [Ov 0 [1]; Ov 1 [1; 0]] end.
Definition exGlob (p : nat) : list nat := match p with 0 => [0; 1] | 1 => [1; 2] | _ => [2; 1] end.
Definition exX (I : nat) : Qc := nth I [qz 1; qz 10; qz 100] 0%Qc.
Definition exB (I : nat) : Qc := nth I [qz 6; qz 7; qz 8] 0%Qc.
Definition exPart (p : nat) : list Qc := match p with 0 => [qz 6; qz 1] | 1 => [qz 2; qz 3] | _ => [qz 5; qz 4] end.
Definition exStart (p : nat) : mem := [map exX (exGlob p); [0; 0]%Qc; [0; 0]%Qc; [0; 0]%Qc; exPart p].
Definition exA (p : nat) : csr := CSR 2 [0; 2; 4] [0; 1; 1; 0] [qz 1; qz (-1); qz 2; qz (-1)].
Definition exIdx (p : nat) : list nat := match p with 0 => [1] | _ => [1; 0] end.
Definition exD (p : nat) := prepareDistribute (exMgr p).
Example C43_example_hyps :
  consistent 3 3 (fun _ => 2) exMgr exGlob /\ (forall p, p < 3 -> shaped 5 2 (exStart p)) /\
  (forall p, p < 3 -> wf_csr 2 2 (exA p) /\ nodup_csr 2 (exA p)) /\ (forall p i, p < 3 -> In i (exIdx p) <-> In i (flat_map o_shared (exMgr p))) /\
  represents 3 3 exGlob true (fun p => reg (exStart p) 0) exX /\ represents 3 3 exGlob false (fun p => reg (exStart p) 4) exB.
Proof.
  split; [|split; [|split; [|split; [|split]]]].
  - constructor.
    + constructor.
      * intros p _. destruct p as [|[|p]]; repeat constructor; cbn; intuition discriminate.
      * intros p q _ H. destruct p as [|[|p]]; cbn in H; intuition lia.
      * intros p q Hp Hq H. destruct p as [|[|[|p]]], q as [|[|[|q]]]; try lia; cbn in H |- *; intuition lia.
      * intros p q Hp Hq. destruct p as [|[|[|p]]], q as [|[|[|q]]]; try lia; reflexivity.
      * intros p q i Hp H. destruct p as [|[|[|p]]], q as [|[|[|q]]]; try lia; cbn in H; intuition lia.
    + intros [|[|p]] _; reflexivity.
    + intros [|[|p]] _; repeat constructor; cbn; intuition discriminate.
    + intros [|[|p]] I _; cbn; intuition lia.
    + intros [|[|[|I]]] HI; [exists 0|exists 0|exists 1|lia]; cbn; intuition lia.
    + intros p q Hp Hq. destruct p as [|[|[|p]]], q as [|[|[|q]]]; try lia; repeat constructor; cbn; intuition discriminate.
    + intros p q Hp Hq. destruct p as [|[|[|p]]], q as [|[|[|q]]]; try lia; reflexivity.
    + intros p q I Hp Hq Hne H1 H2. destruct p as [|[|[|p]]], q as [|[|[|q]]]; try lia; cbn in H1, H2 |- *; intuition lia.
  - intros p Hp. split; [reflexivity|]. intros k Hk. destruct p as [|[|p]], k as [|[|[|[|[|k]]]]]; try lia; reflexivity.
  - intros p _. split.
    + repeat split; cbn; try lia. intros [|[|i]] Hi; cbn; lia.
    + intros i Hi. destruct i as [|[|i]]; [| |lia]; cbn; repeat constructor; cbn; intuition discriminate.
  - intros p i Hp. destruct p as [|[|[|p]]]; try lia; cbn; intuition lia.
  - intros p Hp. destruct p as [|[|[|p]]]; try lia; reflexivity.
  - intros I HI. destruct I as [|[|[|I]]]; try lia; vm_compute; reflexivity.
Qed.
(** Take the first possible step, over and over *)
Fixpoint greedy (fuel : nat) (order : list choice) (w : world) (done : list choice) : list choice :=
  match fuel with
  | 0 => rev done
  | S fuel => match find (fun c => match take 3 exMgr c w with Some _ => true | None => false end) order with
              | Some c => match take 3 exMgr c w with Some w' => greedy fuel order w' (c :: done) | None => rev done end
              | None => rev done
              end
  end.
Definition exOrder : list choice :=
  map (fun p => CRank p 0) (seq 0 3) ++ flat_map (fun p => flat_map (fun q => [CCopy p q 0; CDeliver p q 0]) (seq 0 3)) (seq 0 3).
Definition run (prog : list round) (order : list choice) : option (list (nat * list (list Q))) :=
  option_map (show_world 3) (take_all 3 exMgr (greedy 500 order (start exMgr prog exStart) []) (start exMgr prog exStart)).
Definition vectors (k : nat) (r : option (list (nat * list (list Q)))) : option (list (list Q)) := option_map (map (fun x => nth k (snd x) [])) r.
(** b is summed up; x is split: 10 belongs to three ranks, 100 to two *)
Example C43_example_vectors :
  vectors 4 (run [Round nothing (Acc 4 None)] exOrder) = Some [[6; 7]; [7; 8]; [8; 7]]%Q /\
  map (fun p => show_list (distribute (exD p) 2 (reg (exStart p) 0) (Some [0; 0]%Qc))) [0; 1; 2] =
    [Ok [1; 10 # 3]; Ok [10 # 3; 50]; Ok [50; 10 # 3]]%Q.
Proof. split; vm_compute; reflexivity. Qed.
(** (x, x) = 10101, (x, b) = 6 + 70 + 800 *)
Example C43_example_inner_products :
  vectors 3 (run (norm_distributed (fun _ => 2) exD (fun s => s) true) exOrder) = Some [[10101]; [10101]; [10101]]%Q /\
  vectors 3 (run [Round (fun _ m => upd m 1 (reg m 4)) (Coll (fun _ _ => []) (fun _ _ m => m)); hd (Round nothing (Acc 0 None)) (ip_distributed (fun _ => 2) exD true false)] (rev exOrder)) = Some [[876]; [876]; [876]]%Q.
Proof. split; vm_compute; reflexivity. Qed.
(** The matrix is [[1, -1, 0], [-1, 5, -2], [0, -2, 3]] *)
Example C43_example_matvec :
  vectors 1 (run (dist_matvec (fun _ => 2) exD false true (fun p z w => csr_shared_rows (exA p) 1 [0; 1] z (fun _ => Ok 0%Qc) w)) exOrder) = Some [[-9; -151]; [-151; 280]; [280; -151]]%Q /\
  vectors 1 (run (csr_dist_matvec false true exA exIdx) (rev exOrder)) = Some [[-9; -151]; [-151; 280]; [280; -151]]%Q /\
  vectors 1 (run (csr_dist_residual (fun _ => 2) exD false false exA exIdx) exOrder) = Some [[15; 158]; [158; -272]; [-272; 158]]%Q /\
  vectors 1 (run (dist_diagonal (fun p => csr_get_diagonal (exA p))) exOrder) = Some [[1; 5]; [5; 3]; [3; 5]]%Q.
Proof. repeat split; vm_compute; reflexivity. Qed.
