(** Examples of hierarchical matrices. *)
From Verif Require Import Util Lin SparsitySpec CSRModel CSRSpec DenseModel DenseSpec IJModel IJSpec H2Model H2Spec.
Set Default Proof Using "Type".
Local Open Scope nat_scope.

Definition D (n m : nat) (l : list Z) : dense := Dense n m (map qz l).

(** A leaf with degrees of freedom [ds], order [k] and values [V]; nodes between. *)
Definition leaf (i k : nat) (T : dense) (ds : list nat) (V : list dense) : hnode := HNode (NI i k (Some T) ds V) [].

Definition lA : hnode := leaf 1 2 (D 2 2 [1; 0; 1; 1]%Z) [0] [D 1 2 [2; 1]%Z].
Definition lB : hnode := leaf 3 2 (D 2 2 [1; 1; 0; 1]%Z) [2; 1] [D 2 2 [3; 0; 1; 1]%Z].
Definition lC : hnode := leaf 4 2 (D 2 2 [2; 0; 0; 1]%Z) [3] [D 1 2 [1; -1]%Z].
Definition nB : hnode := HNode (NI 2 2 (Some (D 2 2 [1; 2; 0; 1]%Z)) [] []) [lB; lC].
Definition t_ex : hnode := HNode (NI 0 2 None [] []) [lA; nB].

(** The near field: the diagonal, and the entries (1, 2) and (2, 1). *)
Definition A_ex : csr := CSR 4 [0; 1; 3; 5; 6] [0; 1; 2; 1; 2; 3] (map qz [4; 5; -1; -1; 5; 6]%Z).
Definition near_ex : list Qc := map qz [4; 0; 0; 0; 0; 5; -1; 0; 0; -1; 5; 0; 0; 0; 0; 6]%Z.

Definition pairs_ex : list (nat * list pair) :=
  [(1, [Pair lA nB (D 2 2 [1; 2; 3; 0]%Z); Pair nB lA (D 2 2 [1; 1; 0; 2]%Z)]);
   (2, [Pair lB lC (D 2 2 [1; 0; 2; 1]%Z); Pair lC lB (D 2 2 [3; 1; 1; 2]%Z)])].
Definition h2_ex : h2 := H2 t_ex pairs_ex A_ex None.

(** Coefficient arrays that hold nothing. *)
Definition work_ex (M : h2) : work :=
  let h := fun k => match find (fun s => nid (inf s) =? k) (nodes (tree M)) with Some s => alloc (ksize (inf s)) | None => [] end in Work h h [].

(** Two components per value. *)
Definition lA2 : hnode := leaf 1 2 (D 2 2 [1; 0; 1; 1]%Z) [0] [D 1 2 [2; 1]%Z; D 1 2 [1; 3]%Z].
Definition lB2 : hnode := leaf 2 2 (D 2 2 [1; 1; 0; 1]%Z) [2; 1] [D 2 2 [3; 0; 1; 1]%Z; D 2 2 [0; 2; 1; 0]%Z].
Definition t2_ex : hnode := HNode (NI 0 2 None [] []) [lA2; lB2].
Definition A2_ex : csr := CSR 3 [0; 1; 3; 5] [0; 1; 2; 1; 2] (map qz [4; 5; -1; -1; 5]%Z).
Definition near2_ex : list Qc := map qz [4; 0; 0; 0; 5; -1; 0; -1; 5]%Z.
Definition h2_ex2 : h2 := H2 t2_ex [(1, [Pair lA2 lB2 (D 2 2 [1; 2; 3; 0]%Z); Pair lB2 lA2 (D 2 2 [1; 1; 0; 2]%Z)])] A2_ex None.

(** The root has order 3, its children have order 2. *)
Definition lA3 : hnode := leaf 1 2 (D 3 2 [1; 0; 1; 1; 0; 1]%Z) [0] [D 1 2 [2; 1]%Z].
Definition lB3 : hnode := leaf 2 2 (D 3 2 [1; 1; 0; 1; 2; 0]%Z) [2; 1] [D 2 2 [3; 0; 1; 1]%Z].
Definition t3_ex : hnode := HNode (NI 0 3 None [] []) [lA3; lB3].
Definition h2_ex3 : h2 := H2 t3_ex [(1, [Pair lA3 lB3 (D 2 2 [1; 2; 3; 0]%Z); Pair lB3 lA3 (D 2 2 [1; 1; 0; 2]%Z)])] A2_ex None.

Ltac each H := repeat (destruct H as [H|H]; [subst|]); [..|destruct H].
Ltac nodup := repeat (constructor; [cbn; lia|]); constructor.

Ltac solve_shape :=
  split;
  [ cbn; nodup
  | let s := fresh "s" in let Hs := fresh "Hs" in let Hk := fresh "Hk" in
    intros s Hs Hk; cbn in Hs; each Hs; try discriminate Hk;
    (split; [let d := fresh in let Hd := fresh in intros d Hd; cbn in Hd; lia|
     split; [reflexivity|let V := fresh in let HV := fresh in intros V HV; cbn in HV; each HV; repeat split]])
  | let s := fresh "s" in let c := fresh "c" in let Hs := fresh "Hs" in let Hc := fresh "Hc" in
    intros s c Hs Hc; cbn in Hs; each Hs; cbn in Hc; each Hc; (eexists; split; [reflexivity|repeat split]) ].

Ltac solve_pairs := let p := fresh "p" in let Hp := fresh "Hp" in
  intros p Hp; cbn in Hp; each Hp; (split; [cbn; tauto|split; [cbn; tauto|repeat split]]).

Ltac solve_csr := split; [reflexivity|split; [reflexivity|split; [|split; [cbn; lia|split; [reflexivity|]]]]];
  [let i := fresh "i" in let Hi := fresh "Hi" in intros i Hi; do 5 (destruct i as [|i]; [cbn; lia|]); lia
  |let j := fresh "j" in let Hj := fresh "Hj" in intros j Hj; cbn in Hj; lia].

Lemma wf_ex : wf_h2 4 h2_ex.
Proof. split; [solve_csr|solve_shape|solve_pairs]. Qed.
Lemma wf_ex2 : wf_h2 3 h2_ex2.
Proof. split; [solve_csr|solve_shape|solve_pairs]. Qed.
Lemma wf_ex3 : wf_h2 3 h2_ex3.
Proof. split; [solve_csr|solve_shape|solve_pairs]. Qed.

Lemma ready_ex M : basis M = None -> NoDup (map (fun s => nid (inf s)) (nodes (tree M))) -> ready M (work_ex M).
Proof.
  intros Hb Nd.
  assert (S0 : sized (tree M) (w_up (work_ex M))).
  { intros s Hs. cbn [work_ex w_up]. revert Nd Hs. generalize (nodes (tree M)) as l. induction l as [|a l IH]; intros Nd Hs; [destruct Hs|].
    cbn [map] in Nd. apply NoDup_cons_iff in Nd as (Nn & Nd). cbn [find]. destruct (Nat.eqb_spec (nid (inf a)) (nid (inf s))) as [E|Ne].
    - destruct Hs as [<-|Hs]; [unfold alloc; apply repeat_length|]. exfalso. apply Nn. rewrite E. apply in_map_iff. exists s; auto.
    - destruct Hs as [->|Hs]; [congruence|]. apply IH; auto. }
  split; [auto|]. split; [exact S0|]. rewrite Hb. auto.
Qed.

Lemma same_order k M : (forall s, In s (nodes (tree M)) -> ksize (inf s) = k) -> no_taller (tree M).
Proof.
  intros H s c Hs Hc. rewrite (H s Hs), (H c); auto.
  assert (T : forall t s c, In s (nodes t) -> In c (kids s) -> In c (nodes t)); [|apply (T _ s); auto].
  clear. fix IH 1. intros [n cs] s c Hs Hc. cbn [nodes] in Hs |- *. destruct Hs as [<-|Hs].
  - right. apply in_flat_map. exists c. split; [exact Hc|]. destruct c. left. auto.
  - right. revert Hs. induction cs as [|a l IHl]; cbn [flat_map]; intros Hs; [destruct Hs|].
    apply in_app_or in Hs as [Hs|Hs]; apply in_or_app; [left; apply (IH a s c); auto|right; apply IHl; auto].
Qed.

Lemma order_ex s : In s (nodes (tree h2_ex)) -> ksize (inf s) = 2.
Proof. intros H. cbn in H. each H; reflexivity. Qed.
Lemma order_ex2 s : In s (nodes (tree h2_ex2)) -> ksize (inf s) = 2.
Proof. intros H. cbn in H. each H; reflexivity. Qed.

Ltac small_array := split; [reflexivity|let r := fresh "r" in let c := fresh "c" in intros r c Hr Hc;
  do 4 (destruct r as [|r]; [do 4 (destruct c as [|c]; [vm_compute; reflexivity|]); lia|]); lia].

Lemma covers_pairs (l : list pair) : (forall r c, length (filter (fun p => existsb (Nat.eqb r) (tdofs (p1 p)) && existsb (Nat.eqb c) (tdofs (p2 p))) l) <= 1) ->
  forall i j p q r c, nth_error l i = Some p -> nth_error l j = Some q -> covers p r c -> covers q r c -> i = j.
Proof.
  intros H i j p q r c. specialize (H r c).
  assert (C : forall p, covers p r c -> existsb (Nat.eqb r) (tdofs (p1 p)) && existsb (Nat.eqb c) (tdofs (p2 p)) = true).
  { intros u (U1 & U2). apply Bool.andb_true_iff. split; apply existsb_exists; [exists r|exists c]; split; auto; apply Nat.eqb_refl. }
  revert H i j. induction l as [|a l IH]; intros H i j Hi Hj Hp Hq; [destruct i; discriminate|].
  cbn [filter] in H.
  assert (Hz : forall k u, nth_error l k = Some u -> covers u r c -> covers a r c -> False).
  { intros k u Hk Hu Ha. rewrite (C a Ha) in H. cbn [length] in H.
    assert (In u (filter (fun p => existsb (Nat.eqb r) (tdofs (p1 p)) && existsb (Nat.eqb c) (tdofs (p2 p))) l)) as Hin.
    { apply filter_In. split; [apply (nth_error_In _ _ Hk)|auto]. }
    destruct (filter _ l); [destruct Hin|]. cbn [length] in H. lia. }
  destruct i as [|i], j as [|j]; cbn [nth_error] in Hi, Hj.
  - auto.
  - injection Hi as ->. exfalso. apply (Hz j q); auto.
  - injection Hj as ->. exfalso. apply (Hz i p); auto.
  - f_equal. apply IH; auto. destruct (_ && _); cbn [length] in H; lia.
Qed.

Ltac in_small H := cbn in H; repeat (destruct H as [H|H]; [subst|]); try destruct H.

Lemma h2_ex_fits : wf_h2 4 h2_ex /\ basis h2_ex = None /\ no_taller (tree h2_ex) /\ (forall p, In p (far h2_ex) -> ksize (inf (p1 p)) <= ksize (inf (p2 p))) /\
  components h2_ex = 1 /\ (forall s, In s (nodes (tree h2_ex)) -> ksize (inf s) = 2) /\
  NoDup (tdofs (tree h2_ex)) /\ NoDup (map fst (Pfar h2_ex)) /\ apart 4 h2_ex /\ array_of 4 4 near_ex (matrix (Anear h2_ex)) /\
  kids (tree h2_ex) <> [] /\ ready h2_ex (work_ex h2_ex).
Proof.
  split; [apply wf_ex|]. split; [reflexivity|]. split; [apply (same_order 2), order_ex|]. split; [|split; [reflexivity|split; [apply order_ex|]]].
  { intros p Hp. cbn in Hp. each Hp; cbn; lia. }
  split; [cbn; nodup|]. split; [cbn; nodup|]. split; [|split; [small_array|split; [discriminate|]]].
  - split.
    + apply covers_pairs. intros r c. do 4 (destruct r as [|r]; [do 4 (destruct c as [|c]; [cbn; lia|]); cbn; lia|]).
      cbn. lia.
    + intros p r c Hp (H1 & H2) Hr Hc. cbn in Hp. each Hp; in_small H1; in_small H2; vm_compute; reflexivity.
  - apply ready_ex; [reflexivity|]. cbn. nodup.
Qed.

Lemma components_refuted : exists N K M w near, wf_h2 N M /\ components M = 2 /\ (forall s, In s (nodes (tree M)) -> ksize (inf s) = K) /\
  NoDup (tdofs (tree M)) /\ NoDup (map fst (Pfar M)) /\ apart N M /\ array_of N N near (matrix (Anear M)) /\ ready M w /\
  (exists M' w' x y, constructBasis M w = Ok (M', w') /\ length x = N /\ length y = N /\
     outcome (h2_matvec M' x y w') <> Ok (map Some (tab N (mv N (h2mat M) (vat x))))) /\
  (exists arr, h2_toarray M near = Ok arr /\ ~ array_of N N arr (h2mat M)).
Proof.
  exists 3, 2, h2_ex2, (work_ex h2_ex2), near2_ex.
  split; [apply wf_ex2|]. split; [reflexivity|]. split; [apply order_ex2|]. split; [cbn; nodup|]. split; [cbn; nodup|]. split; [|split; [|split; [|split]]].
  - split.
    + apply covers_pairs. intros r c. do 3 (destruct r as [|r]; [do 3 (destruct c as [|c]; [cbn; lia|]); cbn; lia|]). cbn. lia.
    + intros p r c Hp (H1 & H2) Hr Hc. cbn in Hp. each Hp; in_small H1; in_small H2; vm_compute; reflexivity.
  - split; [reflexivity|]. intros r c Hr Hc. do 3 (destruct r as [|r]; [do 3 (destruct c as [|c]; [vm_compute; reflexivity|]); lia|]). lia.
  - apply ready_ex; [reflexivity|]. cbn. nodup.
  - destruct (constructBasis h2_ex2 (work_ex h2_ex2)) as [(M' & w')|e] eqn:E; [|vm_compute in E; discriminate].
    exists M', w', (map qz [1; 2; 3]%Z), (alloc 3). split; [auto|]. split; [reflexivity|]. split; [reflexivity|].
    intros H. apply (f_equal show_buf) in H.
    assert (F : (match constructBasis h2_ex2 (work_ex h2_ex2) with Ok (M', w') => show_buf (outcome (h2_matvec M' (map qz [1; 2; 3]%Z) (alloc 3) w')) | Err e => Err e end)
       = show_buf (Ok (map Some (tab 3 (mv 3 (h2mat h2_ex2) (vat (map qz [1; 2; 3]%Z))))))) by (rewrite E; exact H).
    vm_compute in F. discriminate.
  - destruct (h2_toarray h2_ex2 near2_ex) as [arr|e] eqn:E; [|vm_compute in E; discriminate]. exists arr. split; [auto|].
    intros (_ & H). specialize (H 0 1 ltac:(lia) ltac:(lia)).
    assert (F : (match h2_toarray h2_ex2 near2_ex with Ok arr => this (vat arr (0 * 3 + 1)) | Err _ => 0%Q end) = this (h2mat h2_ex2 0 1)) by (rewrite E, H; auto).
    vm_compute in F. discriminate.
Qed.

Lemma basis_trans_refuted : exists N K M w M' w', wf_h2 N M /\ components M = 1 /\ (forall s, In s (nodes (tree M)) -> ksize (inf s) = K) /\
  NoDup (tdofs (tree M)) /\ ready M w /\ constructBasis M w = Ok (M', w') /\
  exists x y, length x = N /\ length y = N /\ outcome (h2_matvecTrans M' x y w') = Err EOob.
Proof.
  destruct (constructBasis h2_ex (work_ex h2_ex)) as [(M' & w')|e] eqn:E; [|vm_compute in E; discriminate].
  exists 4, 2, h2_ex, (work_ex h2_ex), M', w'. split; [apply wf_ex|]. split; [reflexivity|]. split; [apply order_ex|]. split; [cbn; nodup|].
  split; [apply ready_ex; [reflexivity|]; cbn; nodup|]. split; [auto|].
  exists (map qz [1; 2; 3; 4]%Z), (alloc 4). split; [reflexivity|]. split; [reflexivity|].
  assert (F : (match constructBasis h2_ex (work_ex h2_ex) with Ok (M', w') => outcome (h2_matvecTrans M' (map qz [1; 2; 3; 4]%Z) (alloc 4) w') | Err e => Ok [] end) = Err EOob) by (vm_compute; reflexivity).
  rewrite E in F. exact F.
Qed.

Lemma taller_refuted : exists N M w x y, wf_h2 N M /\ components M = 1 /\ NoDup (tdofs (tree M)) /\ ready M w /\ length x = N /\ length y = N /\
  outcome (h2_matvec M x y w) = Err EOob.
Proof.
  exists 3, h2_ex3, (work_ex h2_ex3), (map qz [1; 2; 3]%Z), (alloc 3). split; [apply wf_ex3|]. split; [reflexivity|]. split; [cbn; nodup|].
  split; [apply ready_ex; [reflexivity|]; cbn; nodup|]. split; [reflexivity|]. split; [reflexivity|]. vm_compute. reflexivity.
Qed.
