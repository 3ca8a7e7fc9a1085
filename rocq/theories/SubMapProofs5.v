(** Restriction and prolongation. *)
From Verif Require Import Util Lin CSRModel SparsitySpec CSRSpec OpsProofs3 AssemblyProofs TransferProofs2 SubMapModel SubMapSpec SubMapProofs SubMapProofs2 SubMapProofs3 SubMapProofs4.
Local Open Scope Z_scope.
Set Default Proof Using "Type".

Lemma mv_row n (R : mat) x r j : (j < n)%nat -> (forall c, R r c = if (j =? c)%nat then 1%Qc else 0%Qc) -> mv n R x r = x j.
Proof.
  intros Hj H. unfold mv. rewrite (sumf_ext n _ (fun c => if (c =? j)%nat then x c else 0%Qc)); [apply sumf_delta; exact Hj|].
  intros c _. rewrite H, Nat.eqb_sym. destruct (c =? j)%nat; ring.
Qed.

Lemma two_loops {X A B} (act : X -> bool) (F : X -> A -> res A) (G : X -> B -> res B) l : forall a b a' b',
  for_list l (fun x a => if act x then F x a else Ok a) a = Ok a' -> for_list l (fun x b => if act x then Ok b else G x b) b = Ok b' ->
  for_list l (fun x '(a, b) => if act x then a1 <- F x a ;; Ok (a1, b) else b1 <- G x b ;; Ok (a, b1)) (a, b) = Ok (a', b').
Proof.
  induction l as [|x l IH]; intros a b a' b'; cbn [for_list]; [congruence|]. destruct (act x).
  - intros E1 E2. cbn [bind] in E2. destruct (F x a) as [a1|]; cbn [bind] in *; [|discriminate]. apply IH; assumption.
  - intros E1 E2. cbn [bind] in E1. destruct (G x b) as [b1|]; cbn [bind] in *; [|discriminate]. apply IH; assumption.
Qed.

Lemma zidx_ok z : 0 <= z -> zidx z = Ok (Z.to_nat z).
Proof. intros H. unfold zidx. rewrite (proj2 (Z.ltb_ge _ _) H). reflexivity. Qed.

Section Packed.
  Variables (D D' : grid) (nc dpe : nat) (n n' : nat).
  Hypothesis Hsur : forall r, (r < n')%nat -> exists i k, (i < nc)%nat /\ (k < dpe)%nat /\ D' i k = Z.of_nat r.
  Hypothesis Hfun : forall i k i' k', (i < nc)%nat -> (k < dpe)%nat -> (i' < nc)%nat -> (k' < dpe)%nat -> 0 <= D' i k -> D' i k = D' i' k' -> D i k = D i' k'.
  Hypothesis Hrng : forall i k, (i < nc)%nat -> (k < dpe)%nat -> 0 <= D' i k -> D' i k < Z.of_nat n' /\ 0 <= D i k < Z.of_nat n.
  Lemma packed ind0 : length ind0 = n' ->
    exists ind R P, for_list (positions (seq 0 nc) (seq 0 dpe)) (fun x b => if 0 <=? gat D' x then wr b (Z.to_nat (gat D' x)) (gat D x) else Ok b) ind0 = Ok ind /\
      selection (Z.of_nat n') (Z.of_nat n) ind = Ok R /\ wf_csr n' n R /\ takes nc dpe D D' n n' (matrix R) /\ copies nc dpe D D' n (matrix R) /\
      csr_transpose R = Ok P /\ wf_csr n n' P /\ transposed n n' (matrix R) (matrix P).
  Proof using Hsur Hfun Hrng.
    intros L0. destruct (restrict_ok D D' nc dpe n n' Hsur Hfun Hrng ind0 L0) as (ind & R & E & ES & WF & H0 & HT & HV).
    destruct (transpose_thm n' n R WF H0) as (P & EP & WP & HP & _).
    exists ind, R, P. split; [exact E|]. split; [exact ES|]. split; [exact WF|]. split; [exact HT|]. split; [|split; [exact EP|split; [exact WP|exact HP]]].
    intros x i k Hi Hk Hp. apply mv_row; [pose proof (Hrng i k Hi Hk Hp); lia|]. intros c. apply HV; assumption.
  Qed.
End Packed.

Lemma full_ok dm full : is_dofmap dm -> full_of dm full ->
  exists R Rbc, getFullDoFMap dm full = Ok (R, Rbc) /\
    let n := Z.to_nat (num_dofs dm) in let nb := Z.to_nat (num_boundary_dofs dm) in let N := Z.to_nat (num_dofs full) in
    wf_csr n N R /\ takes (num_cells dm) (dofs_per_element dm) (the_grid full) (the_grid dm) N n (matrix R) /\
    copies (num_cells dm) (dofs_per_element dm) (the_grid full) (the_grid dm) N (matrix R) /\
    wf_csr nb N Rbc /\ takes (num_cells dm) (dofs_per_element dm) (the_grid full) (fun i k => - the_grid dm i k - 1) N nb (matrix Rbc) /\
    copies (num_cells dm) (dofs_per_element dm) (the_grid full) (fun i k => - the_grid dm i k - 1) N (matrix Rbc).
Proof.
  intros (Hs & Hn & Hnb & Hr & Hsur) (EC & ED & (Fs & Fn & _ & Fr & Fsur) & FB & SC). unfold getFullDoFMap.
  set (nc := num_cells dm) in *. set (dpe := dofs_per_element dm) in *. rewrite EC, ED in Fr. rewrite FB in Fr.
  destruct (packed (the_grid full) (the_grid dm) nc dpe (Z.to_nat (num_dofs full)) (Z.to_nat (num_dofs dm))) with (ind0 := repeat (Some 0) (Z.to_nat (num_dofs dm))) as (ind & R & P & E & ES & WF & HT & HV & _).
  { intros r H. destruct (Hsur (Z.of_nat r) ltac:(lia)) as (i & k & H1 & H2 & H3). eauto. }
  { intros i k i' k' H1 H2 H3 H4 _ H5. apply (SC i k i' k'); assumption. }
  { intros i k H1 H2 H3. pose proof (Hr i k H1 H2). pose proof (Fr i k H1 H2). lia. }
  { apply repeat_length. }
  destruct (packed (the_grid full) (fun i k => - the_grid dm i k - 1) nc dpe (Z.to_nat (num_dofs full)) (Z.to_nat (num_boundary_dofs dm))) with (ind0 := repeat (Some 0) (Z.to_nat (num_boundary_dofs dm))) as (ind2 & R2 & P2 & E2 & ES2 & WF2 & HT2 & HV2 & _).
  { intros r H. destruct (Hsur (- Z.of_nat r - 1) ltac:(lia)) as (i & k & H1 & H2 & H3). exists i, k. split; [exact H1|]. split; [exact H2|]. lia. }
  { intros i k i' k' H1 H2 H3 H4 _ H5. apply (SC i k i' k'); try assumption. lia. }
  { intros i k H1 H2 H3. pose proof (Hr i k H1 H2). pose proof (Fr i k H1 H2). lia. }
  { apply repeat_length. }
  match goal with |- context [bind ?e ?g] => assert (EE : e = Ok (ind, ind2)) end.
  { rewrite nested_range.
    rewrite <- (two_loops (fun x => 0 <=? gat (the_grid dm) x) (fun x b => wr b (Z.to_nat (gat (the_grid dm) x)) (gat (the_grid full) x))
      (fun x b => wr b (Z.to_nat (- gat (the_grid dm) x - 1)) (gat (the_grid full) x)) (positions (seq 0 nc) (seq 0 dpe)) _ (repeat (Some 0) (Z.to_nat (num_boundary_dofs dm))) ind ind2 E).
    - apply for_list_ext. intros [i k] [b b2] Hx. apply in_grid in Hx. destruct Hx as (Hi & Hk). rewrite cell2dof_ok by assumption. cbn [bind].
      rewrite cell2dof_ok; [|exact Fs|rewrite EC; exact Hi|rewrite ED; exact Hk]. cbn [bind gat]. destruct (Z.leb_spec 0 (the_grid dm i k)); [reflexivity|].
      rewrite zidx_ok by lia. reflexivity.
    - rewrite <- E2. apply for_list_ext. intros [i k] b _. cbn [gat]. destruct (Z.leb_spec 0 (the_grid dm i k)), (Z.leb_spec 0 (- the_grid dm i k - 1)); try lia; reflexivity. }
  rewrite EE. cbn [bind]. rewrite Z2Nat.id in ES, ES2 by lia. rewrite Z2Nat.id in ES, ES2 by lia. rewrite ES. cbn [bind]. rewrite ES2. cbn [bind].
  exists R, R2. split; [reflexivity|]. cbn beta zeta. exact (conj WF (conj HT (conj HV (conj WF2 (conj HT2 HV2))))).
Qed.

Lemma augment_ok dm full x bd (beta : Z -> Qc) : is_dofmap dm -> full_of dm full -> Z.of_nat (length x) = num_dofs dm ->
  (forall z, - num_boundary_dofs dm <= z < 0 -> bd z = Ok (beta z)) ->
  exists y, augment dm full x bd = Ok y /\ Z.of_nat (length y) = num_dofs full /\
    (forall i k, (i < num_cells dm)%nat -> (k < dofs_per_element dm)%nat ->
       vat y (Z.to_nat (the_grid full i k)) = if 0 <=? the_grid dm i k then vat x (Z.to_nat (the_grid dm i k)) else beta (the_grid dm i k)).
Proof.
  intros (Hs & Hn & Hnb & Hr & Hsur) (EC & ED & (Fs & Fn & _ & Fr & Fsur) & FB & SC) Lx Hb. unfold augment.
  set (nc := num_cells dm) in *. set (dpe := dofs_per_element dm) in *. rewrite EC, ED in Fr, Fsur. rewrite FB in Fr, Fsur.
  set (val := fun z => if 0 <=? z then vat x (Z.to_nat z) else beta z).
  destruct (scatter (fun _ => true) (fun p => Z.to_nat (gat (the_grid full) p)) (fun p => val (gat (the_grid dm) p)) (positions (seq 0 nc) (seq 0 dpe)) [] (alloc (Z.to_nat (num_dofs full)))) as (b & E & Lb & Hv).
  { intros [i k] Hx _. apply in_grid in Hx. destruct Hx as (H1 & H2). cbn [gat]. unfold alloc. rewrite repeat_length. pose proof (Fr i k H1 H2). lia. }
  { intros [i k] [i' k'] Hx Hy _ _ Ef. apply in_grid in Hx, Hy. destruct Hx as (H1 & H2), Hy as (H3 & H4). cbn [gat] in *. f_equal. apply (SC i k i' k'); try assumption.
    pose proof (Fr i k H1 H2). pose proof (Fr i' k' H3 H4). lia. }
  { intros p []. }
  match goal with |- context [bind ?e ?g] => assert (EE : e = Ok b) end.
  { rewrite nested_range, <- E. apply for_list_ext. intros [i k] s Hx. apply in_grid in Hx. destruct Hx as (H1 & H2). rewrite cell2dof_ok by assumption. cbn [bind].
    rewrite cell2dof_ok; [|exact Fs|rewrite EC; exact H1|rewrite ED; exact H2]. cbn [bind gat]. pose proof (Fr i k H1 H2). pose proof (Hr i k H1 H2). rewrite zidx_ok by lia. cbn [bind]. unfold val.
    destruct (Z.leb_spec 0 (the_grid dm i k)).
    - unfold vat. rewrite (aget_nth x (Z.to_nat (the_grid dm i k)) 0%Qc) by lia. reflexivity.
    - rewrite Hb by lia. reflexivity. }
  rewrite EE. cbn [bind]. unfold alloc in Lb. rewrite repeat_length in Lb.
  cbn [app] in Hv. assert (AT : forall i k, (i < nc)%nat -> (k < dpe)%nat -> nth_error b (Z.to_nat (the_grid full i k)) = Some (Some (val (the_grid dm i k)))).
  { intros i k H1 H2. apply (Hv (i, k)); [apply in_grid; auto|reflexivity]. }
  destruct (all_init_ok 0%Qc b) as (y & Ey & Eb).
  { intros r Hr'. rewrite Lb in Hr'. destruct (Fsur (Z.of_nat r) ltac:(lia)) as (i & k & H1 & H2 & H3). exists (val (the_grid dm i k)). rewrite <- (AT i k H1 H2), H3, Nat2Z.id. reflexivity. }
  exists y. split; [exact Ey|]. assert (Ly : length y = length b) by (rewrite Eb, map_length; reflexivity). split; [rewrite Ly, Lb; lia|].
  intros i k H1 H2. pose proof (AT i k H1 H2) as A. rewrite Eb, nth_error_map in A. unfold vat. destruct (nth_error y (Z.to_nat (the_grid full i k))) as [v|] eqn:Ev; cbn [option_map] in A; [|discriminate].
  rewrite (nth_error_nth _ _ _ Ev). unfold val, vat in A. injection A as A. exact A.
Qed.

(** The positions of the cells of a sub-mesh. *)
Lemma index_loop (sel : list nat) (N : nat) : NoDup sel -> (forall c, In c sel -> (c < N)%nat) ->
  exists a, for_range 0 (length sel) (fun i a => c <- aget sel i ;; aset a c (Z.of_nat i)) (repeat (-1) N) = Ok a /\ length a = N /\
    (forall i, (i < length sel)%nat -> nth_error a (nth i sel O) = Some (Z.of_nat i)) /\
    (forall c, (c < N)%nat -> ~ In c sel -> nth_error a c = Some (-1)).
Proof.
  intros ND HC. destruct (for_range_inv (fun j a => length a = N /\ (forall i, (i < j)%nat -> (i < length sel)%nat -> nth_error a (nth i sel O) = Some (Z.of_nat i)) /\
    (forall c, (c < N)%nat -> ~ In c sel -> nth_error a c = Some (-1)))
    (fun i a => c <- aget sel i ;; aset a c (Z.of_nat i)) 0%nat (length sel) (repeat (-1) N)) as (a & E & La & H1 & H2); [lia| | |].
  - split; [apply repeat_length|]. split; [intros i H; lia|]. intros c Hc _. rewrite nth_error_nth' with (d := -1) by (rewrite repeat_length; exact Hc). rewrite nth_repeat. reflexivity.
  - intros j a Hj (La & H1 & H2). rewrite (aget_nth sel j O) by lia. cbn [bind].
    assert (HI : In (nth j sel O) sel) by (apply nth_In; lia). assert (HL : (nth j sel O < length a)%nat) by (rewrite La; apply HC; exact HI).
    rewrite aset_ok by exact HL. eexists; split; [reflexivity|]. split; [rewrite upd_length; exact La|]. split.
    + intros i Hi Hl. rewrite nth_error_upd. destruct (Nat.eq_dec i j) as [->|Nj].
      * rewrite Nat.eqb_refl, (proj2 (Nat.ltb_lt _ _) HL). reflexivity.
      * destruct (Nat.eqb_spec (nth j sel O) (nth i sel O)) as [Eq|_]; cbn [andb]; [|apply H1; lia].
        exfalso. apply Nj. symmetry. apply (proj1 (NoDup_nth sel O) ND); [lia|lia|exact Eq].
    + intros c Hc Nc. rewrite nth_error_upd. destruct (Nat.eqb_spec (nth j sel O) c) as [Eq|_]; cbn [andb]; [|apply H2; assumption]. exfalso. apply Nc. rewrite <- Eq. exact HI.
  - exists a. split; [exact E|]. split; [exact La|]. split; [|exact H2]. intros i Hi. apply H1; exact Hi.
Qed.
