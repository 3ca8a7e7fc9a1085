(** Deciding the hypotheses on examples; where interpolation is not exact. *)
From Verif Require Import Util Lin DenseModel DenseSpec DenseProofs H2Model H2Spec H2Proofs TransferModel TransferSpec TransferProofs TransferProofs2 TransferProofs3 TransferProofs4 TransferProofs5 TransferProofs6.
Local Open Scope nat_scope.
Set Default Proof Using "Type".

Definition clearb (tol a b : Qc) : bool := Qc_eq_bool a b || negb (Qle_bool (a - b)%Qc tol) || negb (Qle_bool (b - a)%Qc tol).
Lemma not_le (a b : Qc) : Qle_bool a b = false -> (b < a)%Qc.
Proof.
  intros H. destruct (Qclt_le_dec b a) as [Hl|Hl]; auto. exfalso. assert (Qle_bool a b = true) by (apply Qle_bool_iff; exact Hl). congruence.
Qed.
Lemma clearb_ok tol a b : clearb tol a b = true -> clear tol a b.
Proof.
  unfold clearb. intros H. apply orb_true_iff in H. destruct H as [H|H]; [apply orb_true_iff in H; destruct H as [H|H]|].
  - left. apply Qc_eq_bool_correct. auto.
  - right. left. apply not_le. apply negb_true_iff. auto.
  - right. right. apply not_le. apply negb_true_iff. auto.
Qed.
Definition allb (n : nat) (f : nat -> bool) : bool := forallb f (seq 0 n).
Lemma allb_ok n f i : allb n f = true -> i < n -> f i = true.
Proof. intros H Hi. unfold allb in H. rewrite forallb_forall in H. apply H. apply in_seq. lia. Qed.
Definition clear_nodesb (G : geo) (p c : ginfo) : bool := allb (dim G) (fun l => allb (order p) (fun i => allb (order c) (fun j => clearb tol8 (node G p l i) (node G c l j)))).
Lemma clear_nodesb_ok G p c : clear_nodesb G p c = true -> clear_nodes G p c.
Proof.
  intros H l i j Hl Hi Hj. apply clearb_ok. unfold clear_nodesb in H.
  apply (allb_ok _ _ l) in H; auto. apply (allb_ok _ _ i) in H; auto. apply (allb_ok _ _ j) in H; auto.
Qed.
Definition clear_leafb (G : geo) (n : ginfo) : bool := forallb (fun cell => allb (num_nodes G (order n)) (fun j => allb (dim G) (fun l => allb (order n) (fun i =>
  clearb tol9 (dmat (qnodes G (order n) cell) j l) (node G n l i))))) (gcells n).
Lemma clear_leafb_ok G n : clear_leafb G n = true -> clear_leaf G n.
Proof.
  intros H cell j l i Hc Hj Hl Hi. unfold clear_leafb in H. rewrite forallb_forall in H. specialize (H cell Hc). apply clearb_ok.
  apply (allb_ok _ _ j) in H; auto. apply (allb_ok _ _ l) in H; auto. apply (allb_ok _ _ i) in H; auto.
Qed.
Fixpoint nodupb (l : list Qc) : bool := match l with [] => true | a :: r => negb (existsb (Qc_eq_bool a) r) && nodupb r end.
Lemma nodupb_ok l : nodupb l = true -> NoDup l.
Proof.
  induction l as [|a l IH]; cbn; intros H; constructor; apply andb_true_iff in H; destruct H as (H1 & H2); auto.
  intros Hin. apply negb_true_iff in H1. assert (existsb (Qc_eq_bool a) l = true); [|congruence]. apply existsb_exists. exists a. split; auto.
  unfold Qc_eq_bool. destruct (Qc_eq_dec a a); auto.
Qed.
Definition wf_clusterb (G : geo) (n : ginfo) : bool :=
  (1 <=? order n) && (length (gbox n) =? dim G) && forallb (fun b => negb (Qc_eq_bool (fst b) (snd b))) (gbox n) &&
  (length (cheb G (order n)) =? order n) && nodupb (cheb G (order n)).
Lemma wf_clusterb_ok G n : wf_clusterb G n = true -> NoDup (gdofs n) -> wf_cluster G n.
Proof.
  unfold wf_clusterb. intros H Hd. repeat (apply andb_true_iff in H; destruct H as (H & ?)).
  split; auto.
  - apply Nat.leb_le. auto.
  - apply Nat.eqb_eq. auto.
  - intros b Hb E. match goal with H : forallb _ _ = true |- _ => rewrite forallb_forall in H; specialize (H b Hb); rewrite E in H end.
    unfold Qc_eq_bool in *. destruct (Qc_eq_dec (snd b) (snd b)); [discriminate|auto].
  - apply Nat.eqb_eq. auto.
  - apply nodupb_ok. auto.
Qed.
Fixpoint nodupn (l : list nat) : bool := match l with [] => true | a :: r => negb (existsb (Nat.eqb a) r) && nodupn r end.
Lemma nodupn_ok l : nodupn l = true -> NoDup l.
Proof.
  induction l as [|a l IH]; cbn; intros H; constructor; apply andb_true_iff in H; destruct H as (H1 & H2); auto.
  intros Hin. apply negb_true_iff in H1. assert (existsb (Nat.eqb a) l = true); [|congruence]. apply existsb_exists. exists a. split; auto. apply Nat.eqb_refl.
Qed.
Definition wf_treeb (G : geo) (t : gnode) : bool := forallb (fun s =>
  wf_clusterb G (ginf s) && nodupn (gdofs (ginf s)) && (match gkids s with [] => clear_leafb G (ginf s) | _ => true end) &&
  forallb (fun c => clear_nodesb G (ginf s) (ginf c)) (gkids s)) (gnodes t).
Lemma wf_treeb_ok G t : wf_treeb G t = true -> wf_tree G t.
Proof.
  unfold wf_treeb. intros H. rewrite forallb_forall in H. split.
  - intros s Hs. specialize (H s Hs). do 3 (apply andb_true_iff in H; destruct H as (H & ?)). apply wf_clusterb_ok; auto. apply nodupn_ok; auto.
  - intros s Hs Hk. specialize (H s Hs). rewrite Hk in H. do 3 (apply andb_true_iff in H; destruct H as (H & ?)). apply clear_leafb_ok; auto.
  - intros s c Hs Hc. specialize (H s Hs). apply andb_true_iff in H. destruct H as (_ & H). rewrite forallb_forall in H. apply clear_nodesb_ok; auto.
Qed.

(** ** A chain of four cells *)
Definition q (a : Z) (b : positive) : Qc := Q2Qc (a # b).
Definition chain_cheb (m : nat) : list Qc := match m with 1 => [0%Qc] | 2 => [q (-3) 5; q 3 5] | 3 => [q (-4) 5; 0%Qc; q 4 5] | _ => tab m (fun i => qz (Z.of_nat i)) end.
Definition chain : geo := Geo 1 chain_cheb 2 (fun cell k => Z.of_nat (cell + k))
  (fun _ => 2) (fun _ => [q 1 2; q 1 2]) (fun _ => Dense 2 2 [q 3 4; q 1 4; q 1 4; q 3 4]) (fun _ => 1%Qc)
  (fun _ cell => Dense 2 1 [qz (Z.of_nat cell) + q 1 4; qz (Z.of_nat cell) + q 3 4]%Qc).
Lemma chain_wf : wf_geo chain.
Proof. split; cbn; auto; intros; repeat split; auto. Qed.
(** A root of order [m] with two leaves of order [k]. *)
Definition chain_tree (m k : nat) : gnode :=
  GNode (GI 0 [(0, qz 4)%Qc] m [] [])
    [GNode (GI 1 [(0, qz 2)%Qc] k [0; 1] [0; 1]) []; GNode (GI 2 [(1, qz 4)%Qc] k [2; 3; 4] [1; 2; 3]) []].

Lemma smaller_order : exists G t, wf_geo G /\ wf_tree G t /\
  (forall s c, In s (gnodes t) -> In c (gkids s) -> order (ginf c) <= order (ginf s)) /\
  exists h st d I, prepare G None t (pits0 G, leaf0 G) = Ok (h, st) /\ I < ksize (inf h) /\ bas 0 h d I <> integral G t d (LT G (ginf t) I).
Proof.
  exists chain, (chain_tree 2 1). split; [apply chain_wf|]. split; [apply wf_treeb_ok; vm_compute; reflexivity|]. split.
  - intros s c Hs Hc. cbn in Hs. destruct Hs as [<-|[<-|[<-|[]]]]; cbn in Hc; try contradiction. destruct Hc as [<-|[<-|[]]]; cbn; lia.
  - destruct (prepare_thm chain 5 (chain_tree 2 1) chain_wf) as (h & st & E & Hs & HF).
    + apply wf_treeb_ok. vm_compute. reflexivity.
    + apply nodupn_ok. reflexivity.
    + intros s d Hin Hd. cbn in Hin. destruct Hin as [<-|[<-|[<-|[]]]]; cbn in Hd; lia.
    + exists h, st, 0, 0. split; auto.
      pose proof (Forall2_in_l _ _ _ (chain_tree 2 1) HF (gnode_self _)) as _.
      assert (Hc : stands_for chain (chain_tree 2 1) h) by (destruct h; cbn in HF; inversion HF; auto).
      destruct Hc as (_ & Hk & Hb). split; [rewrite Hk; cbn; lia|]. rewrite Hb by (cbn; lia).
      intros Ee. apply (f_equal this) in Ee. vm_compute in Ee. discriminate.
Qed.

(** Boxes no wider than the tolerance. *)
Lemma tiny_box : exists G p c, wf_geo G /\ wf_cluster G p /\ wf_cluster G c /\ poly (order p) (dim G) (fun _ => 1%Qc) /\
  exists T, build G p c (pits0 G) = Ok (T, pits0 G) /\ exists J, J < order c ^ dim G /\
    sumf (order p ^ dim G) (fun I => dmat T I J * 1)%Qc <> 1%Qc.
Proof.
  set (p := GI 0 [(0, q 1 100000000)]%Qc 2 [] []). set (c := GI 1 [(0, q 1 200000000)]%Qc 2 [] []).
  exists chain, p, c. split; [apply chain_wf|]. split; [apply wf_clusterb_ok; [vm_compute; reflexivity|constructor]|].
  split; [apply wf_clusterb_ok; [vm_compute; reflexivity|constructor]|]. split.
  { intros l x _ _. exists [1%Qc]. split; [cbn; lia|]. intros t. cbn. ring. }
  exists (Dense 2 2 [1; 1; 1; 1]%Qc). split.
  - vm_compute. repeat f_equal; apply Qc_is_canon; reflexivity.
  - exists 0. split; [cbn; lia|]. intros E. apply (f_equal this) in E. vm_compute in E. discriminate.
Qed.
