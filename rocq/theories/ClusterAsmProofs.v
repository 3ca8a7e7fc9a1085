(** The bits of the masks of pairs of clusters. *)
From Verif Require Import Util Lin MeshModel LocalSpec FormsProofs2 ReorderProofs AssemblyModel AssemblySpec AssemblyProofs AssemblyProofs2 AssemblyProofs7
  RestrictionProofs NonlocalModel NonlocalSpec NonlocalProofs NonlocalModel2 NonlocalProofs2 NonlocalProofs3 ClusterAsmModel.
From Coq Require Import Lia NArith.
Set Default Proof Using "Type".

Lemma fold_seq_inv {S} (P : nat -> S -> Prop) (f : S -> nat -> S) n : forall lo s, P lo s ->
  (forall i s, lo <= i < lo + n -> P i s -> P (Datatypes.S i) (f s i)) -> P (lo + n) (fold_left f (seq lo n) s).
Proof.
  induction n as [|n IH]; intros lo s H Hs; [rewrite Nat.add_0_r; exact H|]. cbn [seq fold_left]. rewrite Nat.add_succ_r.
  apply (IH (Datatypes.S lo)); [apply Hs; [lia|exact H]|]. intros i s' Hi. apply Hs. lia.
Qed.
Notation tb m i := (N.testbit m (N.of_nat i)).
Lemma tbn m i : N.testbit_nat m i = tb m i.
Proof. symmetry. apply Ntestbit_Nbit. Qed.

Lemma row_bits B (in2 : nat -> bool) s c m mask k : bit_at B k s ->
  let r := fold_left (fun '(mask, k) q => (if in2 q then N.lor mask k else mask, shl B k 1)) (seq c m) (mask, k) in
  bit_at B (snd r) (s + m) /\ forall i, i < B -> tb (fst r) i = tb mask i || ((s <=? i) && (i <? s + m) && in2 (c + (i - s))).
Proof.
  intros Hk. induction m as [|m IH].
  - cbn [seq fold_left fst snd]. rewrite Nat.add_0_r. split; [exact Hk|]. intros i Hi. destruct (Nat.leb_spec s i), (Nat.ltb_spec i s); try lia; cbn [andb]; rewrite orb_false_r; reflexivity.
  - rewrite seq_S, fold_left_app. cbn [fold_left]. destruct (fold_left _ (seq c m) (mask, k)) as [m' k']. cbn zeta in IH. cbn [fst snd] in *. destruct IH as [B' V].
    split; [replace (s + S m) with (s + m + 1) by lia; apply bit_at_shl; exact B'|]. intros i Hi.
    assert (G : tb (if in2 (c + m) then N.lor m' k' else m') i = tb m' i || (in2 (c + m) && (i =? s + m))).
    { destruct (in2 (c + m)); [|rewrite orb_false_r; reflexivity]. rewrite N.lor_spec, B' by exact Hi. reflexivity. }
    rewrite G, V by exact Hi. destruct (tb mask i); [reflexivity|]. cbn [orb].
    destruct (Nat.eqb_spec i (s + m)) as [->|Hne].
    + replace (c + (s + m - s)) with (c + m) by lia. destruct (Nat.leb_spec s (s + m)); [|lia]. destruct (Nat.ltb_spec (s + m) (s + m)); [lia|].
      destruct (Nat.ltb_spec (s + m) (s + S m)); [|lia]. cbn [andb orb]. rewrite andb_true_r. reflexivity.
    + rewrite andb_false_r, orb_false_r. destruct (Nat.ltb_spec i (s + m)), (Nat.ltb_spec i (s + S m)); try lia; reflexivity.
Qed.

(** Rows of lengths [len] one after the other. *)
Definition genMask (B n : nat) (c len : nat -> nat) (in1 in2 : nat -> bool) : N :=
  fst (fold_left (fun '(mask, k) p =>
    if in1 p then fold_left (fun '(mask, k) q => (if in2 q then N.lor mask k else mask, shl B k 1)) (seq (c p) (len p)) (mask, k)
    else (mask, shl B k (len p))) (seq 0 n) (0%N, 1%N)).
Lemma genMask_bits B n c len (pos : nat -> nat) in1 in2 : pos 0 = 0 -> (forall p, p < n -> pos (S p) = pos p + len p) ->
  forall p j, p < n -> j < len p -> pos p + j < B -> tb (genMask B n c len in1 in2) (pos p + j) = in1 p && in2 (c p + j).
Proof.
  intros H0 Hs. unfold genMask.
  assert (Mono : forall p q, p <= q -> q <= n -> pos p <= pos q).
  { intros p q Hpq. induction Hpq as [|q Hpq IH]; intros Hq; [lia|]. rewrite Hs by lia. specialize (IH ltac:(lia)). lia. }
  set (st := fold_left _ _ _).
  assert (G : bit_at B (snd st) (pos n) /\ (forall i, i < B -> pos n <= i -> tb (fst st) i = false) /\
    forall p j, p < n -> j < len p -> pos p + j < B -> tb (fst st) (pos p + j) = in1 p && in2 (c p + j)).
  2:{ apply G. }
  unfold st. clear st. change n with (0 + n) at 2 3 4.
  apply (fold_seq_inv (fun p st => bit_at B (snd st) (pos p) /\ (forall i, i < B -> pos p <= i -> tb (fst st) i = false) /\
    forall p' j, p' < p -> j < len p' -> pos p' + j < B -> tb (fst st) (pos p' + j) = in1 p' && in2 (c p' + j))).
  - cbn [fst snd]. rewrite H0. split; [|split; [intros; apply N.bits_0|intros; lia]].
    intros i Hi. change 1%N with (N.ones 1). destruct i as [|i]; [reflexivity|]. apply N.ones_spec_high. lia.
  - intros p [mask k] Hp (Hk & Hz & Hv). cbn [fst snd] in *. rewrite Hs by lia. destruct (in1 p) eqn:E1.
    + destruct (row_bits B in2 (pos p) (c p) (len p) mask k Hk) as [Hk' V]. set (r := fold_left _ (seq (c p) (len p)) (mask, k)) in *. split; [exact Hk'|]. split.
      * intros i Hi Hle. rewrite V, Hz by lia. destruct (Nat.ltb_spec i (pos p + len p)); [lia|]. rewrite andb_false_r. reflexivity.
      * intros p' j Hp' Hj HB. rewrite V by lia. destruct (Nat.eq_dec p' p) as [->|Hne].
        -- rewrite Hz by lia. destruct (Nat.leb_spec (pos p) (pos p + j)); [|lia]. destruct (Nat.ltb_spec (pos p + j) (pos p + len p)); [|lia].
           rewrite E1. cbn [andb orb]. do 2 f_equal. lia.
        -- rewrite Hv by lia. assert (pos p' + j < pos p). { pose proof (Mono (S p') p ltac:(lia) ltac:(lia)) as Hm. rewrite Hs in Hm by lia. lia. }
           destruct (Nat.leb_spec (pos p) (pos p' + j)); [lia|]. rewrite orb_false_r. reflexivity.
    + cbn [fst snd]. split; [apply bit_at_shl; exact Hk|]. split; [intros i Hi Hle; apply Hz; lia|]. intros p' j Hp' Hj HB. destruct (Nat.eq_dec p' p) as [->|Hne].
      * rewrite Hz, E1 by lia. reflexivity.
      * apply Hv; lia.
Qed.
(** The position of the entry (p, q) of a local matrix; packed ones have the entries with p <= q. *)
Definition midx (sym : bool) (n p q : nat) : nat := if sym then row_start n (Nat.min p q) + (Nat.max p q - Nat.min p q) else p * n + q.
Lemma midx_lt sym n p q : p < n -> q < n -> midx sym n p q < stored_size sym n.
Proof. intros Hp Hq. unfold midx, stored_size. destruct sym; [apply row_start_lt; lia|nia]. Qed.
Lemma size_ge sym n : n <= stored_size sym n.
Proof.
  unfold stored_size. destruct sym; [|nia]. apply Nat.div_le_lower_bound; [lia|]. nia.
Qed.
Lemma symMask_bits B n in1 in2 p q : stored_size true n <= B -> p <= q -> q < n -> tb (symMask B n in1 in2) (midx true n p q) = in1 p && in2 q.
Proof.
  intros HB Hp Hq. change (symMask B n in1 in2) with (genMask B n (fun p => p) (fun p => n - p) in1 in2).
  pose proof (midx_lt true n p q ltac:(lia) Hq) as Hm. unfold midx in *. rewrite Nat.min_l, Nat.max_r in * by exact Hp.
  rewrite (genMask_bits B n (fun p => p) (fun p => n - p) (row_start n) in1 in2); [do 2 f_equal; lia|reflexivity|reflexivity|lia|lia|lia].
Qed.
Lemma fullMask_bits B n in1 in2 p q : stored_size false n <= B -> p < n -> q < n -> tb (fullMask B n in1 in2) (midx false n p q) = in1 p && in2 q.
Proof.
  intros HB Hp Hq. change (fullMask B n in1 in2) with (genMask B n (fun _ => 0) (fun _ => n) in1 in2).
  pose proof (midx_lt false n p q Hp Hq) as Hm. unfold midx in *.
  rewrite (genMask_bits B n (fun _ => 0) (fun _ => n) (fun p => p * n) in1 in2); [reflexivity|reflexivity|cbn; intros; lia|lia|lia|lia].
Qed.

Section Cells.
  Variables (B nc nb : nat) (dm : dofmap).
  Notation dpe := (dm_dpe dm).
  Hypothesis ok : dofs_ok nc dpe (dm_num dm) nb (dm_dofs dm).
  Hypothesis HB : 2 * dpe <= B.

  Lemma cell_masks_ok np c : c < nc -> exists m1 m2, cell_masks B dm np c = Ok (m1, m2) /\
    forall i, i < B -> tb m1 i = (i <? dpe) && zmem (np_dofs1 np) (dof (dm_dofs dm) c i) /\ tb m2 i = (i <? dpe) && zmem (np_dofs2 np) (dof (dm_dofs dm) c i).
  Proof using ok.
    clear HB. intros Hc. unfold cell_masks.
    destruct (for_range_inv (fun p '(m1, m2, k) => bit_at B k p /\
        forall i, i < B -> tb m1 i = (i <? p) && zmem (np_dofs1 np) (dof (dm_dofs dm) c i) /\ tb m2 i = (i <? p) && zmem (np_dofs2 np) (dof (dm_dofs dm) c i))
      (fun p '(m1, m2, k) => I <- get2 (dm_dofs dm) c p ;;
        Ok (if zmem (np_dofs1 np) I then N.lor m1 k else m1, if zmem (np_dofs2 np) I then N.lor m2 k else m2, shl B k 1))
      0 dpe (0%N, 0%N, 1%N)) as ([[m1 m2] k] & E & _ & V); [lia| | |].
    - split.
      + intros i Hi. change 1%N with (N.ones 1). destruct i as [|i]; [reflexivity|]. apply N.ones_spec_high. lia.
      + intros i Hi. rewrite N.bits_0. destruct (Nat.ltb_spec i 0); [lia|]. auto.
    - intros p [[m1 m2] k] Hp (Hk & V). rewrite (dof_get nc nb dm ok c p Hc (proj2 Hp)), bind_Ok. eexists. split; [reflexivity|].
      split; [replace (S p) with (p + 1) by lia; apply bit_at_shl; exact Hk|].
      assert (G : forall (l : list nat) m, (forall i, i < B -> tb m i = (i <? p) && zmem l (dof (dm_dofs dm) c i)) ->
        forall i, i < B -> tb (if zmem l (dof (dm_dofs dm) c p) then N.lor m k else m) i = (i <? S p) && zmem l (dof (dm_dofs dm) c i)).
      { intros l m Hm i Hi. destruct (Nat.eq_dec i p) as [->|Hne].
        - destruct (Nat.ltb_spec p (S p)); [|lia]. cbn [andb]. destruct (zmem l (dof (dm_dofs dm) c p)) eqn:Ez.
          + rewrite N.lor_spec, Hk, Nat.eqb_refl by lia. apply orb_true_r.
          + rewrite Hm, Ez, andb_false_r by lia. reflexivity.
        - replace (i <? S p) with (i <? p) by (destruct (Nat.ltb_spec i p), (Nat.ltb_spec i (S p)); lia).
          destruct (zmem l (dof (dm_dofs dm) c p)); [|apply Hm; exact Hi]. rewrite N.lor_spec, Hk, Hm by lia.
          destruct (Nat.eqb_spec i p); [lia|]. apply orb_false_r. }
      intros i Hi. split; apply G; auto; intros; apply V; assumption.
    - rewrite E, bind_Ok. exists m1, m2. split; [reflexivity|]. exact V.
  Qed.

  Lemma record_cells_ok np : (forall K, In K (np_union np) -> K < nc) -> forall cm, exists cm1 cm2, record_cells B dm np cm = Ok (cm1, cm2) /\
    forall K i, In K (np_union np) -> i < B -> tb (cm1 K) i = (i <? dpe) && zmem (np_dofs1 np) (dof (dm_dofs dm) K i) /\
      tb (cm2 K) i = (i <? dpe) && zmem (np_dofs2 np) (dof (dm_dofs dm) K i).
  Proof using ok.
    clear HB. intros Hr [c1 c2]. unfold record_cells.
    assert (G : forall l done cm, (forall K, In K l -> K < nc) ->
      (forall K i, In K done -> i < B -> tb (fst cm K) i = (i <? dpe) && zmem (np_dofs1 np) (dof (dm_dofs dm) K i) /\
        tb (snd cm K) i = (i <? dpe) && zmem (np_dofs2 np) (dof (dm_dofs dm) K i)) ->
      exists cm', for_list l (fun c '(cm1, cm2) => '(m1, m2) <- cell_masks B dm np c ;; Ok (cset cm1 c m1, cset cm2 c m2)) cm = Ok cm' /\
      (forall K i, In K (done ++ l) -> i < B -> tb (fst cm' K) i = (i <? dpe) && zmem (np_dofs1 np) (dof (dm_dofs dm) K i) /\
        tb (snd cm' K) i = (i <? dpe) && zmem (np_dofs2 np) (dof (dm_dofs dm) K i))).
    { induction l as [|x l IH]; intros done [a b] Hl Hd.
      - exists (a, b). rewrite app_nil_r. split; [reflexivity|exact Hd].
      - cbn [for_list]. destruct (cell_masks_ok np x (Hl x (or_introl eq_refl))) as (m1 & m2 & E & V). rewrite E, !bind_Ok.
        destruct (IH (done ++ [x]) (cset a x m1, cset b x m2)) as (cm' & E' & V').
        + intros; apply Hl; right; assumption.
        + intros K i HK Hi. cbn [fst snd] in *. unfold cset. destruct (Nat.eqb_spec K x) as [->|Hne]; [apply V; exact Hi|].
          apply in_app_or in HK. destruct HK as [HK|[->|[]]]; [apply Hd; assumption|congruence].
        + exists cm'. split; [exact E'|]. intros K i HK. apply V'. rewrite <- app_assoc. exact HK. }
    destruct (G (np_union np) [] (c1, c2) Hr) as ([a b] & E & V); [intros K i []|]. exists a, b. split; [exact E|]. exact V.
  Qed.

  (** The degrees of freedom of a pair of cells that belong to a cluster. *)
  Lemma both_bits (l : list nat) a b K1 K2 i : (forall i, i < B -> tb a i = (i <? dpe) && zmem l (dof (dm_dofs dm) K1 i)) ->
    (forall i, i < B -> tb b i = (i <? dpe) && zmem l (dof (dm_dofs dm) K2 i)) -> i < 2 * dpe ->
    N.testbit_nat (N.lor a (shl B b dpe)) i = zmem l (ldof (dm_dofs dm) dpe K1 K2 i).
  Proof using HB.
    intros Ha Hb Hi. rewrite tbn, N.lor_spec, testbit_shl, Ha by lia. unfold ldof. destruct (Nat.ltb_spec i dpe).
    - rewrite orb_false_r. reflexivity.
    - cbn [andb orb]. rewrite Hb by lia. destruct (Nat.ltb_spec (i - dpe) dpe); [reflexivity|lia].
  Qed.
End Cells.
