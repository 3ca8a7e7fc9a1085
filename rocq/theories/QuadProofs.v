(** Loops of the quadrature rules; volumes; the value of integrate. *)
From Verif Require Import Util Lin MeshModel MeshSpec MeshProofs BaryModel BarySpec LocalModel LocalSpec LocalProofs LocalProofs2 QuadModel QuadSpec.
Set Default Proof Using "Type".
Local Open Scope Qc_scope.

Lemma get2_ok (m : list (list Qc)) i j n : (i < length m)%nat -> (forall r, In r m -> length r = n) -> (j < n)%nat ->
  get2 m i j = Ok (vat (nth i m []) j).
Proof.
  intros Hi Hm Hj. unfold get2. rewrite (aget_nth m i []) by auto. cbn [bind]. apply aget_nth. rewrite (Hm (nth i m [])); auto. apply nth_In. auto.
Qed.

(** ** One point *)
Definition inside (off n q : nat) : bool := ((off <=? q) && (q <? off + n))%nat.
Lemma inside_S off n q : inside off (S n) q = (inside off n q || (q =? off + n))%nat%bool.
Proof.
  unfold inside. destruct (off <=? q)%nat eqn:E1, (q <? off + n)%nat eqn:E2, (q <? off + S n)%nat eqn:E3, (q =? off + n)%nat eqn:E4;
    rewrite ?Nat.leb_le, ?Nat.leb_gt, ?Nat.ltb_lt, ?Nat.ltb_ge, ?Nat.eqb_eq, ?Nat.eqb_neq in *; cbn; lia || reflexivity.
Qed.

Lemma tab_upd (n j : nat) (F : nat -> Qc) v : (j < n)%nat -> upd (tab n F) j v = tab n (fun q => if (q =? j)%nat then v else F q).
Proof.
  intros H. apply eq_tab with (d := 0); [rewrite upd_length, tab_length; reflexivity|]. intros i Hi.
  destruct (Nat.eqb_spec i j) as [->|D]; [rewrite nth_upd_eq by (rewrite tab_length; auto); reflexivity|].
  rewrite nth_upd_neq by auto. apply nth_tab. auto.
Qed.

Section Point.
  Variables (nodes vs : list (list Qc)) (d n i : nat).
  Hypothesis Hn : length nodes = S d.
  Hypothesis Hr : forall r, In r nodes -> length r = n.
  Hypothesis Hv : length vs = S d.
  Hypothesis Hw : forall v, In v vs -> length v = d.
  Hypothesis Hi : (i < n)%nat.

  Lemma add_node_ok off N F : (off + d <= N)%nat ->
    add_node nodes vs d i off (map Some (tab N F))
    = Ok (map Some (tab N (fun q => if inside off d q then F q + sumf (S d) (fun k => coordinates nodes i k * vat (nth k vs []) (q - off)) else F q))).
  Proof using Hn Hr Hv Hw Hi.
    intros HN. unfold add_node. replace (d + 1)%nat with (S d) by lia.
    set (G := fun K q => if inside off d q then F q + sumf K (fun k => coordinates nodes i k * vat (nth k vs []) (q - off)) else F q).
    destruct (for_range_inv (fun K s => s = map Some (tab N (G K)))
      (fun k x => for_range 0 d (fun m x => a <- get2 nodes k i ;; v <- get2 vs k m ;; addto x (off + m) (a * v)) x)
      0 (S d) (map Some (tab N F))) as (s & E & ->); [lia| | |exact E].
    - f_equal. apply tab_ext. intros q Hq. unfold G. cbn [sumf]. destruct (inside off d q); ring.
    - intros k s Hk ->.
      set (g := fun q => coordinates nodes i k * vat (nth k vs []) (q - off)).
      destruct (for_range_inv (fun M s => s = map Some (tab N (fun q => if inside off M q then G k q + g q else G k q)))
        (fun m x => a <- get2 nodes k i ;; v <- get2 vs k m ;; addto x (off + m) (a * v))
        0 d (map Some (tab N (G k)))) as (s & E & ->); [lia| | |].
      + f_equal. apply tab_ext. intros q Hq. unfold inside. destruct (off <=? q)%nat eqn:E1, (q <? off + 0)%nat eqn:E2; cbn; auto.
        apply Nat.leb_le in E1. apply Nat.ltb_lt in E2. lia.
      + intros m s Hm ->. eexists. split.
        * rewrite (get2_ok nodes k i n), (get2_ok vs k m d) by (auto; lia). cbn [bind].
          rewrite addto_ok by (rewrite tab_length; lia). rewrite vat_tab, tab_upd by lia. reflexivity.
        * f_equal. apply tab_ext. intros q Hq. rewrite inside_S. destruct (Nat.eqb_spec q (off + m)) as [->|D]; [|rewrite orb_false_r; reflexivity].
          rewrite orb_true_r. replace (inside off m (off + m)) with false. 2:{ unfold inside. rewrite (proj2 (Nat.ltb_ge _ _)) by lia. rewrite andb_false_r. reflexivity. }
          unfold g, coordinates. replace (off + m - off)%nat with m by lia. reflexivity.
      + eexists. split; [exact E|]. f_equal. apply tab_ext. intros q Hq. unfold G. cbn [sumf]. destruct (inside off d q); [|reflexivity]. unfold g. ring.
  Qed.

  Lemma add_node_first x : length x = d ->
    add_node nodes vs d i 0 (zero_all x) = Ok (map Some (point_at d vs (coordinates nodes i))).
  Proof using Hn Hr Hv Hw Hi.
    intros L. replace (zero_all x) with (map Some (tab d (fun _ => 0))).
    2:{ unfold zero_all. rewrite <- L. clear. induction x as [|a x IH]; [reflexivity|]. cbn [length map]. rewrite <- IH. unfold tab. cbn [seq map]. f_equal. rewrite <- seq_shift, !map_map. reflexivity. }
    rewrite add_node_ok by lia. f_equal. f_equal. apply tab_ext. intros q Hq. replace (inside 0 d q) with true.
    2:{ unfold inside. rewrite (proj2 (Nat.ltb_lt _ _)) by lia. reflexivity. }
    rewrite Nat.sub_0_r. ring.
  Qed.
End Point.

Section Rule.
  Variables (nodes : list (list Qc)) (weights : list Qc) (vs : list (list Qc)) (d n : nat).
  Hypothesis HT : node_table d n nodes weights.
  Hypothesis Hv : length vs = S d.
  Hypothesis Hw : forall v, In v vs -> length v = d.
  Let r := Rule d nodes weights.

  Lemma table_columns : num_nodes r = n.
  Proof using HT.
    destruct HT as (H1 & H2 & H3). unfold num_nodes, columns, r. cbn [q_nodes]. destruct nodes as [|a l]; [discriminate H1|]. cbn [nth]. apply H2. left. reflexivity.
  Qed.

  Lemma evalFun_ok f tempVec vals : length tempVec = d -> length vals = n ->
    exists t, evalFun r f vs tempVec vals = Ok (t, map Some (tab n (fun i => f (point_at d vs (coordinates nodes i))))).
  Proof using HT Hv Hw.
    intros Lt Lv. unfold evalFun. rewrite table_columns. destruct HT as (H1 & H2 & H3). cbn [q_nodes q_dim r].
    set (g := fun i => f (point_at d vs (coordinates nodes i))).
    destruct (for_range_inv (fun i st => length (fst st) = d /\ length (snd st) = n /\ forall j, (j < i)%nat -> nth_error (snd st) j = Some (Some (g j)))
      (fun i '(tempVec, fun_vals) =>
        tempVec <- add_node nodes vs d i 0 (zero_all tempVec) ;;
        x <- all_init tempVec ;;
        fun_vals <- wr fun_vals i (f x) ;;
        Ok (tempVec, fun_vals)) 0 n (tempVec, vals)) as ((t & v) & E & L1 & L2 & L3); [lia| | |].
    - cbn. repeat split; auto. intros; lia.
    - intros k (t & v) Hk (L1 & L2 & L3). cbn [fst snd] in *. eexists. split.
      + rewrite (add_node_first nodes vs d n k) by (auto; lia). cbn [bind]. rewrite all_init_some. cbn [bind]. rewrite wr_ok by lia. cbn [bind]. reflexivity.
      + cbn [fst snd]. split; [rewrite map_length; apply tab_length|]. split; [rewrite upd_length; auto|]. intros j Hj.
        destruct (Nat.eq_dec j k) as [->|D]; [apply nth_error_upd_eq; lia|]. rewrite nth_error_upd_neq by auto. apply L3. lia.
    - exists t. rewrite E. cbn [snd fst] in *. do 2 f_equal. apply nth_error_ext. intros j. destruct (Nat.lt_ge_cases j n) as [H|H].
      + rewrite L3 by auto. symmetry. apply map_nth_error. apply nth_error_tab. auto.
      + rewrite !(proj2 (nth_error_None _ _)); auto; [rewrite map_length, tab_length; auto|lia].
  Qed.
End Rule.
