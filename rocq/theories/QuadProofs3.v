(** Nodes in the coordinates of the simplex; transformed rules; products of rules; boxes. *)
From Verif Require Import Util Lin MeshModel MeshSpec MeshProofs BaryModel BarySpec LocalModel LocalSpec LocalProofs LocalProofs2 QuadModel QuadSpec QuadProofs QuadProofs2.
Set Default Proof Using "Type".
Local Open Scope Qc_scope.

(** ** Tables *)
Definition table (N M : nat) (F : nat -> nat -> option Qc) : list (buf Qc) := tab N (fun i => tab M (F i)).
Lemma table_ext N M F G : (forall i j, (i < N)%nat -> (j < M)%nat -> F i j = G i j) -> table N M F = table N M G.
Proof. intros H. apply tab_ext. intros i Hi. apply tab_ext. auto. Qed.
Lemma wr2_table N M F i j v : (i < N)%nat -> (j < M)%nat ->
  wr2 (table N M F) i j v = Ok (table N M (fun a b => if ((a =? i) && (b =? j))%nat then Some v else F a b)).
Proof.
  intros Hi Hj. unfold wr2, table. rewrite (aget_nth _ i []) by (rewrite tab_length; auto). cbn [bind]. rewrite nth_tab by auto.
  rewrite wr_ok by (rewrite tab_length; auto). cbn [bind]. rewrite aset_ok by (rewrite tab_length; auto). f_equal.
  apply eq_tab with (d := []); [rewrite upd_length, tab_length; reflexivity|]. intros a Ha.
  destruct (Nat.eqb_spec a i) as [->|D].
  - rewrite nth_upd_eq by (rewrite tab_length; auto). apply eq_tab with (d := None); [rewrite upd_length, tab_length; reflexivity|]. intros b Hb. cbn [andb].
    destruct (Nat.eqb_spec b j) as [->|D]; [apply nth_upd_eq; rewrite tab_length; auto|]. rewrite nth_upd_neq by auto. apply nth_tab. auto.
  - rewrite nth_upd_neq by auto. rewrite nth_tab by auto. reflexivity.
Qed.
Lemma addto2_table N M F i j v x : (i < N)%nat -> (j < M)%nat -> F i j = Some x ->
  addto2 (table N M F) i j v = Ok (table N M (fun a b => if ((a =? i) && (b =? j))%nat then Some (x + v) else F a b)).
Proof.
  intros Hi Hj Hx. unfold addto2. replace (rd2 (table N M F) i j) with (@Ok Qc x); [cbn [bind]; apply wr2_table; auto|].
  symmetry. unfold rd2, table. rewrite (aget_nth _ i []) by (rewrite tab_length; auto). cbn [bind]. rewrite nth_tab by auto. apply rd_ok.
  rewrite nth_error_tab by auto. f_equal. auto.
Qed.
Lemma zero_all_tab N x : length x = N -> zero_all x = map Some (tab N (fun _ => 0)).
Proof.
  intros <-. unfold zero_all. induction x as [|a x IH]; [reflexivity|]. cbn [length map]. rewrite IH. unfold tab. cbn [seq map]. f_equal. rewrite <- seq_shift, !map_map. reflexivity.
Qed.
Lemma map_tab {A B} (g : A -> B) n f : map g (tab n f) = tab n (fun i => g (f i)).
Proof. unfold tab. apply map_map. Qed.
Lemma zero_table N M x : shape N M x -> map zero_all x = table N M (fun _ _ => Some 0).
Proof.
  intros (L & R). apply eq_tab with (d := []); [rewrite map_length; auto|]. intros i Hi. change (@nil (option Qc)) with (zero_all []). rewrite map_nth.
  rewrite (zero_all_tab M) by (apply R; apply nth_In; lia). apply map_tab.
Qed.
Lemma init_table N M F : all_init2 (table N M (fun i j => Some (F i j))) = Ok (tab N (fun i => tab M (F i))).
Proof.
  unfold table, tab at 1 3. induction (seq 0 N) as [|a l IH]; [reflexivity|]. cbn [map all_init2]. 
  rewrite <- (map_tab Some), all_init_some. cbn [bind]. rewrite IH. reflexivity.
Qed.
Lemma alloc_table N M : alloc2 N M = table N M (fun _ _ => None).
Proof.
  apply eq_tab with (d := []); [apply repeat_length|]. intros i Hi. unfold alloc2. rewrite (nth_indep _ [] (alloc M)) by (rewrite repeat_length; auto). rewrite nth_repeat.
  apply eq_tab with (d := None); [apply alloc_length|]. intros j Hj. apply nth_repeat.
Qed.
Ltac cases := repeat match goal with |- context [(?a =? ?b)%nat] => destruct (Nat.eqb_spec a b) | |- context [(?a <? ?b)%nat] => destruct (Nat.ltb_spec a b) end; cbn [andb orb]; subst; try lia; try reflexivity.

Section Rule.
  Variables (nodes : list (list Qc)) (weights : list Qc) (d n : nat).
  Hypothesis HT : node_table d n nodes weights.
  Let r := Rule d nodes weights.

  Lemma node_get k i : (k < S d)%nat -> (i < n)%nat -> get2 nodes k i = Ok (coordinates nodes i k).
  Proof using HT. intros Hk Hi. destruct HT as (H1 & H2 & H3). apply (get2_ok nodes k i n); auto. lia. Qed.

  Lemma nodes_ok vs coords : length vs = S d -> (forall v, In v vs -> length v = d) -> shape n d coords ->
    nodesInGlobalCoords r vs coords = Ok (tab n (fun i => map Some (point_at d vs (coordinates nodes i)))).
  Proof using HT.
    intros Hv Hw HS. unfold nodesInGlobalCoords, r. rewrite (table_columns nodes weights d n HT), (zero_table n d) by auto. cbn [q_dim q_nodes]. replace (d + 1)%nat with (S d) by lia.
    set (G := fun K i m => sumf K (fun k => coordinates nodes i k * vat (nth k vs []) m)).
    destruct (for_range_inv (fun K s => s = table n d (fun i m => Some (G K i m)))
      (fun k coords => for_range 0 n (fun i coords => temp <- get2 nodes k i ;; for_range 0 d (fun m coords => v <- get2 vs k m ;; addto2 coords i m (temp * v)) coords) coords)
      0 (S d) (table n d (fun _ _ => Some 0))) as (s & E & ->); [lia|reflexivity| |].
    - intros k s Hk ->.
      destruct (for_range_inv (fun I s => s = table n d (fun i m => Some (if (i <? I)%nat then G (S k) i m else G k i m)))
        (fun i coords => temp <- get2 nodes k i ;; for_range 0 d (fun m coords => v <- get2 vs k m ;; addto2 coords i m (temp * v)) coords)
        0 n (table n d (fun i m => Some (G k i m)))) as (s & E & ->); [lia|apply table_ext; intros; cases| |].
      + intros i s Hi ->. rewrite node_get by lia. cbn [bind].
        destruct (for_range_inv (fun M s => s = table n d (fun a m => Some (if ((a <? i) || (a =? i) && (m <? M))%nat then G (S k) a m else G k a m)))
          (fun m coords => v <- get2 vs k m ;; addto2 coords i m (coordinates nodes i k * v))
          0 d (table n d (fun a m => Some (if (a <? i)%nat then G (S k) a m else G k a m)))) as (s & E & ->); [lia|apply table_ext; intros; cases| |].
        * intros m s Hm ->. rewrite (get2_ok vs k m d) by (auto; lia). cbn [bind]. eexists. split.
          -- rewrite (addto2_table n d _ i m _ (G k i m)) by (try lia; cases). reflexivity.
          -- apply table_ext. intros a b Ha Hb. cases.
        * eexists. split; [exact E|]. apply table_ext. intros a b Ha Hb. cases.
      + eexists. split; [exact E|]. apply table_ext. intros a b Ha Hb. cases.
    - rewrite E. f_equal. apply tab_ext. intros i Hi. unfold point_at. rewrite map_tab. reflexivity.
  Qed.

  Section Transform.
    Variables (A : list (list Qc)) (b : list Qc).
    Hypothesis HA : length A = S d.
    Hypothesis HA' : forall row, In row A -> length row = S d.
    Hypothesis Hb : length b = S d.
    Definition image (i k : nat) : Qc := vat b k + sumf (S d) (fun j => vat (nth k A []) j * coordinates nodes i j).

    Lemma compute_ok : compute r A b (alloc2 (S d) n) = Ok (table (S d) n (fun k i => Some (image i k))).
    Proof using HT HA HA' Hb.
      unfold compute, r. rewrite (table_columns nodes weights d n HT). cbn [q_dim q_nodes]. replace (d + 1)%nat with (S d) by lia. rewrite alloc_table.
      destruct (for_range_inv (fun K s => s = table (S d) n (fun k i => if (k <? K)%nat then Some (vat b k) else None))
        (fun k nodes => for_range 0 n (fun i nodes => v <- aget b k ;; wr2 nodes k i v) nodes) 0 (S d) (table (S d) n (fun _ _ => None))) as (s & E & ->);
        [lia|apply table_ext; intros; cases| |].
      { intros k s Hk ->.
        destruct (for_range_inv (fun I s => s = table (S d) n (fun a i => if ((a <? k) || (a =? k) && (i <? I))%nat then Some (vat b a) else None))
          (fun i nodes => v <- aget b k ;; wr2 nodes k i v) 0 n (table (S d) n (fun a i => if (a <? k)%nat then Some (vat b a) else None))) as (s & E & ->);
          [lia|apply table_ext; intros; cases| |].
        - intros i s Hi ->. rewrite (aget_nth b k 0) by lia. cbn [bind]. eexists. split; [apply wr2_table; lia|]. apply table_ext. intros. cases.
        - eexists. split; [exact E|]. apply table_ext. intros. cases. }
      rewrite E. cbn [bind]. clear E.
      set (G := fun J k i => vat b k + sumf J (fun j => vat (nth k A []) j * coordinates nodes i j)).
      destruct (for_range_inv (fun K s => s = table (S d) n (fun k i => Some (if (k <? K)%nat then G (S d) k i else G 0%nat k i)))
        (fun k tbl => for_range 0 (S d) (fun j tbl => for_range 0 n (fun i tbl => a <- get2 A k j ;; l <- get2 nodes j i ;; addto2 tbl k i (a * l)) tbl) tbl)
        0 (S d) (table (S d) n (fun k i => if (k <? S d)%nat then Some (vat b k) else None))) as (s & E & ->);
        [lia|apply table_ext; intros; cases; unfold G; cbn [sumf]; f_equal; ring| |].
      - intros k s Hk ->.
        destruct (for_range_inv (fun J s => s = table (S d) n (fun a i => Some (if (a <? k)%nat then G (S d) a i else if (a =? k)%nat then G J a i else G 0%nat a i)))
          (fun j tbl => for_range 0 n (fun i tbl => a <- get2 A k j ;; l <- get2 nodes j i ;; addto2 tbl k i (a * l)) tbl)
          0 (S d) (table (S d) n (fun a i => Some (if (a <? k)%nat then G (S d) a i else G 0%nat a i)))) as (s & E & ->);
          [lia|apply table_ext; intros; cases| |].
        + intros j s Hj ->.
          destruct (for_range_inv (fun I s => s = table (S d) n (fun a i => Some (if (a <? k)%nat then G (S d) a i else if (a =? k)%nat then (if (i <? I)%nat then G (S j) a i else G j a i) else G 0%nat a i)))
            (fun i tbl => a <- get2 A k j ;; l <- get2 nodes j i ;; addto2 tbl k i (a * l))
            0 n (table (S d) n (fun a i => Some (if (a <? k)%nat then G (S d) a i else if (a =? k)%nat then G j a i else G 0%nat a i)))) as (s & E & ->);
            [lia|apply table_ext; intros; cases| |].
          * intros i s Hi ->. rewrite (get2_ok A k j (S d)) by (auto; lia). cbn [bind]. rewrite node_get by lia. cbn [bind]. eexists. split.
            -- rewrite (addto2_table (S d) n _ k i _ (G j k i)) by (try lia; cases). reflexivity.
            -- apply table_ext. intros a c Ha Hc. cases. unfold G. cbn [sumf]. f_equal. ring.
          * eexists. split; [exact E|]. apply table_ext. intros. cases.
        + eexists. split; [exact E|]. apply table_ext. intros. cases.
      - rewrite E. f_equal. apply table_ext. intros. cases.
    Qed.

    Lemma transformed_ok : (1 <= d <= 3)%nat -> exists nodes', transformed r A b = Ok (Rule d nodes' weights) /\ node_table d n nodes' weights /\
      forall i k, (i < n)%nat -> (k < S d)%nat -> coordinates nodes' i k = image i k.
    Proof using HT HA HA' Hb.
      intros Hd. exists (tab (S d) (fun k => tab n (fun i => image i k))).
      assert (HN : node_table d n (tab (S d) (fun k => tab n (fun i => image i k))) weights).
      { split; [apply tab_length|]. split; [|apply HT]. intros row Hrow. unfold tab in Hrow. apply in_map_iff in Hrow as (k & <- & _). apply tab_length. }
      split; [|split; [exact HN|]].
      - unfold transformed. replace (num_nodes r) with n by (symmetry; apply (table_columns nodes weights d n HT)). replace (length (q_nodes r)) with (S d) by (symmetry; apply HT).
        rewrite compute_ok. cbn [bind]. rewrite init_table. cbn [bind q_weights q_dim r]. unfold simplexQuadratureRule.
        pose proof (table_columns _ _ _ _ HN) as C. unfold num_nodes in C. cbn [q_nodes] in C. rewrite C. destruct HT as (_ & _ & ->). rewrite Nat.eqb_refl. cbn [guard bind].
        destruct d as [|[|[|[|d']]]]; try lia; reflexivity.
      - intros i k Hi Hk. unfold coordinates at 1. rewrite nth_tab, vat_tab by auto. reflexivity.
    Qed.
  End Transform.
End Rule.
