(** Proofs about the numbering of degrees of freedom: vector valued spaces. *)
From Verif Require Import Util Lin MeshModel DoFMapModel DoFMapSpec.
From Coq Require Import Lia.
Set Default Proof Using "Type".

Lemma nth_error_flat {X Y} (f : X -> list Y) n (l : list X) : (forall x, length (f x) = n) -> forall k j, j < n ->
  nth_error (flat_map f l) (k * n + j) = match nth_error l k with Some x => nth_error (f x) j | None => None end.
Proof.
  intros Hf. induction l as [|x l IH]; intros [|k] j Hj; cbn [flat_map nth_error Nat.mul Nat.add]; try (destruct (_ + _); reflexivity); [destruct j; reflexivity| |].
  - rewrite nth_error_app1 by (rewrite Hf; exact Hj). reflexivity.
  - rewrite nth_error_app2 by (rewrite Hf; lia). rewrite Hf. replace (n + k * n + j - n) with (k * n + j) by lia. apply IH, Hj.
Qed.
Lemma flat_len {X Y} (f : X -> list Y) n (l : list X) : (forall x, length (f x) = n) -> length (flat_map f l) = length l * n.
Proof. intros H. induction l as [|x l IH]; cbn [flat_map length]; [reflexivity|]. rewrite app_length, H, IH. reflexivity. Qed.
Lemma split_index n m : 0 < n -> exists k j, m = k * n + j /\ j < n.
Proof. intros Hn. exists (m / n), (m mod n). split; [rewrite Nat.mul_comm; apply Nat.div_mod; lia|apply Nat.mod_upper_bound; lia]. Qed.
Lemma nat_divmod_inj n a b j k : j < n -> k < n -> a * n + j = b * n + k -> a = b /\ j = k.
Proof. intros Hj Hk H. rewrite !(Nat.mul_comm _ n) in H. destruct (Nat.div_mod_unique n a b j k Hj Hk) as [H1 H2]; [lia|]. auto. Qed.

Section Product.
  Variable n : nat.
  Hypothesis Hn : 0 < n.
  Set Default Proof Using "Type Hn".
  Definition prow (srow : list Z) : list Z := flat_map (fun d => map (fun j => product_dof n j d) (seq 0 n)) srow.
  Lemma prow_length srow : length (prow srow) = length srow * n.
  Proof. unfold prow. apply flat_len. intros x. rewrite map_length, seq_length. reflexivity. Qed.
  Lemma prow_nth srow k j : j < n -> nth_error (prow srow) (k * n + j) = match nth_error srow k with Some d => Some (product_dof n j d) | None => None end.
  Proof.
    intros Hj. unfold prow. rewrite (nth_error_flat _ n) by (intros; rewrite ?map_length, ?seq_length; auto). destruct (nth_error srow k); [|reflexivity].
    rewrite nth_error_map. assert (nth_error (seq 0 n) j = Some j) as ->; [|reflexivity]. rewrite (nth_error_nth' _ 0) by (rewrite seq_length; exact Hj). rewrite seq_nth by exact Hj. reflexivity.
  Qed.

  Lemma fill_run {A} (pre mid rest : list A) (f : nat -> A) j0 : length mid = n -> j0 = length pre ->
    for_range 0 n (fun j row => aset row (j0 + j) (f j)) (pre ++ mid ++ rest) = Ok (pre ++ map f (seq 0 n) ++ rest).
  Proof.
    intros Hm ->. loop_inv (fun k row => row = pre ++ map f (seq 0 k) ++ skipn k mid ++ rest) st E HI.
    - lia.
    - reflexivity.
    - intros k row Hk ->. destruct (nth_error_lt mid k) as (y & Hy); [lia|].
      assert (Es : skipn k mid = y :: skipn (S k) mid) by (clear -Hy; revert k Hy; induction mid as [|a mid IH]; intros [|k] H; cbn in *; try discriminate; [congruence|auto]).
      rewrite Es. cbn [app]. rewrite (app_assoc pre).
      rewrite aset_ok by (rewrite app_length, app_length, map_length, seq_length; cbn [length]; lia).
      rewrite upd_at by (rewrite app_length, map_length, seq_length; reflexivity).
      eexists. split; [reflexivity|]. rewrite seq_S, map_app, <- !app_assoc. reflexivity.
    - rewrite E, HI. rewrite <- Hm at 2. rewrite skipn_all. reflexivity.
  Qed.

  Lemma product_row_ok srow row : length row = length srow * n -> product_row n srow row = Ok (prow srow).
  Proof.
    intros Hr. unfold product_row.
    loop_inv (fun k r => r = prow (firstn k srow) ++ skipn (k * n) row) st E HI.
    - lia.
    - reflexivity.
    - intros k r Hk ->. destruct (nth_error_lt srow k) as (d & Hd); [lia|]. rewrite (aget_ok _ _ _ Hd). cbn [bind].
      assert (Hs : skipn (k * n) row = firstn n (skipn (k * n) row) ++ skipn (S k * n) row).
      { rewrite <- (firstn_skipn n (skipn (k * n) row)) at 1. f_equal. clear. revert row. replace (S k * n) with (k * n + n) by (cbn; lia). generalize (k * n). intros m. induction m as [|m IH]; intros [|x row]; cbn; auto. destruct n; reflexivity. }
      assert (Hl : length (firstn n (skipn (k * n) row)) = n).
      { rewrite firstn_length, skipn_length, Hr. assert (S k * n <= length srow * n) by (apply Nat.mul_le_mono_r; lia). cbn in *. lia. }
      rewrite Hs. rewrite (fill_run _ _ _ (fun j => product_dof n j d)); [|exact Hl|rewrite prow_length, firstn_length, Nat.min_l by lia; reflexivity].
      eexists. split; [reflexivity|]. rewrite app_assoc. f_equal. unfold prow. 
      assert (Ef : firstn (S k) srow = firstn k srow ++ [d]).
      { clear -Hd. revert k Hd. induction srow as [|x s IH]; intros [|k] H; cbn in *; try discriminate; [congruence|]. f_equal. apply IH, H. }
      rewrite Ef, flat_map_app. cbn [flat_map]. rewrite app_nil_r. reflexivity.
    - rewrite E, HI, firstn_all, <- Hr, skipn_all, app_nil_r. reflexivity.
  Qed.

  Lemma product_ok sdofs num rows : length rows = length sdofs -> (forall i s r, nth_error sdofs i = Some s -> nth_error rows i = Some r -> length r = length s * n) ->
    Product_DoFMap n sdofs num rows = Ok (map prow sdofs, (Z.of_nat n * num)%Z).
  Proof.
    intros Hl Hr. unfold Product_DoFMap.
    loop_inv (fun k rs => rs = map prow (firstn k sdofs) ++ skipn k rows) st E HI.
    - lia.
    - reflexivity.
    - intros k rs Hk ->. destruct (nth_error_lt sdofs k) as (s & Hs); [lia|]. rewrite (aget_ok _ _ _ Hs). cbn [bind]. destruct (nth_error_lt rows k) as (r & Hrr); [lia|].
      assert (Es : skipn k rows = r :: skipn (S k) rows) by (clear -Hrr; revert k Hrr; induction rows as [|a l IH]; intros [|k] H; cbn in *; try discriminate; [congruence|auto]).
      assert (Hlen : k = length (map prow (firstn k sdofs))) by (rewrite map_length, firstn_length; lia).
      rewrite Es. rewrite (aget_ok _ k r) by (rewrite nth_error_app2 by lia; replace (k - length (map prow (firstn k sdofs))) with 0 by lia; reflexivity). cbn [bind].
      rewrite (product_row_ok s r (Hr k s r Hs Hrr)). cbn [bind]. rewrite aset_ok by (rewrite app_length; cbn [length]; lia). rewrite upd_at by exact Hlen. eexists. split; [reflexivity|].
      assert (Ef : firstn (S k) sdofs = firstn k sdofs ++ [s]).
      { clear -Hs. revert k Hs. induction sdofs as [|x l IH]; intros [|k] H; cbn in *; try discriminate; [congruence|]. f_equal. apply IH, H. }
      rewrite Ef, map_app, <- app_assoc. reflexivity.
    - rewrite E, HI. cbn [bind]. rewrite firstn_all, <- Hl, skipn_all, app_nil_r. reflexivity.
  Qed.

  (** product_dof is a bijection *)
  Lemma product_dof_up d j : (0 <= d)%Z -> product_dof n j d = (Z.of_nat n * d + Z.of_nat j)%Z.
  Proof. intros H. unfold product_dof. rewrite (proj2 (Z.leb_le 0 d) H). reflexivity. Qed.
  Lemma product_dof_down d j : (d < 0)%Z -> product_dof n j d = (- (Z.of_nat n * (- d - 1) + Z.of_nat j) - 1)%Z.
  Proof. intros H. unfold product_dof. rewrite (proj2 (Z.leb_gt 0 d) H). lia. Qed.
  Lemma zdivmod_inj a b j k : j < n -> k < n -> (Z.of_nat n * a + Z.of_nat j = Z.of_nat n * b + Z.of_nat k)%Z -> a = b /\ j = k.
  Proof. intros Hj Hk H. destruct (Z.div_mod_unique (Z.of_nat n) a b (Z.of_nat j) (Z.of_nat k)) as [H1 H2]; lia. Qed.
  Lemma product_dof_inj d d' j j' : j < n -> j' < n -> product_dof n j d = product_dof n j' d' -> d = d' /\ j = j'.
  Proof.
    intros Hj Hj'. destruct (Z.ltb_spec d 0) as [Hd|Hd], (Z.ltb_spec d' 0) as [Hd'|Hd'].
    - rewrite !product_dof_down by assumption. intros H. destruct (zdivmod_inj (- d - 1) (- d' - 1) j j' Hj Hj'); lia.
    - rewrite product_dof_down, product_dof_up by assumption. intros H. exfalso. nia.
    - rewrite product_dof_up, product_dof_down by assumption. intros H. exfalso. nia.
    - rewrite !product_dof_up by assumption. intros H. destruct (zdivmod_inj d d' j j' Hj Hj'); lia.
  Qed.
  Lemma product_dof_range d j N : j < n -> (0 <= d < N)%Z -> (0 <= product_dof n j d < Z.of_nat n * N)%Z.
  Proof. intros Hj Hd. rewrite product_dof_up by lia. nia. Qed.
  Lemma product_dof_neg d j N : j < n -> (- N <= d < 0)%Z -> (- (Z.of_nat n * N) <= product_dof n j d < 0)%Z.
  Proof. intros Hj Hd. rewrite product_dof_down by lia. nia. Qed.
  Lemma product_dof_onto x N : (0 <= x < Z.of_nat n * N)%Z -> exists d j, j < n /\ (0 <= d < N)%Z /\ product_dof n j d = x.
  Proof using Hn.
    intros Hx. exists (x / Z.of_nat n)%Z, (Z.to_nat (x mod Z.of_nat n)). pose proof (Z.mod_pos_bound x (Z.of_nat n) ltac:(lia)) as Q. pose proof (Z.div_mod x (Z.of_nat n) ltac:(lia)) as Q2.
    assert (H0 : (0 <= x / Z.of_nat n)%Z) by (apply Z.div_pos; lia). split; [lia|]. split; [split; [exact H0|apply Z.div_lt_upper_bound; lia]|]. rewrite product_dof_up by exact H0. lia.
  Qed.
  Lemma product_dof_onto_neg x N : (- (Z.of_nat n * N) <= x < 0)%Z -> exists d j, j < n /\ (- N <= d < 0)%Z /\ product_dof n j d = x.
  Proof using Hn.
    intros Hx. destruct (product_dof_onto (- x - 1) N) as (d & j & Hj & Hd & E); [lia|]. exists (- d - 1)%Z, j. split; [exact Hj|]. split; [lia|]. rewrite product_dof_down by lia. rewrite product_dof_up in E by lia. lia.
  Qed.

  Lemma component_inj p q j k : j < n -> k < n -> component n p j = component n q k -> p = q /\ j = k.
  Proof. intros Hj Hk H. unfold component in H. injection H as H1 H2. destruct (nat_divmod_inj n _ _ _ _ Hj Hk H2) as [H3 H4]. destruct p, q. cbn in *. subst. auto. Qed.

  Variables (pl : nat -> list nat -> list place) (C : list (list nat)) (sdofs : list (list Z)).
  Hypothesis Hlen : length sdofs = length C.
  Hypothesis Hrow : forall i c row, nth_error C i = Some c -> nth_error sdofs i = Some row -> length row = length (pl i c).
  Lemma product_places_nth i c k j : j < n -> nth_error (product_places n pl i c) (k * n + j) = match nth_error (pl i c) k with Some p => Some (component n p j) | None => None end.
  Proof.
    intros Hj. unfold product_places. rewrite (nth_error_flat _ n) by (intros; rewrite ?map_length, ?seq_length; auto). destruct (nth_error (pl i c) k) as [p|]; [|reflexivity].
    rewrite nth_error_map. assert (nth_error (seq 0 n) j = Some j) as ->; [|reflexivity]. rewrite (nth_error_nth' _ 0) by (rewrite seq_length; exact Hj). rewrite seq_nth by exact Hj. reflexivity.
  Qed.
  Lemma numbered_product q d : numbered (product_places n pl) C (map prow sdofs) q d <->
    exists p j d0, j < n /\ q = component n p j /\ d = product_dof n j d0 /\ numbered pl C sdofs p d0.
  Proof using Hn.
    clear Hlen Hrow. split.
    - intros (i & c & row & m & H1 & H2 & H3 & H4). rewrite nth_error_map in H2. destruct (nth_error sdofs i) as [srow|] eqn:Es; [|discriminate]. injection H2 as <-.
      destruct (split_index n m Hn) as (k & j & -> & Hj). rewrite product_places_nth in H3 by exact Hj. rewrite prow_nth in H4 by exact Hj.
      destruct (nth_error (pl i c) k) as [p|] eqn:Ep; [|discriminate]. destruct (nth_error srow k) as [d0|] eqn:Ed; [|discriminate]. injection H3 as <-. injection H4 as <-.
      exists p, j, d0. split; [exact Hj|]. split; [reflexivity|]. split; [reflexivity|]. exists i, c, srow, k. auto.
    - intros (p & j & d0 & Hj & -> & -> & (i & c & srow & k & H1 & H2 & H3 & H4)). exists i, c, (prow srow), (k * n + j). split; [exact H1|]. split; [rewrite nth_error_map, H2; reflexivity|].
      rewrite product_places_nth, prow_nth by exact Hj. rewrite H3, H4. auto.
  Qed.
  Lemma in_cells_product upto e : in_cells (product_places n pl) C upto e <-> in_cells pl C upto e.
  Proof using Hn.
    clear Hlen Hrow. split; intros (i & c & m & H1 & H2 & H3).
    - unfold product_places in H3. apply in_flat_map in H3. destruct H3 as (p & Hp & H3). apply in_map_iff in H3. destruct H3 as (j & H3 & _). unfold component in H3. injection H3 as H3 _. exists i, c, (snd p). rewrite <- H3. destruct p. auto.
    - exists i, c, (m * n + 0). split; [exact H1|]. split; [exact H2|]. apply in_flat_map. exists (e, m). split; [exact H3|]. apply in_map_iff. exists 0. split; [reflexivity|]. apply in_seq. lia.
  Qed.

  Theorem product_numbering bdry count u u' N nb : is_numbering pl C (length C) bdry count u sdofs N nb ->
    is_numbering (product_places n pl) C (length C) bdry (fun e => count e * n) u' (map prow sdofs) (Z.of_nat n * N) (Z.of_nat n * nb).
  Proof using Hn Hlen Hrow.
    intros (_ & _ & Hinj & Hb & Hi & _ & Ho & Hob). split; [rewrite map_length; exact Hlen|]. split; [|split; [|split; [|split; [|split; [|split]]]]].
    - intros i c row H1 H2. rewrite nth_error_map in H2. destruct (nth_error sdofs i) as [srow|] eqn:Es; [|discriminate]. injection H2 as <-. rewrite prow_length, (Hrow i c srow H1 Es).
      unfold product_places. rewrite (flat_len _ n) by (intros; rewrite map_length, seq_length; reflexivity). reflexivity.
    - intros q d q' d' H1 H2 G1 G2. rewrite in_cells_product in G1, G2. apply numbered_product in H1, H2.
      destruct H1 as (p & j & d0 & Hj & -> & -> & H1), H2 as (p' & j' & d0' & Hj' & -> & -> & H2). specialize (Hinj p d0 p' d0' H1 H2 G1 G2). split.
      + intros H. apply product_dof_inj in H as [H3 ->]; auto. apply Hinj in H3. subst. reflexivity.
      + intros H. apply component_inj in H as [H3 ->]; auto. apply Hinj in H3. subst. reflexivity.
    - intros q d H1 G1. apply numbered_product in H1. destruct H1 as (p & j & d0 & Hj & -> & -> & H1). apply product_dof_neg; [exact Hj|]. apply (Hb p d0 H1 G1).
    - intros q d H1 G1 G2. rewrite in_cells_product in G2. apply numbered_product in H1. destruct H1 as (p & j & d0 & Hj & -> & -> & H1). apply product_dof_range; [exact Hj|]. apply (Hi p d0 H1 G1 G2).
    - intros q d H1 G1. exfalso. apply G1. right. destruct H1 as (i & c & row & m & H1 & _ & H3 & _). exists i, c, (snd q). split; [apply nth_error_Some; congruence|]. split; [exact H1|]. apply nth_error_In in H3. destruct q. exact H3.
    - intros x Hx. destruct (product_dof_onto x N Hx) as (d & j & Hj & Hd & <-). destruct (Ho d Hd) as (p & G1 & G2 & H). exists (component n p j). split; [exact G1|]. split; [apply in_cells_product, G2|]. apply numbered_product. exists p, j, d. auto.
    - intros Hall x Hx. destruct (product_dof_onto_neg x nb Hx) as (d & j & Hj & Hd & <-). destruct (Hob) with (d := d) as (p & G1 & H); [|exact Hd|].
      + intros e He Hc. apply in_cells_product. apply Hall; [exact He|nia].
      + exists (component n p j). split; [exact G1|]. apply numbered_product. exists p, j, d. auto.
  Qed.
End Product.

(** The statements of DoFMapTheorems.v *)
From Verif Require Import DoFMapProofs3 DoFMapProofs5.
Set Default Proof Using "Type".
Lemma numbering_ok md nv C bv be bf dpv dpe dpf dpc skip :
  dofmap_input md nv C bv be bf -> dofmap_counts md dpv dpe dpf bv be bf ->
  dpf <= 1 -> dpe <= 1 \/ boundary_edges_forward md C be -> (Z.of_nat (length C * local_dofs md dpv dpe dpf dpc) <= MAX_INT)%Z ->
  exists dofs num_dofs num_boundary_dofs,
    DoFMap md nv C bv be bf dpv dpe dpf dpc skip = Ok (dofs, num_dofs, num_boundary_dofs) /\
    num_boundary_dofs = Z.of_nat (length bv * dpv + length be * dpe + length bf * dpf) /\
    is_numbering (places md dpv dpe dpf dpc) C (cells_with_dofs (length C) skip) (on_boundary bv be bf) (dof_count dpv dpe dpf dpc) (- MAX_INT) dofs num_dofs num_boundary_dofs.
Proof. intros H1 H2 H3 H4 H5. apply DoFMap_numbering; auto. unfold local_dofs in H5. rewrite local_edges_length, local_faces_length in H5. exact H5. Qed.

Lemma product_dofmap_ok n pl C sdofs bdry count u u' N nb rows : 0 < n ->
  is_numbering pl C (length C) bdry count u sdofs N nb ->
  length rows = length C -> (forall i c row, nth_error C i = Some c -> nth_error rows i = Some row -> length row = length (pl i c) * n) ->
  exists dofs, Product_DoFMap n sdofs N rows = Ok (dofs, (Z.of_nat n * N)%Z) /\
    is_numbering (product_places n pl) C (length C) bdry (fun e => count e * n) u' dofs (Z.of_nat n * N) (Z.of_nat n * nb).
Proof.
  intros Hn H Hl Hr. pose proof H as (H1 & H2 & _). exists (map (prow n) sdofs). split.
  - apply product_ok; [exact Hn|congruence|]. intros i s r Hs Hrr. destruct (nth_error_lt C i) as (c & Hc); [rewrite <- H1; apply nth_error_Some; congruence|]. rewrite (Hr i c r Hc Hrr), (H2 i c s Hc Hs). reflexivity.
  - apply (product_numbering n Hn pl C sdofs H1 H2 bdry count u u' N nb H).
Qed.

Lemma count_occ_bounded l k : forallb (fun f => count_occ face_eq_dec l f <=? k) l = true -> forall f, count_occ face_eq_dec l f <= k.
Proof.
  intros H f. destruct (in_dec face_eq_dec f l) as [Hf|Hf]; [|rewrite (proj1 (count_occ_not_In face_eq_dec l f) Hf); lia]. rewrite forallb_forall in H. apply Nat.leb_le, H, Hf.
Qed.

Definition p3_C : list (list nat) := [[0; 1; 2]].
Definition p3_be : list (nat * nat) := [(0, 1); (1, 2); (2, 0)].
Lemma p3_refuted : exists md nv C bv be bf dpv dpe dpf dpc dofs num_dofs num_boundary_dofs,
  dofmap_input md nv C bv be bf /\ dofmap_counts md dpv dpe dpf bv be bf /\
  DoFMap md nv C bv be bf dpv dpe dpf dpc (-1) = Ok (dofs, num_dofs, num_boundary_dofs) /\
  (exists p p' d, p <> p' /\ on_boundary bv be bf (fst p) /\ on_boundary bv be bf (fst p') /\
     numbered (places md dpv dpe dpf dpc) C dofs p d /\ numbered (places md dpv dpe dpf dpc) C dofs p' d) /\
  ~ is_numbering (places md dpv dpe dpf dpc) C (cells_with_dofs (length C) (-1)) (on_boundary bv be bf) (dof_count dpv dpe dpf dpc) (- MAX_INT) dofs num_dofs num_boundary_dofs.
Proof.
  exists 2, 3, p3_C, [0; 1; 2], p3_be, [], 1, 2, 0, 1, [[-1; -2; -3; -4; -5; -6; -7; -7; -6; 0]]%Z, 1%Z, 9%Z.
  assert (H : exists p p' d, p <> p' /\ on_boundary [0; 1; 2] p3_be [] (fst p) /\ on_boundary [0; 1; 2] p3_be [] (fst p') /\
     numbered (places 2 1 2 0 1) p3_C [[-1; -2; -3; -4; -5; -6; -7; -7; -6; 0]]%Z p d /\ numbered (places 2 1 2 0 1) p3_C [[-1; -2; -3; -4; -5; -6; -7; -7; -6; 0]]%Z p' d).
  { exists (EEdge 1 2, 1), (EEdge 0 2, 1), (-7)%Z. split; [discriminate|]. split; [right; left; exists 1, 2; cbn; auto|]. split; [right; left; exists 2, 0; cbn; auto|].
    split; [exists 0, [0; 1; 2], [-1; -2; -3; -4; -5; -6; -7; -7; -6; 0]%Z, 6; auto|exists 0, [0; 1; 2], [-1; -2; -3; -4; -5; -6; -7; -7; -6; 0]%Z, 7; auto]. }
  split; [|split; [repeat split; lia|split; [vm_compute; reflexivity|split; [exact H|]]]].
  - split; [lia|]. split; [|split; [|split; [|split; [|split]]]].
    + intros c [<-|[]]. split; [reflexivity|]. cbn. lia.
    + repeat constructor; cbn; lia.
    + cbn. lia.
    + repeat constructor; cbn; intros G; repeat destruct G as [G|G]; try discriminate; exact G.
    + constructor.
    + apply count_occ_bounded. reflexivity.
  - intros (_ & _ & Hinj & _). destruct H as (p & p' & d & Hne & B1 & B2 & N1 & N2). apply Hne. apply (Hinj p d p' d N1 N2); auto.
Qed.
