(** Proofs about the numbering of degrees of freedom: one cell. *)
From Verif Require Import Util Lin MeshModel MeshProofs BoundaryProofs BoundaryProofs2 BoundaryProofs3 DoFMapModel DoFMapSpec DoFMapProofs DoFMapProofs2.
From Coq Require Import Permutation.
Set Default Proof Using "Type".

Local Notation unset := (- MAX_INT)%Z.

Lemma sortE_edge a b : ee (sortE a b) = the_edge a b.
Proof. unfold ee, the_edge. rewrite sortE_minmax. reflexivity. Qed.
Lemma sortFace_face a b c : ff (sortFace Nat.ltb a b c) = the_face a b c.
Proof.
  destruct (sortFace_nat a b c) as (x & y & z & E & Hs & P). rewrite E. cbn [ff]. unfold the_face.
  assert (Hsum : a + b + c = x + y + z).
  { assert (forall l l' : list nat, Permutation l l' -> fold_right Nat.add 0 l = fold_right Nat.add 0 l') as Hp by (intros l l' Q; induction Q; cbn; lia). pose proof (Hp _ _ P) as Q. cbn in Q. lia. }
  assert (Hx : In x [a; b; c]) by (apply (Permutation_in x (Permutation_sym P)); cbn; auto).
  assert (Hz : In z [a; b; c]) by (apply (Permutation_in z (Permutation_sym P)); cbn; auto).
  assert (Hin : forall w, In w [a; b; c] -> x <= w <= z) by (intros w Hw; apply (Permutation_in w P) in Hw; cbn in Hw; lia).
  pose proof (Hin a ltac:(cbn; auto)). pose proof (Hin b ltac:(cbn; auto)). pose proof (Hin c ltac:(cbn; auto)). cbn in Hx, Hz.
  assert (Nat.min a (Nat.min b c) = x) as -> by lia. assert (Nat.max a (Nat.max b c) = z) as -> by lia. f_equal. lia.
Qed.

Lemma run_loop_ok (pre mid : list Z) n dof j0 j1 : length mid = n -> j0 = length pre -> j1 = j0 + n ->
  for_range j0 j1 (fun k (st : list Z * Z) => let '(row, numDoFs) := st in row <- aset row k numDoFs ;; Ok (row, (numDoFs + 1)%Z)) (pre ++ mid, dof)
    = Ok (pre ++ map (fun k => (dof + 1 * Z.of_nat k)%Z) (seq 0 n), (dof + Z.of_nat n)%Z).
Proof.
  intros Hm -> ->.
  loop_inv (fun j (st : list Z * Z) => exists k, j = length pre + k /\ fst st = pre ++ map (fun k => (dof + 1 * Z.of_nat k)%Z) (seq 0 k) ++ skipn k mid /\ snd st = (dof + Z.of_nat k)%Z) st E HI.
  - lia.
  - exists 0. cbn. split; [lia|]. split; [reflexivity|lia].
  - intros j [row d] Hj (k & -> & Hr & Hd). cbn [fst snd] in *. subst row d.
    destruct (nth_error_lt mid k) as (y & Hy); [lia|].
    assert (Es : skipn k mid = y :: skipn (S k) mid) by (clear -Hy; revert k Hy; induction mid as [|a mid IH]; intros [|k] H; cbn in *; try discriminate; [congruence|auto]).
    rewrite Es. rewrite app_assoc.
    rewrite aset_ok by (rewrite app_length, app_length, map_length, seq_length; cbn [length]; lia). cbn [bind].
    rewrite upd_at by (rewrite app_length, map_length, seq_length; reflexivity).
    eexists. split; [reflexivity|]. exists (S k). split; [lia|]. cbn [fst snd]. split.
    + rewrite seq_S, map_app, <- !app_assoc. cbn [map app]. rewrite Nat.add_0_l. do 3 f_equal. lia.
    + lia.
  - rewrite E. destruct st as [row d]. destruct HI as (k & Hk & Hr & Hd). cbn [bind fst snd] in *. replace k with n in * by lia.
    rewrite Hr, Hd. rewrite <- Hm at 2. rewrite skipn_all, app_nil_r. reflexivity.
Qed.

Section Cell.
  Variables dpv dpe dpf dpc : nat.
  Local Notation sz := (sz dpv dpe dpf dpc).
  Local Notation alloc1 := (alloc1 dpv dpe dpf dpc).

  Lemma fold_look asg es st e b : look (fst st) e = Some b -> look (fst (fold_left (alloc1 asg) es st)) e = Some b.
  Proof. revert st. induction es as [|x es IH]; intros [D num] H; cbn [fold_left]; [exact H|]. apply IH, alloc1_look, H. Qed.
  Lemma fold_false es st : fold_left (alloc1 false) es st = st.
  Proof. revert st. induction es as [|x es IH]; intros [D num]; cbn [fold_left]; [reflexivity|]. rewrite IH. unfold DoFMapProofs.alloc1. destruct (look _ _); reflexivity. Qed.
  Lemma fold_stable asg es st P : (asg = true -> assigned (fst st) P) -> map (val (fst (fold_left (alloc1 asg) es st))) P = map (val (fst st)) P.
  Proof.
    intros H. destruct asg; [|rewrite fold_false; reflexivity]. specialize (H eq_refl). apply map_ext_in. intros p Hp. unfold val. specialize (H p Hp).
    destruct (look (fst st) (fst p)) as [b|] eqn:E; [|congruence]. rewrite (fold_look _ _ _ _ b E). reflexivity.
  Qed.
  Lemma fold_assigned asg es st P : assigned (fst st) P -> assigned (fst (fold_left (alloc1 asg) es st)) P.
  Proof. intros H p Hp. specialize (H p Hp). destruct (look (fst st) (fst p)) as [b|] eqn:E; [|congruence]. rewrite (fold_look _ _ _ _ b E). discriminate. Qed.

  Variable B : list (entity * Z).
  Variable nb : Z.
  Hypothesis HB : blay dpv dpe dpf dpc (-1) B nb.
  Local Notation good := (good dpv dpe dpf dpc B).
  Variables nv md : nat.

  Definition Inv (i : nat) (asg : bool) (seen : list face) (D : list (entity * Z)) (num : Z) (vs : list Z) (eV : list (edge * Z)) (fV : list (face * Z)) : Prop :=
    Rv nv D vs /\ Re D eV /\ (0 < dpf -> Rf asg seen D num fV) /\ forall j, look D (ECell j) <> None -> j < i.

  (** ** Vertices *)
  Lemma vertex_part i asg c seen D num vs eV fV rest : length c = vertices_per_element md -> (forall v, In v c -> v < nv) ->
    good D num -> (num + Z.of_nat (vertices_per_element md * dpv) <= MAX_INT)%Z -> Inv i asg seen D num vs eV fV ->
    let st := fold_left (alloc1 asg) (if 0 <? dpv then map EVertex c else []) (D, num) in
    let P := flat_map (fun v => dofs_on (EVertex v) dpv false) c in
    exists vs', (if 0 <? dpv then vertex_dofs dpv (vertices_per_element md) asg c (vs, repeat unset (vertices_per_element md * dpv) ++ rest, num)
                 else Ok (vs, repeat unset (vertices_per_element md * dpv) ++ rest, num)) = Ok (vs', map (val (fst st)) P ++ rest, snd st) /\
      Inv i asg seen (fst st) (snd st) vs' eV fV /\ good (fst st) (snd st) /\ (snd st <= num + Z.of_nat (vertices_per_element md * dpv))%Z /\ (asg = true -> assigned (fst st) P).
  Proof using HB.
    intros Hc Hv HG HN HI st P. destruct (Nat.ltb_spec 0 dpv) as [Hp|Hp].
    - unfold vertex_dofs. rewrite <- Hc in *.
      assert (Hstep : forall done x todo D num cont row rest, c = done ++ x :: todo -> good D num -> (num + Z.of_nat dpv <= MAX_INT)%Z -> Inv i asg seen D num cont eV fV ->
        length row = 0 + length done * dpv ->
        exists cont', (fun k (st0 : list Z * list Z * Z) => let '(vertices, row, numDoFs) := st0 in
            v <- aget c k ;;
            dof <- aget vertices v ;;
            if negb (dof =? MAX_INT)%Z then
              row <- write_run row (k * dpv) dpv dof (if (0 <=? dof)%Z then 1 else -1)%Z ;;
              Ok (vertices, row, numDoFs)
            else if asg then
              vertices <- aset vertices v numDoFs ;;
              row <- write_run row (k * dpv) dpv numDoFs 1 ;;
              Ok (vertices, row, (numDoFs + Z.of_nat dpv)%Z)
            else Ok (vertices, row, numDoFs)) (length done) (cont, row ++ repeat unset dpv ++ rest, num) =
          Ok (cont', row ++ map (val (fst (alloc1 asg (D, num) (EVertex x)))) (dofs_on (EVertex x) dpv false) ++ rest, snd (alloc1 asg (D, num) (EVertex x))) /\
          Inv i asg seen (fst (alloc1 asg (D, num) (EVertex x))) (snd (alloc1 asg (D, num) (EVertex x))) cont' eV fV).
      { intros done x todo D0 num0 cont row rest0 Ec HG0 HN0 (I1 & I2 & I3 & I4) Hr.
        destruct (vertex_step dpv dpe dpf dpc B nb HB nv asg c done x todo D0 num0 cont row rest0 Ec Hv Hp HG0 HN0 I1 Hr) as (cont' & E & R').
        exists cont'. split; [exact E|]. split; [exact R'|]. split; [apply Re_other; [discriminate|exact I2]|]. split.
        - intros Hf. apply Rf_other; [intros [[? ?] ?]; discriminate|exact (I3 Hf)].
        - intros j. rewrite alloc1_look_other by discriminate. apply I4. }
      destruct (part_ok dpv dpe dpf dpc B nb HB EVertex (fun v => dofs_on (EVertex v) dpv false) dpv asg (fun D num vs _ => Inv i asg seen D num vs eV fV) _ Hp
        ltac:(reflexivity) (fun x => dofs_on_length _ _ _) (fun x => dofs_on_fst _ _ _) c 0 Hstep D num vs [] rest HG HN HI eq_refl) as (vs' & E & R' & G' & L' & A').
      + intros _ p [].
      + exists vs'. split; [exact E|]. auto.
    - assert (dpv = 0) as E0 by lia. subst P. assert (EP : flat_map (fun v => dofs_on (EVertex v) dpv false) c = []) by (rewrite E0; clear; induction c; auto).
      exists vs. rewrite EP. subst st. cbn [fold_left fst snd map app]. assert (vertices_per_element md * dpv = 0) as -> by (rewrite E0; lia). cbn [repeat app]. split; [reflexivity|]. split; [exact HI|]. split; [exact HG|]. split; [lia|]. intros _ p [].
  Qed.

  (** ** Edges *)
  Definition cell_es (c : list nat) : list (edge * Z) :=
    map (fun ab => (sortE (nth (fst ab) c 0) (nth (snd ab) c 0), (Z.of_nat (nth (snd ab) c 0%nat) - Z.of_nat (nth (fst ab) c 0%nat))%Z)) (local_edges md).
  Lemma cell_edges_ok c : length c = md + 1 -> md = 2 \/ md = 3 -> cell_edges md c = Ok (cell_es c).
  Proof.
    unfold cell_es, cell_edges. intros Hc [->| ->].
    - destruct c as [|c0 [|c1 [|c2 [|]]]]; cbn in Hc; try lia. cbn -[sortE Z.of_nat Z.sub]. rewrite (proj2 (sortE_eq c2 c0 c0 c2)) by auto. reflexivity.
    - destruct c as [|c0 [|c1 [|c2 [|c3 [|]]]]]; cbn in Hc; try lia. cbn -[sortE Z.of_nat Z.sub]. rewrite (proj2 (sortE_eq c2 c0 c0 c2)) by auto. reflexivity.
  Qed.
  Lemma local_edges_length : length (local_edges md) = edges_per_element md.
  Proof. unfold local_edges, edges_per_element. destruct md as [|[|[|[|n]]]]; reflexivity. Qed.
  Lemma cell_es_places c : flat_map (fun eo => dofs_on (ee (fst eo)) dpe (snd eo <? 0)%Z) (cell_es c) =
    flat_map (fun ab => let x := nth (fst ab) c 0 in let y := nth (snd ab) c 0 in dofs_on (the_edge x y) dpe (y <? x)) (local_edges md).
  Proof.
    unfold cell_es. rewrite !flat_map_concat_map, map_map. f_equal. apply map_ext. intros [a b]. cbn [fst snd]. rewrite sortE_edge. f_equal.
    destruct (Nat.ltb_spec (nth b c 0) (nth a c 0)), (Z.ltb_spec (Z.of_nat (nth b c 0) - Z.of_nat (nth a c 0)) 0); lia.
  Qed.

  Lemma edge_part i asg c seen D num vs eV fV P0 rest : length c = vertices_per_element md -> (0 < dpe -> md = 2 \/ md = 3) ->
    (forall e o, In (e, o) (cell_es c) -> (o < 0)%Z -> look B (ee e) <> None -> dpe <= 1) ->
    good D num -> (num + Z.of_nat (edges_per_element md * dpe) <= MAX_INT)%Z -> Inv i asg seen D num vs eV fV ->
    length P0 = vertices_per_element md * dpv -> (asg = true -> assigned D P0) ->
    let st := fold_left (alloc1 asg) (if 0 <? dpe then map (fun eo => ee (fst eo)) (cell_es c) else []) (D, num) in
    let P := P0 ++ flat_map (fun ab => let x := nth (fst ab) c 0 in let y := nth (snd ab) c 0 in dofs_on (the_edge x y) dpe (y <? x)) (local_edges md) in
    exists eV', (if 0 <? dpe then es <- cell_edges md c ;;
                 edge_dofs dpe (edges_per_element md) (vertices_per_element md * dpv) asg es (eV, map (val D) P0 ++ repeat unset (edges_per_element md * dpe) ++ rest, num)
                 else Ok (eV, map (val D) P0 ++ repeat unset (edges_per_element md * dpe) ++ rest, num)) = Ok (eV', map (val (fst st)) P ++ rest, snd st) /\
      Inv i asg seen (fst st) (snd st) vs eV' fV /\ good (fst st) (snd st) /\ (snd st <= num + Z.of_nat (edges_per_element md * dpe))%Z /\ (asg = true -> assigned (fst st) P).
  Proof using HB.
    intros Hc Hmd Hback HG HN HI HP HA st P. destruct (Nat.ltb_spec 0 dpe) as [Hp|Hp].
    - rewrite (cell_edges_ok c Hc (Hmd Hp)). cbn [bind]. unfold edge_dofs. rewrite <- HP.
      assert (Hlen : edges_per_element md = length (cell_es c)) by (unfold cell_es; rewrite map_length; symmetry; apply local_edges_length). rewrite Hlen in *.
      assert (EP : P = P0 ++ flat_map (fun eo => dofs_on (ee (fst eo)) dpe (snd eo <? 0)%Z) (cell_es c)) by (rewrite cell_es_places; reflexivity). rewrite EP.
      assert (Hstep : forall done x todo D num cont row rest, cell_es c = done ++ x :: todo -> good D num -> (num + Z.of_nat dpe <= MAX_INT)%Z -> Inv i asg seen D num vs cont fV ->
        length row = length P0 + length done * dpe ->
        exists cont', (fun k (st0 : list (edge * Z) * list Z * Z) => let '(eV, row, numDoFs) := st0 in
            '(e, o) <- aget (cell_es c) k ;;
            let '(dof, eV) := enter_edge eV e numDoFs in
            if (dof =? numDoFs)%Z then
              let dof := if (o <? 0)%Z then (dof + (Z.of_nat dpe - 1))%Z else dof in
              if asg then
                row <- write_run row (length P0 + k * dpe) dpe dof (if (o <? 0)%Z then -1 else 1)%Z ;;
                Ok (eV, row, (numDoFs + Z.of_nat dpe)%Z)
              else eV <- ddel edge_eqb eV e ;; Ok (eV, row, numDoFs)
            else if (0 <=? dof)%Z then
              let dof := if (o <? 0)%Z then (dof + (Z.of_nat dpe - 1))%Z else dof in
              row <- write_run row (length P0 + k * dpe) dpe dof (if (o <? 0)%Z then -1 else 1)%Z ;;
              Ok (eV, row, numDoFs)
            else
              let dof := if (o <? 0)%Z then (dof + (Z.of_nat dpe - 1))%Z else dof in
              row <- write_run row (length P0 + k * dpe) dpe dof (if (o <? 0)%Z then 1 else -1)%Z ;;
              Ok (eV, row, numDoFs)) (length done) (cont, row ++ repeat unset dpe ++ rest, num) =
          Ok (cont', row ++ map (val (fst (alloc1 asg (D, num) (ee (fst x))))) (dofs_on (ee (fst x)) dpe (snd x <? 0)%Z) ++ rest, snd (alloc1 asg (D, num) (ee (fst x)))) /\
          Inv i asg seen (fst (alloc1 asg (D, num) (ee (fst x)))) (snd (alloc1 asg (D, num) (ee (fst x)))) vs cont' fV).
      { intros done [e o] todo D0 num0 cont row rest0 Ec HG0 HN0 (I1 & I2 & I3 & I4) Hr. cbn [fst snd].
        destruct (edge_step dpv dpe dpf dpc B nb HB asg (cell_es c) done e o todo D0 num0 cont row rest0 (length P0) Ec Hp) as (cont' & E & R').
        - intros Ho Hl. assert (dpe <= 1); [|lia]. apply (Hback e o); [rewrite Ec, in_app_iff; right; left; reflexivity|exact Ho|exact Hl].
        - exact HG0.
        - exact I2.
        - exact Hr.
        - exists cont'. split; [exact E|]. split; [apply Rv_other; [discriminate|exact I1]|]. split; [exact R'|]. split.
          + intros Hf. apply Rf_other; [intros [[? ?] ?]; discriminate|exact (I3 Hf)].
          + intros j. rewrite alloc1_look_other by discriminate. apply I4. }
      destruct (part_ok dpv dpe dpf dpc B nb HB (fun eo => ee (fst eo)) (fun eo => dofs_on (ee (fst eo)) dpe (snd eo <? 0)%Z) dpe asg (fun D num eV _ => Inv i asg seen D num vs eV fV) _ Hp
        ltac:(reflexivity) (fun x => dofs_on_length _ _ _) (fun x => dofs_on_fst _ _ _) (cell_es c) (length P0) Hstep D num eV P0 rest HG HN HI eq_refl HA) as (eV' & E & R' & G' & L' & A').
      exists eV'. split; [exact E|]. auto.
    - assert (dpe = 0) as E0 by lia. subst P. assert (EP : flat_map (fun ab : nat * nat => let x := nth (fst ab) c 0 in let y := nth (snd ab) c 0 in dofs_on (the_edge x y) dpe (y <? x)) (local_edges md) = []) by (rewrite E0; induction (local_edges md); auto).
      exists eV. rewrite EP, app_nil_r. subst st. cbn [fold_left fst snd]. assert (edges_per_element md * dpe = 0) as -> by (rewrite E0; lia). cbn [repeat app]. split; [reflexivity|]. split; [exact HI|]. split; [exact HG|]. split; [lia|]. exact HA.
  Qed.

  (** ** Faces *)
  Definition cell_fs (c : list nat) : list face :=
    map (fun f => let '(x, y, z) := f in sortFace Nat.ltb (nth x c 0) (nth y c 0) (nth z c 0)) (local_faces md).
  Lemma cell_faces_ok c : length c = md + 1 -> md = 3 -> cell_faces c = Ok (cell_fs c).
  Proof. unfold cell_fs. intros Hc ->. destruct c as [|c0 [|c1 [|c2 [|c3 [|]]]]]; cbn in Hc; try lia. reflexivity. Qed.
  Lemma local_faces_length : length (local_faces md) = faces_per_element md.
  Proof. unfold local_faces, faces_per_element. destruct md as [|[|[|[|n]]]]; reflexivity. Qed.
  Lemma cell_fs_ff c : map ff (cell_fs c) = map (fun f => let '(x, y, z) := f in the_face (nth x c 0) (nth y c 0) (nth z c 0)) (local_faces md).
  Proof. unfold cell_fs. rewrite map_map. apply map_ext. intros [[x y] z]. apply sortFace_face. Qed.
  Lemma cell_fs_places c : flat_map (fun f => dofs_on (ff f) dpf false) (cell_fs c) =
    flat_map (fun f => let '(x, y, z) := f in dofs_on (the_face (nth x c 0) (nth y c 0) (nth z c 0)) dpf false) (local_faces md).
  Proof. unfold cell_fs. rewrite !flat_map_concat_map, map_map. f_equal. apply map_ext. intros [[a b] d]. rewrite sortFace_face. reflexivity. Qed.

  Lemma face_part i asg c seen D num vs eV fV P0 rest : length c = vertices_per_element md -> (0 < dpf -> md = 3) -> dpf <= 1 ->
    (forall f, count_occ face_eq_dec (map ff (seen ++ cell_fs c)) f <= 2) ->
    good D num -> (num + Z.of_nat (faces_per_element md * dpf) <= MAX_INT)%Z -> Inv i asg seen D num vs eV fV ->
    length P0 = vertices_per_element md * dpv + edges_per_element md * dpe -> (asg = true -> assigned D P0) ->
    let st := fold_left (alloc1 asg) (if 0 <? dpf then map ff (cell_fs c) else []) (D, num) in
    let P := P0 ++ flat_map (fun f => let '(x, y, z) := f in dofs_on (the_face (nth x c 0) (nth y c 0) (nth z c 0)) dpf false) (local_faces md) in
    exists fV', (if 0 <? dpf then fs <- cell_faces c ;;
                 face_dofs dpf (faces_per_element md) (vertices_per_element md * dpv + edges_per_element md * dpe) asg fs (fV, map (val D) P0 ++ repeat unset (faces_per_element md * dpf) ++ rest, num)
                 else Ok (fV, map (val D) P0 ++ repeat unset (faces_per_element md * dpf) ++ rest, num)) = Ok (fV', map (val (fst st)) P ++ rest, snd st) /\
      Inv i asg (seen ++ cell_fs c) (fst st) (snd st) vs eV fV' /\ good (fst st) (snd st) /\ (snd st <= num + Z.of_nat (faces_per_element md * dpf))%Z /\ (asg = true -> assigned (fst st) P).
  Proof using HB.
    intros Hc Hmd H1 Hcnt HG HN HI HP HA st P. destruct (Nat.ltb_spec 0 dpf) as [Hp|Hp].
    - rewrite (cell_faces_ok c Hc (Hmd Hp)). cbn [bind]. unfold face_dofs. rewrite <- HP.
      assert (Hlen : faces_per_element md = length (cell_fs c)) by (unfold cell_fs; rewrite map_length; symmetry; apply local_faces_length). rewrite Hlen in *.
      assert (EP : P = P0 ++ flat_map (fun f => dofs_on (ff f) dpf false) (cell_fs c)) by (rewrite cell_fs_places; reflexivity). rewrite EP.
      assert (Hstep : forall done x todo D num cont row rest, cell_fs c = done ++ x :: todo -> good D num -> (num + Z.of_nat dpf <= MAX_INT)%Z -> Inv i asg (seen ++ done) D num vs eV cont ->
        length row = length P0 + length done * dpf ->
        exists cont', (fun k (st0 : list (face * Z) * list Z * Z) => let '(fV, row, numDoFs) := st0 in
            f <- aget (cell_fs c) k ;;
            '(dof, fV) <- enter_face fV f numDoFs ;;
            if (dof =? numDoFs)%Z then
              if asg then
                row <- write_run row (length P0 + k * dpf) dpf dof 1 ;;
                Ok (fV, row, (numDoFs + Z.of_nat dpf)%Z)
              else Ok (fV, row, numDoFs)
            else if (0 <=? dof)%Z then
              row <- write_run row (length P0 + k * dpf) dpf (dof + (Z.of_nat dpf - 1))%Z (-1) ;;
              Ok (fV, row, numDoFs)
            else
              row <- write_run row (length P0 + k * dpf) dpf dof (-1) ;;
              Ok (fV, row, numDoFs)) (length done) (cont, row ++ repeat unset dpf ++ rest, num) =
          Ok (cont', row ++ map (val (fst (alloc1 asg (D, num) (ff x)))) (dofs_on (ff x) dpf false) ++ rest, snd (alloc1 asg (D, num) (ff x))) /\
          Inv i asg (seen ++ done ++ [x]) (fst (alloc1 asg (D, num) (ff x))) (snd (alloc1 asg (D, num) (ff x))) vs eV cont').
      { intros done x todo D0 num0 cont row rest0 Ec HG0 HN0 (I1 & I2 & I3 & I4) Hr.
        destruct (face_step dpv dpe dpf dpc B nb HB asg seen (cell_fs c) done x todo D0 num0 cont row rest0 (length P0) Ec ltac:(lia)) as (cont' & E & R').
        - specialize (Hcnt (ff x)). rewrite Ec in Hcnt. replace (seen ++ done ++ x :: todo) with ((seen ++ done) ++ x :: todo) in Hcnt by (rewrite <- app_assoc; reflexivity).
          rewrite map_app, count_occ_app in Hcnt. cbn [map] in Hcnt. rewrite count_occ_cons_eq in Hcnt by reflexivity. lia.
        - exact HG0.
        - exact (I3 Hp).
        - exact Hr.
        - assert (Hx : exists a b d, ff x = EFace a b d) by (destruct x as [[a b] d]; cbn; eauto). destruct Hx as (xa & xb & xd & Ex).
          exists cont'. split; [exact E|]. split; [apply Rv_other; [intros v; rewrite Ex; discriminate|exact I1]|]. split; [apply Re_other; [intros v; rewrite Ex; discriminate|exact I2]|]. split; [intros _; exact R'|].
          intros j. rewrite alloc1_look_other by (rewrite Ex; discriminate). apply I4. }
      destruct (part_ok dpv dpe dpf dpc B nb HB ff (fun f => dofs_on (ff f) dpf false) dpf asg (fun D num fV done => Inv i asg (seen ++ done) D num vs eV fV) _ Hp
        ltac:(intros [[? ?] ?]; reflexivity) (fun x => dofs_on_length _ _ _) (fun x => dofs_on_fst _ _ _) (cell_fs c) (length P0) Hstep D num fV P0 rest HG HN) as (fV' & E & R' & G' & L' & A').
      + rewrite app_nil_r. exact HI.
      + reflexivity.
      + exact HA.
      + exists fV'. split; [exact E|]. auto.
    - assert (dpf = 0) as E0 by lia. subst P. assert (EP : flat_map (fun f : nat * nat * nat => let '(x, y, z) := f in dofs_on (the_face (nth x c 0) (nth y c 0) (nth z c 0)) dpf false) (local_faces md) = []) by (rewrite E0; induction (local_faces md) as [|[[? ?] ?] l IH]; auto).
      exists fV. rewrite EP, app_nil_r. subst st. cbn [fold_left fst snd]. assert (faces_per_element md * dpf = 0) as -> by (rewrite E0; lia). cbn [repeat app]. split; [reflexivity|]. split.
      { destruct HI as (I1 & I2 & I3 & I4). split; [exact I1|]. split; [exact I2|]. split; [lia|exact I4]. }
      split; [exact HG|]. split; [lia|]. exact HA.
  Qed.

  (** ** A cell *)
  Definition ents (i : nat) (c : list nat) : list entity :=
    (if 0 <? dpv then map EVertex c else []) ++ (if 0 <? dpe then map (fun eo => ee (fst eo)) (cell_es c) else []) ++
    (if 0 <? dpf then map ff (cell_fs c) else []) ++ (if 0 <? dpc then [ECell i] else []).
  Local Notation pl := (places md dpv dpe dpf dpc).
  Definition dofs_per_element := vertices_per_element md * dpv + edges_per_element md * dpe + faces_per_element md * dpf + dpc.

  Lemma flat_map_len {X Y} (f : X -> list Y) n l : (forall x, length (f x) = n) -> length (flat_map f l) = length l * n.
  Proof. intros H. induction l as [|x l IH]; cbn [flat_map length]; [reflexivity|]. rewrite app_length, H, IH. reflexivity. Qed.
  Lemma places_length i c : length c = vertices_per_element md -> length (pl i c) = dofs_per_element.
  Proof.
    intros Hc. unfold places, dofs_per_element. rewrite !app_length, dofs_on_length.
    rewrite (flat_map_len _ dpv) by (intros; apply dofs_on_length). rewrite (flat_map_len _ dpe) by (intros [? ?]; apply dofs_on_length). rewrite (flat_map_len _ dpf) by (intros [[? ?] ?]; apply dofs_on_length).
    rewrite Hc, local_edges_length, local_faces_length. lia.
  Qed.

  Lemma cell_ok i asg c seen D num vs eV fV : length c = md + 1 -> (forall v, In v c -> v < nv) ->
    (0 < dpe -> md = 2 \/ md = 3) -> (0 < dpf -> md = 3) -> dpf <= 1 ->
    (forall e o, In (e, o) (cell_es c) -> (o < 0)%Z -> look B (ee e) <> None -> dpe <= 1) ->
    (forall f, count_occ face_eq_dec (map ff (seen ++ cell_fs c)) f <= 2) ->
    good D num -> (num + Z.of_nat dofs_per_element <= MAX_INT)%Z -> Inv i asg seen D num vs eV fV ->
    let st := fold_left (alloc1 asg) (ents i c) (D, num) in
    exists vs' eV' fV', cell_dofs md dpv dpe dpf dpc asg c (vs, eV, fV, num) = Ok (vs', eV', fV', snd st, map (val (fst st)) (pl i c)) /\
      Inv (S i) asg (seen ++ cell_fs c) (fst st) (snd st) vs' eV' fV' /\ good (fst st) (snd st) /\ (snd st <= num + Z.of_nat dofs_per_element)%Z /\ (asg = true -> assigned (fst st) (pl i c)).
  Proof using HB.
    intros Hc Hv Hmde Hmdf H1 Hback Hcnt HG HN HI st. unfold cell_dofs. fold dofs_per_element.
    set (nV := vertices_per_element md * dpv) in *. set (nE := edges_per_element md * dpe) in *. set (nF := faces_per_element md * dpf) in *.
    assert (Hd : dofs_per_element = nV + nE + nF + dpc) by reflexivity.
    replace (repeat unset dofs_per_element) with (repeat unset nV ++ repeat unset nE ++ repeat unset nF ++ repeat unset dpc) by (rewrite Hd, !repeat_app, <- !app_assoc; reflexivity).
    destruct (vertex_part i asg c seen D num vs eV fV (repeat unset nE ++ repeat unset nF ++ repeat unset dpc) Hc Hv HG ltac:(fold nV; lia) HI) as (vs' & E1 & I1 & G1 & L1 & A1).
    fold nV in E1, L1. rewrite E1. cbn [bind]. clear E1. set (st1 := fold_left (alloc1 asg) (if 0 <? dpv then map EVertex c else []) (D, num)) in *.
    assert (Hl1 : length (flat_map (fun v => dofs_on (EVertex v) dpv false) c) = nV) by (rewrite (flat_map_len _ dpv), Hc by (intros; apply dofs_on_length); reflexivity).
    destruct (edge_part i asg c seen (fst st1) (snd st1) vs' eV fV _ (repeat unset nF ++ repeat unset dpc) Hc Hmde Hback G1 ltac:(fold nE; lia) I1 Hl1 A1) as (eV' & E2 & I2 & G2 & L2 & A2).
    fold nV nE in E2, L2. rewrite E2. cbn [bind]. clear E2. replace (fst st1, snd st1) with st1 in * by (destruct st1; reflexivity).
    set (st2 := fold_left (alloc1 asg) (if 0 <? dpe then map (fun eo => ee (fst eo)) (cell_es c) else []) st1) in *.
    match type of A2 with _ -> assigned _ ?P => set (P2 := P) in * end.
    assert (Hl2 : length P2 = nV + nE) by (unfold P2; rewrite app_length, Hl1; f_equal; rewrite (flat_map_len _ dpe), local_edges_length by (intros [? ?]; apply dofs_on_length); reflexivity).
    destruct (face_part i asg c seen (fst st2) (snd st2) vs' eV' fV P2 (repeat unset dpc) Hc Hmdf H1 Hcnt G2 ltac:(fold nF; lia) I2 Hl2 A2) as (fV' & E3 & I3 & G3 & L3 & A3).
    fold nV nE nF in E3, L3. rewrite E3. cbn [bind]. clear E3. replace (fst st2, snd st2) with st2 in * by (destruct st2; reflexivity).
    set (st3 := fold_left (alloc1 asg) (if 0 <? dpf then map ff (cell_fs c) else []) st2) in *.
    match type of A3 with _ -> assigned _ ?P => set (P3 := P) in * end.
    assert (Hl3 : length P3 = nV + nE + nF) by (unfold P3; rewrite app_length, Hl2; f_equal; rewrite (flat_map_len _ dpf), local_faces_length by (intros [[? ?] ?]; apply dofs_on_length); reflexivity).
    assert (Epl : pl i c = P3 ++ dofs_on (ECell i) dpc false) by (unfold places, P3, P2; rewrite <- !app_assoc; reflexivity).
    assert (Est : st = fold_left (alloc1 asg) (if 0 <? dpc then [ECell i] else []) st3) by (unfold st, ents; rewrite !fold_left_app; reflexivity).
    assert (Hnone : look (fst st3) (ECell i) = None).
    { destruct (look (fst st3) (ECell i)) as [b|] eqn:E; [|reflexivity]. destruct I3 as (_ & _ & _ & I4). assert (i < i); [|lia]. apply I4. congruence. }
    assert (Einv : forall st', (st' = st3 \/ exists b, fst st' = fst st3 ++ [(ECell i, b)]) -> (asg = false -> snd st' = snd st3) -> Inv (S i) asg (seen ++ cell_fs c) (fst st') (snd st') vs' eV' fV').
    { intros st' [->|(b & Hb)] Hnum; destruct I3 as ((Iv1 & Iv2) & (Ie1 & Ie2) & If & I4).
      - split; [split; assumption|]. split; [split; assumption|]. split; [exact If|]. intros j Hj. apply I4 in Hj. lia.
      - rewrite Hb. split; [split; [exact Iv1|]; intros v Hv'; rewrite look_app, Iv2 by exact Hv'; destruct (look (fst st3) (EVertex v)); reflexivity|].
        split; [split; [exact Ie1|]; intros e; rewrite look_app, Ie2; destruct (look (fst st3) (ee e)); reflexivity|]. split.
        + intros Hf. destruct (If Hf) as [If1 If2]. split; [exact If1|]. intros f. specialize (If2 f).
          assert (El : look (fst st3 ++ [(ECell i, b)]) (ff f) = look (fst st3) (ff f)) by (rewrite look_app; destruct (look (fst st3) (ff f)); [reflexivity|]; destruct f as [[? ?] ?]; reflexivity).
          rewrite El. destruct (count_occ _ _ _) as [|[|k]]; [exact If2| |exact If2]. destruct If2 as (b' & Hb' & [H|(H & -> & Ha)]); eexists; (split; [exact Hb'|]); [left; exact H|right]. rewrite (Hnum Ha). auto.
        + intros j Hj. destruct (Nat.eq_dec j i) as [->|Hne]; [lia|]. rewrite look_app in Hj. cbn [look] in Hj. destruct (face_eq_dec (ECell i) (ECell j)) as [E|_]; [injection E; congruence|].
          destruct (look (fst st3) (ECell j)) eqn:E; [|congruence]. assert (j < i); [|lia]. apply I4. congruence. }
    rewrite Epl. destruct asg.
    - rewrite (run_loop_ok _ _ dpc) by (rewrite ?map_length, ?repeat_length; lia). cbn [bind]. destruct (Nat.ltb_spec 0 dpc) as [Hp|Hp].
      + assert (Est' : st = (fst st3 ++ [(ECell i, snd st3)], (snd st3 + Z.of_nat dpc)%Z)) by (rewrite Est; cbn [fold_left]; unfold DoFMapProofs.alloc1; rewrite Hnone; reflexivity).
        assert (El : look (fst st) (ECell i) = Some (snd st3)) by (rewrite Est'; cbn [fst]; rewrite look_app, Hnone; cbn [look]; destruct (face_eq_dec (ECell i) (ECell i)); congruence).
        exists vs', eV', fV'. split; [|split; [|split; [|split]]].
        * rewrite map_app, (val_up (fst st) _ _ _ El) by (apply (good_num _ _ _ _ _ _ _ G3)).
          assert (Es : map (val (fst st)) P3 = map (val (fst st3)) P3) by (rewrite Est; apply fold_stable; exact A3). rewrite Es. do 2 f_equal. f_equal. rewrite Est'. reflexivity.
        * apply Einv; [|discriminate]. right. exists (snd st3). rewrite Est'. reflexivity.
        * rewrite Est. replace st3 with (fst st3, snd st3) by (destruct st3; reflexivity). cbn [fold_left]. apply alloc1_good; [exact G3|exact Hp].
        * rewrite Est'. cbn [snd]. lia.
        * intros _ p Hp'. apply in_app_iff in Hp' as [Hp'|Hp'].
          -- rewrite Est. apply (fold_assigned true _ _ _ (A3 eq_refl) p Hp').
          -- rewrite (dofs_on_fst _ _ _ _ Hp'), El. discriminate.
      + assert (Ed : dpc = 0) by lia. cbn [fold_left] in Est. subst st. rewrite Est. exists vs', eV', fV'. assert (seq 0 dpc = []) as -> by (rewrite Ed; reflexivity). assert (dofs_on (ECell i) dpc false = []) as -> by (rewrite Ed; reflexivity). cbn [map]. rewrite !app_nil_r.
        split; [do 2 f_equal; f_equal; lia|]. split; [apply Einv; [left|]; reflexivity|]. split; [exact G3|]. split; [lia|exact A3].
    - cbn [bind]. rewrite fold_false in Est. subst st. rewrite Est. exists vs', eV', fV'. rewrite map_app, (val_none (fst st3) _ _ _ Hnone). split; [reflexivity|].
      split; [apply Einv; [left|]; reflexivity|]. split; [exact G3|]. split; [lia|discriminate].
  Qed.
End Cell.
