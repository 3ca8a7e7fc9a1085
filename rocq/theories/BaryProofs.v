(** Proofs about barycentric coordinates and point location. *)
From Verif Require Import Util Lin MeshSpec MeshModel MeshProofs MeshProofs4 MeshGeom MeshGeom3 BaryModel BarySpec.

Lemma qdiv_ok a b : b <> 0%Qc -> qdiv a b = Ok (a / b)%Qc.
Proof. intros H. unfold qdiv. destruct (Qc_eq_dec b 0); [contradiction|reflexivity]. Qed.

Lemma len1_list {A} (l : list A) : length l = 1 -> exists a, l = [a].
Proof. destruct l as [|a [|b l]]; cbn; intros H; try discriminate. eauto. Qed.
Lemma len2_list {A} (l : list A) : length l = 2 -> exists a b, l = [a; b].
Proof. destruct l as [|a [|b [|c l]]]; cbn; intros H; try discriminate. eauto. Qed.
Lemma len3_list {A} (l : list A) : length l = 3 -> exists a b c, l = [a; b; c].
Proof. destruct l as [|a [|b [|c [|d l]]]]; cbn; intros H; try discriminate. eauto. Qed.

Lemma unique dim ps x l : independent dim ps -> bary_coords dim ps x l -> the_bary_coords dim ps x l.
Proof.
  intros HI (Hl & Ht & Hx). split; [repeat split; auto|]. intros l' (Hl' & Ht' & Hx'). apply HI; auto.
  intros k Hk. rewrite <- Hx, <- Hx' by auto. reflexivity.
Qed.

Lemma bary1_ok p q x bary : length p = 1 -> length q = 1 -> length x = 1 -> length bary = 2 -> len1 [p; q] <> 0%Qc ->
  exists l, getBarycentricCoords1D [map Some p; map Some q] x bary = Ok (map Some l) /\ the_bary_coords 1 [p; q] x l.
Proof.
  intros Hp Hq Hx Hb Hd.
  destruct (len1_list p Hp) as (a & ->). destruct (len1_list q Hq) as (b & ->). destruct (len1_list x Hx) as (t & ->).
  destruct (len2_list bary Hb) as (b0 & b1 & ->). pose proof (independent1 _ _ Hd) as HI.
  cbn in Hd. assert (D : (a - b)%Qc <> 0%Qc) by (intros E; apply Hd; replace (b - a)%Qc with (- (a - b))%Qc by ring; rewrite E; ring).
  unfold getBarycentricCoords1D. cbn. rewrite qdiv_ok by exact D. cbn.
  exists [((t - b) / (a - b))%Qc; (1 - (t - b) / (a - b))%Qc]. split; [reflexivity|]. apply unique; [exact HI|]. split; [reflexivity|]. split; [cbn; ring|].
  intros k Hk. destruct k; [|lia]. cbn. field. exact D.
Qed.

Lemma bary2_ok p q r x bary : length p = 2 -> length q = 2 -> length r = 2 -> length x = 2 -> length bary = 3 -> area2 [p; q; r] <> 0%Qc ->
  exists l, getBarycentricCoords2D [map Some p; map Some q; map Some r] x bary = Ok (map Some l) /\ the_bary_coords 2 [p; q; r] x l.
Proof.
  intros Hp Hq Hr Hx Hb Hd.
  destruct (len2_list p Hp) as (p0 & p1 & ->). destruct (len2_list q Hq) as (q0 & q1 & ->). destruct (len2_list r Hr) as (r0 & r1 & ->). destruct (len2_list x Hx) as (x0 & x1 & ->).
  destruct (len3_list bary Hb) as (b0 & b1 & b2 & ->). pose proof (independent2 _ _ _ Hd) as HI.
  cbn in Hd. set (vol := ((p0 - q0) * (r1 - q1) - (p1 - q1) * (r0 - q0))%Qc).
  assert (D : vol <> 0%Qc) by (intros E; apply Hd; unfold vol in E; match goal with |- ?a = _ => replace a with (- ((p0 - q0) * (r1 - q1) - (p1 - q1) * (r0 - q0)))%Qc by ring end; rewrite E; ring).
  unfold getBarycentricCoords2D. cbn -[Qcmult Qcplus Qcminus Qcopp]. fold vol. rewrite !qdiv_ok by exact D. cbn -[Qcmult Qcplus Qcminus Qcopp Qcdiv].
  set (l0 := (((x0 - q0) * (r1 - q1) - (x1 - q1) * (r0 - q0)) / vol)%Qc). set (l1 := (((x0 - r0) * (p1 - r1) - (x1 - r1) * (p0 - r0)) / vol)%Qc).
  exists [l0; l1; (1 - l0 - l1)%Qc]. split; [reflexivity|]. apply unique; [exact HI|]. split; [reflexivity|]. split; [cbn; ring|].
  intros k Hk. destruct k as [|[|k]]; [| |lia]; cbn; unfold l0, l1, vol; field; exact D.
Qed.

Lemma unit_bary dim ps i p : nth_error ps i = Some p -> bary_coords dim ps p (unit_coords (length ps) i).
Proof.
  intros Hi. split; [apply tab_length|].
  assert (G : forall ps i p j0 n, nth_error ps i = Some p -> n = length ps ->
    total (map (fun j => if j =? j0 + i then 1%Qc else 0%Qc) (seq j0 n)) = 1%Qc /\
    forall k, combination (map (fun j => if j =? j0 + i then 1%Qc else 0%Qc) (seq j0 n)) ps k = vat p k).
  { clear. assert (Z : forall ps j0 i, i < j0 -> total (map (fun j => if j =? i then 1%Qc else 0%Qc) (seq j0 (length ps))) = 0%Qc /\
      forall k, combination (map (fun j => if j =? i then 1%Qc else 0%Qc) (seq j0 (length ps))) ps k = 0%Qc).
    { induction ps as [|p ps IH]; intros j0 i Hi; [split; reflexivity|]. cbn [length seq map total combination].
      replace (j0 =? i) with false by (symmetry; apply Nat.eqb_neq; lia). destruct (IH (S j0) i) as [H1 H2]; [lia|]. split; [rewrite H1; ring|]. intros k. rewrite H2. ring. }
    induction ps as [|q ps IH]; intros i p j0 n Hi ->; [destruct i; discriminate|]. cbn [length seq map total combination].
    destruct i as [|i].
    - injection Hi as ->. rewrite Nat.add_0_r, Nat.eqb_refl. destruct (Z ps (S j0) j0) as [H1 H2]; [lia|]. split; [rewrite H1; ring|]. intros k. rewrite H2. ring.
    - replace (j0 =? j0 + S i) with false by (symmetry; apply Nat.eqb_neq; lia). cbn in Hi.
      destruct (IH i p (S j0) (length ps) Hi eq_refl) as [H1 H2]. replace (j0 + S i) with (S j0 + i) by lia. split; [rewrite H1; ring|]. intros k. rewrite H2. ring. }
  destruct (G ps i p 0 (length ps) Hi eq_refl) as [H1 H2]. split; [exact H1|]. intros k _. symmetry. apply H2.
Qed.

(** ** getSimplex *)
Lemma getSimplex_ok dim w V C i c mem : mesh_ok dim w V C -> nth_error C i = Some c -> shape w dim mem ->
  getSimplex dim V C i mem = Ok (map (map Some) (corners V c)).
Proof.
  intros [HV HC] Hi [Hm Hr]. unfold getSimplex. rewrite (aget_ok _ _ _ Hi). cbn [bind].
  destruct (HC c (nth_error_In _ _ Hi)) as [Hw Hlt].
  loop_inv (fun m (s : list (buf Qc)) => s = map (map Some) (corners V (firstn m c)) ++ skipn m mem) st E HI.
  - lia.
  - reflexivity.
  - intros m s Hm0 ->. destruct (nth_error_lt c m) as (k & Hk); [lia|]. rewrite (aget_ok _ _ _ Hk). cbn [bind].
    pose proof (Hlt k (nth_error_In _ _ Hk)) as Hkl. destruct (nth_error_lt V k Hkl) as (p & Hp).
    pose proof (HV p (nth_error_In _ _ Hp)) as Hpl.
    assert (Hcl : length (map (map (@Some Qc)) (corners V (firstn m c))) = m) by (unfold corners; rewrite !map_length, firstn_length; lia).
    destruct (nth_error_lt mem m) as (row & Hrow); [lia|].
    destruct (cut_at mem m row Hrow) as (Ecut & _).
    assert (Es : skipn m mem = row :: skipn (S m) mem).
    { clear -Hrow. revert m Hrow. induction mem as [|r0 mem IH]; intros [|m] H; cbn in *; try discriminate; [congruence|]. apply IH; auto. }
    assert (PR : for_range 0 dim (fun l simplex => v <- get2 V k l;; wr2 simplex m l v) (map (map Some) (corners V (firstn m c)) ++ skipn m mem)
       = Ok (upd (map (map Some) (corners V (firstn m c)) ++ skipn m mem) m (map Some p))).
    { rewrite <- (put_row_at (map (map Some) (corners V (firstn m c)) ++ skipn m mem) m p row).
      - unfold put_row. rewrite Hpl. clear -Hp. unfold for_range. generalize (map (map Some) (corners V (firstn m c)) ++ skipn m mem) as s.
        assert (G : forall n l (s : list (buf Qc)), for_n n l (fun l simplex => v <- get2 V k l;; wr2 simplex m l v) s = for_n n l (fun k0 l0 => x <- aget p k0;; wr2 l0 m k0 x) s).
        { induction n as [|n IH]; intros l s; [reflexivity|]. cbn [for_n]. unfold get2 at 1. rewrite (aget_ok _ _ _ Hp). cbn [bind].
          destruct (aget p l); [|reflexivity]. cbn [bind]. destruct (wr2 s m l a); [|reflexivity]. cbn [bind]. apply IH. }
        intros s. apply G.
      - rewrite nth_error_app2 by lia. rewrite Hcl, Nat.sub_diag, Es. reflexivity.
      - rewrite Hpl. apply Hr. apply (nth_error_In _ _ Hrow). }
    rewrite PR. eexists. split; [reflexivity|]. rewrite Es, upd_at by (symmetry; exact Hcl).
    rewrite (firstn_S_nth _ _ _ Hk). unfold corners. rewrite !map_app, <- app_assoc. cbn [map app]. unfold point. rewrite (nth_error_nth _ _ _ Hp). reflexivity.
  - rewrite E, HI, firstn_all, Hw. rewrite <- Hm at 1. rewrite skipn_all, app_nil_r. reflexivity.
Qed.

(** ** vertexInCell *)
Lemma shape_corners dim w V C i c : mesh_ok dim w V C -> nth_error C i = Some c -> shape w dim (map (map Some) (corners V c)).
Proof.
  intros [HV HC] Hi. destruct (HC c (nth_error_In _ _ Hi)) as [Hw Hlt]. split; [unfold corners; rewrite !map_length; exact Hw|].
  intros r Hr. apply in_map_iff in Hr. destruct Hr as (p & <- & Hp). rewrite map_length. apply in_map_iff in Hp. destruct Hp as (k & <- & Hk).
  apply HV. apply nth_In, Hlt, Hk.
Qed.
Lemma flags_ok (l : list Qc) tol n : length l = n ->
  for_range 0 n (fun i (b : bool) => if b then bi <- rd (map Some l) i ;; Ok (if Qclt_le_dec bi (- tol) then false else true) else Ok false) true
  = Ok (forallb (fun w => if Qclt_le_dec w (- tol) then false else true) l).
Proof.
  intros Hl.
  loop_inv (fun i b => b = forallb (fun w => if Qclt_le_dec w (- tol) then false else true) (firstn i l)) st E HI.
  - lia.
  - reflexivity.
  - intros i b Hi ->. destruct (nth_error_lt l i) as (w & Hw); [lia|]. rewrite (firstn_S_nth _ _ _ Hw), forallb_app. cbn [forallb]. rewrite andb_true_r.
    destruct (forallb _ (firstn i l)).
    + rewrite (rd_some l i 0%Qc) by lia. rewrite (nth_error_nth _ _ _ Hw). cbn [bind]. eexists. split; reflexivity.
    + eexists. split; reflexivity.
  - rewrite E, HI, firstn_all2 by lia. reflexivity.
Qed.

Lemma all_above (l : list Qc) tol : forallb (fun w => if Qclt_le_dec w (- tol) then false else true) l = true <-> forall w, In w l -> (- tol <= w)%Qc.
Proof.
  rewrite forallb_forall. split; intros H w Hw; specialize (H w Hw); destruct (Qclt_le_dec w (- tol)) as [A|A]; auto; try discriminate.
  exfalso. apply (Qclt_not_le _ _ A H).
Qed.

Lemma corners2 V c : length c = 2 -> exists p q, corners V c = [p; q].
Proof. intros H. destruct (len2_list c H) as (a & b & ->). unfold corners. cbn [map]. eauto. Qed.
Lemma corners3 V c : length c = 3 -> exists p q r, corners V c = [p; q; r].
Proof. intros H. destruct (len3_list c H) as (a & b & d & ->). unfold corners. cbn [map]. eauto. Qed.

Lemma vertexInCell_ok sq dim V C i c x mem bary tol : mesh_ok dim (dim + 1) V C -> nth_error C i = Some c -> measure dim (corners V c) <> 0%Qc ->
  length x = dim -> shape (dim + 1) dim mem -> length bary = dim + 1 ->
  exists b l, vertexInCell sq dim dim V C x i mem bary tol = Ok (b, map (map Some) (corners V c), map Some l) /\
    the_bary_coords dim (corners V c) x l /\ (b = true <-> forall w, In w l -> (- tol <= w)%Qc).
Proof.
  intros HM Hi Hd Hx Hmem Hb.
  assert (Hrow : forall p, In p (corners V c) -> length p = dim).
  { intros p Hp. apply in_map_iff in Hp. destruct Hp as (k & <- & Hk). destruct HM as [HV HC]. apply HV, nth_In. apply (HC c (nth_error_In _ _ Hi)), Hk. }
  assert (Hc : length c = dim + 1) by (apply (proj2 HM c (nth_error_In _ _ Hi))).
  unfold vertexInCell. rewrite (getSimplex_ok dim (dim + 1) V C i c mem HM Hi Hmem). cbn [bind].
  destruct dim as [|[|[|dim]]]; try (exfalso; apply Hd; reflexivity); cbn [measure] in Hd.
  - destruct (corners2 V c Hc) as (p & q & Ec). rewrite Ec in *. cbn [map] in *.
    destruct (bary1_ok p q x bary) as (l & El & Hl); auto; try (apply Hrow; cbn; tauto). rewrite El. cbn [bind].
    rewrite (flags_ok l tol (1 + 1)) by apply Hl. cbn [bind]. eexists; exists l. split; [reflexivity|]. split; [exact Hl|]. apply all_above.
  - destruct (corners3 V c Hc) as (p & q & r & Ec). rewrite Ec in *. cbn [map] in *.
    destruct (bary2_ok p q r x bary) as (l & El & Hl); auto; try (apply Hrow; cbn; tauto). rewrite El. cbn [bind].
    rewrite (flags_ok l tol (2 + 1)) by apply Hl. cbn [bind]. eexists; exists l. split; [reflexivity|]. split; [exact Hl|]. apply all_above.
Qed.

Lemma inside_coords dim ps x l : the_bary_coords dim ps x l -> ((forall w, In w l -> (- 0 <= w)%Qc) <-> inside dim ps x).
Proof.
  intros [(H1 & H2 & H3) HU]. replace (- 0)%Qc with 0%Qc by ring. split.
  - intros Hp. exists l. auto.
  - intros (l' & G1 & G2 & G3 & G4). rewrite <- (HU l'); [exact G2|]. repeat split; auto.
Qed.

Lemma vertexInCell_inside sq dim V C i c x mem bary : mesh_ok dim (dim + 1) V C -> nth_error C i = Some c -> measure dim (corners V c) <> 0%Qc ->
  length x = dim -> shape (dim + 1) dim mem -> length bary = dim + 1 ->
  exists b l, vertexInCell sq dim dim V C x i mem bary 0 = Ok (b, map (map Some) (corners V c), map Some l) /\ length l = dim + 1 /\
    (b = true <-> inside dim (corners V c) x).
Proof.
  intros HM Hi Hd Hx Hm Hb. destruct (vertexInCell_ok sq dim V C i c x mem bary 0 HM Hi Hd Hx Hm Hb) as (b & l & E & Hl & Hf).
  exists b, l. split; [exact E|]. split.
  - destruct Hl as [(H1 & _) _]. rewrite H1. unfold corners. rewrite map_length. apply (proj2 HM c (nth_error_In _ _ Hi)).
  - rewrite Hf. apply inside_coords. exact Hl.
Qed.

Lemma findCell_ok sq dim V C x cand : mesh_ok dim (dim + 1) V C -> (forall i c, nth_error C i = Some c -> measure dim (corners V c) <> 0%Qc) ->
  length x = dim -> (forall i, In i cand -> i < length C) -> forall mem bary, shape (dim + 1) dim mem -> length bary = dim + 1 ->
  exists r, findCell sq dim dim V C x cand mem bary = Ok r /\
    match r with
    | Some i => exists n c, nth_error cand n = Some i /\ nth_error C i = Some c /\ inside dim (corners V c) x /\
                 forall m j d, m < n -> nth_error cand m = Some j -> nth_error C j = Some d -> ~ inside dim (corners V d) x
    | None => forall j d, In j cand -> nth_error C j = Some d -> ~ inside dim (corners V d) x
    end.
Proof.
  intros HM Hd Hx. induction cand as [|i cand IH]; intros Hc mem bary Hm Hb.
  - exists None. split; [reflexivity|]. intros j d [].
  - cbn [findCell]. destruct (nth_error_lt C i) as (c & Hi); [apply Hc; left; reflexivity|].
    destruct (vertexInCell_inside sq dim V C i c x mem bary HM Hi (Hd i c Hi) Hx Hm Hb) as (b & l & E & Hl & Hf). rewrite E. cbn [bind].
    destruct b.
    + exists (Some i). split; [reflexivity|]. exists 0, c. split; [reflexivity|]. split; [exact Hi|]. split; [apply Hf; reflexivity|]. intros m j d Hlt. lia.
    + assert (N : ~ inside dim (corners V c) x) by (intros H; apply Hf in H; discriminate).
      destruct (IH (fun j Hj => Hc j (or_intror Hj)) _ (map Some l) (shape_corners dim (dim + 1) V C i c HM Hi)) as (r & Er & Hr); [rewrite map_length; exact Hl|].
      exists r. split; [exact Er|]. destruct r as [k|].
      * destruct Hr as (n & d & H1 & H2 & H3 & H4). exists (S n), d. split; [exact H1|]. split; [exact H2|]. split; [exact H3|].
        intros [|m] j e Hlt Hj He; [injection Hj as ->; rewrite Hi in He; injection He as <-; exact N|]. apply (H4 m j e); auto. lia.
      * intros j d [<- |Hj] He; [rewrite Hi in He; injection He as <-; exact N|]. exact (Hr j d Hj He).
Qed.

(** ** Lines in the plane and in space *)
Lemma tiny_pos : (0 < tiny)%Qc.
Proof. reflexivity. Qed.
Lemma qabs_neg a : (0 < a)%Qc -> qabs (- a)%Qc = a.
Proof.
  intros H. unfold qabs. destruct (Qclt_le_dec (- a) 0) as [A|A]; [ring|]. exfalso. revert H A. clear. intros. qclra.
Qed.
Lemma line_independent dim p q k : k < dim -> (vat p k - vat q k)%Qc <> 0%Qc -> independent dim [p; q].
Proof.
  intros Hk Hd l l' H1 H2 T1 T2 HE. destruct (len2_list l H1) as (a & b & ->). destruct (len2_list l' H2) as (a' & b' & ->).
  specialize (HE k Hk). cbn [total combination] in *.
  assert (Hb : b = (1 - a)%Qc) by (rewrite <- T1; ring). assert (Hb' : b' = (1 - a')%Qc) by (rewrite <- T2; ring).
  assert (X : ((a - a') * (vat p k - vat q k) = 0)%Qc).
  { transitivity ((a * vat p k + ((1 - a) * vat q k + 0)) - (a' * vat p k + ((1 - a') * vat q k + 0)))%Qc; [ring|]. rewrite <- Hb, <- Hb', HE. ring. }
  apply Qcmult_integral in X as [X|X]; [|contradiction]. assert (Ha : a = a') by (rewrite <- (Qcplus_0_r a'), <- X; ring).
  rewrite Hb, Hb', Ha. reflexivity.
Qed.
Lemma tiny_lt a : (tiny < a)%Qc -> (0 < a)%Qc.
Proof. intros H. apply (Qclt_trans _ tiny); [reflexivity|exact H]. Qed.
Lemma q_0 : (0 - 0 = 0)%Qc. Proof. ring. Qed.

Lemma line_coords dim j a p q x t : ahead dim j a p q -> a <> 0%Qc -> (forall k, k < dim -> vat x k = (vat q k + t * (vat p k - vat q k))%Qc) ->
  the_bary_coords dim [p; q] x [((vat x j - vat q j) / a)%Qc; (1 - (vat x j - vat q j) / a)%Qc].
Proof.
  intros [Hj HA] Ha HL. apply unique.
  - apply (line_independent dim p q j Hj). rewrite HA, Nat.eqb_refl by exact Hj. exact Ha.
  - split; [reflexivity|]. split; [cbn; ring|]. intros k Hk. cbn [combination]. rewrite (HL j Hj), (HL k Hk). pose proof (HA j Hj) as E. rewrite Nat.eqb_refl in E. rewrite E.
    replace ((vat q j + t * a - vat q j) / a)%Qc with t by (field; exact Ha). ring.
Qed.

Lemma bary1in2_ok sq a j p q x bary : is_sqrt sq -> ahead 2 j a p q -> (tiny < a)%Qc -> on_line 2 p q x ->
  length p = 2 -> length q = 2 -> length x = 2 -> length bary = 2 ->
  exists l, getBarycentricCoords1Din2D sq [map Some p; map Some q] x bary = Ok (map Some l) /\ the_bary_coords 2 [p; q] x l.
Proof.
  intros Hsq HA Ha [t HL] Hp Hq Hx Hb. pose proof (tiny_lt a Ha) as Ha0.
  assert (D : a <> 0%Qc) by (intros E; rewrite E in Ha0; apply (Qclt_not_eq _ _ Ha0); reflexivity).
  pose proof (line_coords 2 j a p q x t HA D HL) as G. destruct HA as [Hj HA].
  destruct (len2_list p Hp) as (p0 & p1 & ->). destruct (len2_list q Hq) as (q0 & q1 & ->). destruct (len2_list x Hx) as (x0 & x1 & ->).
  destruct (len2_list bary Hb) as (b0 & b1 & ->).
  pose proof (HA 0 ltac:(lia)) as E0. pose proof (HA 1 ltac:(lia)) as E1. cbn [vat nth] in E0, E1.
  unfold getBarycentricCoords1Din2D. cbn -[Qcmult Qcplus Qcminus Qcopp tiny qabs Qclt_le_dec]. unfold vat in E0, E1. cbn in E0, E1. rewrite E0, E1.
  replace (q0 - p0)%Qc with (- (p0 - q0))%Qc by ring. rewrite E0.
  destruct j as [|[|j]]; [| |lia]; cbn [Nat.eqb] in *.
  - replace (a * a + 0 * 0)%Qc with (a * a)%Qc by ring. rewrite Hsq by (apply Qclt_le_weak; exact Ha0). rewrite (qabs_neg a Ha0).
    destruct (Qclt_le_dec tiny a) as [_|A]; [|exfalso; apply (Qclt_not_le _ _ Ha A)]. rewrite qdiv_ok by exact D. cbn -[Qcmult Qcplus Qcminus Qcopp Qcdiv].
    eexists. split; [|exact G]. reflexivity.
  - replace (0 * 0 + a * a)%Qc with (a * a)%Qc by ring. rewrite Hsq by (apply Qclt_le_weak; exact Ha0).
    destruct (Qclt_le_dec tiny (qabs (- 0))) as [A|_]; [exfalso; vm_compute in A; discriminate A|]. rewrite qdiv_ok by exact D. cbn -[Qcmult Qcplus Qcminus Qcopp Qcdiv].
    eexists. split; [|exact G]. reflexivity.
Qed.

Lemma bary1in3_ok sq a j p q x bary : is_sqrt sq -> ahead 3 j a p q -> (tiny < a)%Qc -> on_line 3 p q x ->
  length p = 3 -> length q = 3 -> length x = 3 -> length bary = 2 ->
  exists l, getBarycentricCoords1Din3D sq [map Some p; map Some q] x bary = Ok (map Some l) /\ the_bary_coords 3 [p; q] x l.
Proof.
  intros Hsq HA Ha [t HL] Hp Hq Hx Hb. pose proof (tiny_lt a Ha) as Ha0.
  assert (D : a <> 0%Qc) by (intros E; rewrite E in Ha0; apply (Qclt_not_eq _ _ Ha0); reflexivity).
  pose proof (line_coords 3 j a p q x t HA D HL) as G. destruct HA as [Hj HA].
  destruct (len3_list p Hp) as (p0 & p1 & p2 & ->). destruct (len3_list q Hq) as (q0 & q1 & q2 & ->). destruct (len3_list x Hx) as (x0 & x1 & x2 & ->).
  destruct (len2_list bary Hb) as (b0 & b1 & ->).
  pose proof (HA 0 ltac:(lia)) as E0. pose proof (HA 1 ltac:(lia)) as E1. pose proof (HA 2 ltac:(lia)) as E2. 
  unfold getBarycentricCoords1Din3D. cbn -[Qcmult Qcplus Qcminus Qcopp tiny qabs Qclt_le_dec]. unfold vat in E0, E1, E2. cbn in E0, E1, E2. rewrite E0, E1, E2.
  replace (q0 - p0)%Qc with (- (p0 - q0))%Qc by ring. replace (q1 - p1)%Qc with (- (p1 - q1))%Qc by ring. rewrite E0, E1.
  destruct j as [|[|[|j]]]; [| | |lia]; cbn [Nat.eqb] in *.
  - replace (a * a + 0 * 0 + 0 * 0)%Qc with (a * a)%Qc by ring. rewrite Hsq by (apply Qclt_le_weak; exact Ha0). rewrite (qabs_neg a Ha0).
    destruct (Qclt_le_dec tiny a) as [_|A]; [|exfalso; apply (Qclt_not_le _ _ Ha A)]. rewrite qdiv_ok by exact D. cbn -[Qcmult Qcplus Qcminus Qcopp Qcdiv].
    eexists. split; [|exact G]. reflexivity.
  - replace (0 * 0 + a * a + 0 * 0)%Qc with (a * a)%Qc by ring. rewrite Hsq by (apply Qclt_le_weak; exact Ha0). rewrite (qabs_neg a Ha0).
    destruct (Qclt_le_dec tiny (qabs (- 0))) as [A|_]; [exfalso; vm_compute in A; discriminate A|].
    destruct (Qclt_le_dec tiny a) as [_|A]; [|exfalso; apply (Qclt_not_le _ _ Ha A)]. rewrite qdiv_ok by exact D. cbn -[Qcmult Qcplus Qcminus Qcopp Qcdiv].
    eexists. split; [|exact G]. reflexivity.
  - replace (0 * 0 + 0 * 0 + a * a)%Qc with (a * a)%Qc by ring. rewrite Hsq by (apply Qclt_le_weak; exact Ha0).
    destruct (Qclt_le_dec tiny (qabs (- 0))) as [A|_]; [exfalso; vm_compute in A; discriminate A|].
    rewrite qdiv_ok by exact D. cbn -[Qcmult Qcplus Qcminus Qcopp Qcdiv].
    eexists. split; [|exact G]. reflexivity.
Qed.

(** ** Triangles in space *)
Lemma bary2in3_ok p q r x l bary : length p = 3 -> length q = 3 -> length r = 3 -> length x = 3 -> length bary = 3 ->
  vol6 [[0; 0; 0]%Qc; p; q; r] <> 0%Qc -> bary_coords 3 [p; q; r] x l ->
  getBarycentricCoords2Din3D [map Some p; map Some q; map Some r] x bary = Ok (map Some l).
Proof.
  intros Hp Hq Hr Hx Hb Hd (Hl & Ht & HE).
  destruct (len3_list p Hp) as (p0 & p1 & p2 & ->). destruct (len3_list q Hq) as (q0 & q1 & q2 & ->). destruct (len3_list r Hr) as (r0 & r1 & r2 & ->).
  destruct (len3_list x Hx) as (x0 & x1 & x2 & ->). destruct (len3_list bary Hb) as (b0 & b1 & b2 & ->). destruct (len3_list l Hl) as (u & v & w & ->).
  pose proof (HE 0 ltac:(lia)) as E0. pose proof (HE 1 ltac:(lia)) as E1. pose proof (HE 2 ltac:(lia)) as E2. clear HE.
  unfold vat in E0, E1, E2. cbn -[Qcmult Qcplus Qcminus Qcopp] in E0, E1, E2, Hd.
  unfold getBarycentricCoords2Din3D, solve3, det3. cbn -[Qcmult Qcplus Qcminus Qcopp qdiv].
  match goal with |- context [qdiv _ ?d] => set (D := d) end.
  assert (HD : D <> 0%Qc).
  { intros E. apply Hd. transitivity D; [|exact E]. unfold D, vat. cbn -[Qcmult Qcplus Qcminus Qcopp]. ring. }
  rewrite !qdiv_ok by exact HD. cbn -[Qcmult Qcplus Qcminus Qcopp Qcdiv]. unfold D, vat. unfold D, vat in HD. cbn -[Qcmult Qcplus Qcminus Qcopp Qcdiv]. cbn -[Qcmult Qcplus Qcminus Qcopp Qcdiv] in HD.
  repeat f_equal; rewrite E0, E1, E2; field; exact HD.
Qed.

(** ** Cell centers *)
Lemma add_row dim (row r : list Qc) (S0 : list (buf Qc)) j : length row = dim -> length r = dim -> nth_error S0 j = Some (map Some r) ->
  for_range 0 dim (fun k row => s <- rd2 S0 j k ;; c <- aget row k ;; aset row k (c + s)%Qc) row = Ok (tab dim (fun k => vat row k + vat r k)%Qc).
Proof.
  intros Hl Hr Hj. loop_inv (fun k row' => row' = tab k (fun k => vat row k + vat r k)%Qc ++ skipn k row) st E HI.
  - lia.
  - reflexivity.
  - intros k row' Hk ->. destruct (nth_error_lt row k) as (y & Hy); [lia|]. assert (Es : skipn k row = y :: skipn (S k) row) by (clear -Hy; revert k Hy; induction row as [|a row IH]; intros [|k] H; cbn in *; try discriminate; [congruence|auto]).
    rewrite Es. unfold rd2. rewrite (aget_ok _ _ _ Hj). cbn [bind]. rewrite (rd_some r k 0%Qc) by lia. cbn [bind].
    assert (Hn : nth_error (tab k (fun k => vat row k + vat r k)%Qc ++ y :: skipn (S k) row) k = Some y) by (rewrite nth_error_app2; rewrite tab_length; [rewrite Nat.sub_diag; reflexivity|lia]).
    rewrite (aget_ok _ _ _ Hn). cbn [bind]. rewrite aset_ok by (apply nth_error_Some; congruence). eexists. split; [reflexivity|].
    rewrite upd_at by (rewrite tab_length; reflexivity). rewrite tab_S, <- app_assoc. cbn [app]. rewrite (vat_nth_error _ _ _ Hy). reflexivity.
  - rewrite E, HI. rewrite <- Hl at 2. rewrite skipn_all, app_nil_r. reflexivity.
Qed.

Lemma scale_row dim fac (row : list Qc) : length row = dim ->
  for_range 0 dim (fun k row => c <- aget row k ;; aset row k (c * fac)%Qc) row = Ok (tab dim (fun k => vat row k * fac)%Qc).
Proof.
  intros Hl. loop_inv (fun k row' => row' = tab k (fun k => vat row k * fac)%Qc ++ skipn k row) st E HI.
  - lia.
  - reflexivity.
  - intros k row' Hk ->. destruct (nth_error_lt row k) as (y & Hy); [lia|]. assert (Es : skipn k row = y :: skipn (S k) row) by (clear -Hy; revert k Hy; induction row as [|a row IH]; intros [|k] H; cbn in *; try discriminate; [congruence|auto]).
    rewrite Es.
    assert (Hn : nth_error (tab k (fun k => vat row k * fac)%Qc ++ y :: skipn (S k) row) k = Some y) by (rewrite nth_error_app2; rewrite tab_length; [rewrite Nat.sub_diag; reflexivity|lia]).
    rewrite (aget_ok _ _ _ Hn). cbn [bind]. rewrite aset_ok by (apply nth_error_Some; congruence). eexists. split; [reflexivity|].
    rewrite upd_at by (rewrite tab_length; reflexivity). rewrite tab_S, <- app_assoc. cbn [app]. rewrite (vat_nth_error _ _ _ Hy). reflexivity.
  - rewrite E, HI. rewrite <- Hl at 2. rewrite skipn_all, app_nil_r. reflexivity.
Qed.

Lemma sum_rows dim (ps : list (list Qc)) n : length ps = n -> (forall p, In p ps -> length p = dim) ->
  for_range 0 n (fun j row => for_range 0 dim (fun k row => s <- rd2 (map (map Some) ps) j k ;; c <- aget row k ;; aset row k (c + s)%Qc) row) (repeat 0%Qc dim)
  = Ok (tab dim (fun k => suml (map (fun p => vat p k) ps))).
Proof.
  intros Hn Hp. loop_inv (fun j row => row = tab dim (fun k => suml (map (fun p => vat p k) (firstn j ps)))) st E HI.
  - lia.
  - cbn. apply eq_tab with (d := 0%Qc); [apply repeat_length|]. intros i _. clear. revert i. induction dim as [|d IH]; intros [|i]; cbn; auto.
  - intros j row Hj ->. destruct (nth_error_lt ps j) as (p & Hq); [lia|].
    rewrite (add_row dim _ p) by (try apply tab_length; try apply Hp; try apply (nth_error_In _ _ Hq); rewrite nth_error_map, Hq; reflexivity).
    eexists. split; [reflexivity|]. apply tab_ext. intros k Hk. rewrite vat_tab by exact Hk. rewrite (firstn_S_nth _ _ _ Hq), map_app, suml_app. cbn [map suml]. ring.
  - rewrite E, HI, firstn_all2 by lia. reflexivity.
Qed.

Lemma getCellCenters_ok dim mdim V C : mesh_ok dim (mdim + 1) V C ->
  getCellCenters dim mdim V C = Ok (map (fun c => average dim (corners V c)) C).
Proof.
  intros HM. unfold getCellCenters.
  loop_inv (fun i (st : list (buf Qc) * list (list Qc)) => shape (mdim + 1) dim (fst st) /\
     snd st = map (fun c => average dim (corners V c)) (firstn i C) ++ repeat (repeat 0%Qc dim) (length C - i)) st E HI.
  - lia.
  - cbn [fst snd firstn map app]. rewrite Nat.sub_0_r. split; [|reflexivity]. split; [apply repeat_length|]. intros r Hr. apply repeat_spec in Hr. subst r. apply alloc_length.
  - intros i [mem cs] Hi [Hm Hc]. cbn [fst snd] in *. subst cs. destruct (nth_error_lt C i) as (c & Hn); [lia|].
    rewrite (getSimplex_ok dim (mdim + 1) V C i c mem HM Hn Hm). cbn [bind].
    replace (length C - i) with (S (length C - S i)) by lia. cbn [repeat].
    assert (Hfl : i = length (map (fun c => average dim (corners V c)) (firstn i C))) by (rewrite map_length, firstn_length; lia).
    assert (Hrow : nth_error (map (fun c => average dim (corners V c)) (firstn i C) ++ repeat 0%Qc dim :: repeat (repeat 0%Qc dim) (length C - S i)) i = Some (repeat 0%Qc dim))
      by (rewrite nth_error_app2 by lia; rewrite <- Hfl, Nat.sub_diag; reflexivity).
    rewrite (aget_ok _ _ _ Hrow). cbn [bind].
    assert (Hcl : length (corners V c) = mdim + 1) by (unfold corners; rewrite map_length; apply (proj2 HM c (nth_error_In _ _ Hn))).
    rewrite (sum_rows dim (corners V c) (mdim + 1) Hcl).
    2: { intros p Hp. apply in_map_iff in Hp. destruct Hp as (k & <- & Hk). destruct HM as [HV HC]. apply HV, nth_In. apply (HC c (nth_error_In _ _ Hn)), Hk. }
    cbn [bind]. rewrite scale_row by apply tab_length. cbn [bind]. rewrite aset_ok by (apply nth_error_Some; congruence). cbn [bind].
    eexists. split; [reflexivity|]. cbn [fst snd]. split; [apply (shape_corners _ _ V C i c HM Hn)|].
    rewrite upd_at by exact Hfl. rewrite (firstn_S_nth _ _ _ Hn), map_app, <- app_assoc. cbn [map app]. do 2 f_equal.
    unfold average. apply tab_ext. intros k Hk. rewrite vat_tab by exact Hk. rewrite Hcl. reflexivity.
  - rewrite E. cbn [bind]. destruct st as [mem cs]. destruct HI as [_ HI]. cbn [fst snd] in HI. rewrite HI, firstn_all, Nat.sub_diag. cbn [repeat]. rewrite app_nil_r. reflexivity.
Qed.

(** ** Statements *)
Lemma corner_unit dim ps x l i : the_bary_coords dim ps x l -> nth_error ps i = Some x -> l = unit_coords (length ps) i.
Proof. intros [_ HU] Hi. symmetry. apply HU, unit_bary, Hi. Qed.

Lemma C29_line_lemma p q x bary : length p = 1 -> length q = 1 -> length x = 1 -> length bary = 2 -> vat p 0 <> vat q 0 ->
  exists l, getBarycentricCoords1D [map Some p; map Some q] x bary = Ok (map Some l) /\ the_bary_coords 1 [p; q] x l /\
    (forall i, nth_error [p; q] i = Some x -> l = unit_coords 2 i).
Proof.
  intros Hp Hq Hx Hb Hd. destruct (bary1_ok p q x bary Hp Hq Hx Hb) as (l & E & Hl).
  - cbn. intros H. apply Hd. rewrite <- (Qcplus_0_r (vat p 0)), <- H. ring.
  - exists l. split; [exact E|]. split; [exact Hl|]. intros i Hi. apply (corner_unit _ _ _ _ _ Hl Hi).
Qed.
Lemma C29_triangle_lemma p q r x bary : length p = 2 -> length q = 2 -> length r = 2 -> length x = 2 -> length bary = 3 -> area2 [p; q; r] <> 0%Qc ->
  exists l, getBarycentricCoords2D [map Some p; map Some q; map Some r] x bary = Ok (map Some l) /\ the_bary_coords 2 [p; q; r] x l /\
    (forall i, nth_error [p; q; r] i = Some x -> l = unit_coords 3 i).
Proof.
  intros Hp Hq Hr Hx Hb Hd. destruct (bary2_ok p q r x bary Hp Hq Hr Hx Hb Hd) as (l & E & Hl).
  exists l. split; [exact E|]. split; [exact Hl|]. intros i Hi. apply (corner_unit _ _ _ _ _ Hl Hi).
Qed.

Lemma sqrt_1 sq : is_sqrt sq -> sq 1%Qc = 1%Qc.
Proof. intros H. replace 1%Qc with (1 * 1)%Qc at 1 by ring. apply H. discriminate. Qed.
Lemma sqrt_25 sq : is_sqrt sq -> sq (qz 25) = qz 5.
Proof. intros H. replace (qz 25) with (qz 5 * qz 5)%Qc by (apply Qc_is_canon; reflexivity). apply H. discriminate. Qed.


(** The segment from the origin to (1, 0) rejects its first end point. *)
Lemma line_refuted2 sq : is_sqrt sq -> let V := [[0; 0]; [1; 0]]%Qc in
  vertexInCell sq 2 1 V [[0; 1]] (point V 0) 0 [[None; None]; [None; None]] [None; None] 0 = Ok (false, map (map Some) V, map Some [- (1); 1 + 1]%Qc) /\
  inside 2 V (point V 0).
Proof.
  intros Hs V. pose proof (sqrt_1 sq Hs) as E. split.
  - unfold vertexInCell, getBarycentricCoords1Din2D. cbn -[Qclt_le_dec qdiv qabs tiny Qcmult Qcplus Qcminus Qcopp].
    assert (X : ((0 - 1) * (0 - 1) + (0 - 0) * (0 - 0) = 1)%Qc) by ring. rewrite X, E.
    assert (Y : qdiv (0 - 1) 1 = Ok (- (1))%Qc) by (rewrite qdiv_ok by discriminate; f_equal; field; discriminate).
    destruct (Qclt_le_dec tiny (qabs (1 - 0))) as [_|A]; [|exfalso; apply A; reflexivity]. rewrite Y. cbn -[Qclt_le_dec Qcmult Qcplus Qcminus Qcopp].
    destruct (Qclt_le_dec (- (1)) (- 0)) as [_|A]; [|exfalso; apply A; reflexivity]. cbn -[Qcmult Qcplus Qcminus Qcopp].
    reflexivity.
  - exists [1; 0]%Qc. split; [reflexivity|]. split; [intros w [<-|[<-|[]]]; discriminate|]. split; [cbn; ring|]. intros [|[|k]] Hk; [reflexivity|reflexivity|lia].
Qed.
(** The first corner of the segment from (3, 4) to the origin has coordinates (3/5, 2/5). *)
Lemma line_refuted_slanted sq : is_sqrt sq -> let p := [qz 3; qz 4] in let q := [0; 0]%Qc in
  exists l, getBarycentricCoords1Din2D sq [map Some p; map Some q] p [None; None] = Ok (map Some l) /\ map this l = [(3 # 5)%Q; (2 # 5)%Q].
Proof.
  intros Hs p q. pose proof (sqrt_25 sq Hs) as E. exists [(qz 3 / qz 5); (1 - qz 3 / qz 5)]%Qc. split; [|vm_compute; reflexivity].
  unfold p, q, getBarycentricCoords1Din2D. cbn -[Qclt_le_dec qdiv qabs tiny Qcmult Qcplus Qcminus Qcopp qz].
  assert (X : ((qz 3 - 0) * (qz 3 - 0) + (qz 4 - 0) * (qz 4 - 0) = qz 25)%Qc) by (apply Qc_is_canon; vm_compute; reflexivity). rewrite X, E.
  destruct (Qclt_le_dec tiny (qabs (0 - qz 3))) as [_|A]; [|exfalso; apply A; vm_compute; reflexivity].
  rewrite qdiv_ok by discriminate. replace (qz 3 - 0)%Qc with (qz 3) by ring. reflexivity.
Qed.
(** The same in space. *)
Lemma line_refuted3 sq : is_sqrt sq -> let V := [[0; 0; 0]; [0; 0; 1]]%Qc in
  vertexInCell sq 3 1 V [[0; 1]] (point V 0) 0 [[None; None; None]; [None; None; None]] [None; None] 0 = Ok (false, map (map Some) V, map Some [- (1); 1 + 1]%Qc) /\
  inside 3 V (point V 0).
Proof.
  intros Hs V. pose proof (sqrt_1 sq Hs) as E. split.
  - unfold vertexInCell, getBarycentricCoords1Din3D. cbn -[Qclt_le_dec qdiv qabs tiny Qcmult Qcplus Qcminus Qcopp].
    assert (X : ((0 - 0) * (0 - 0) + (0 - 0) * (0 - 0) + (0 - 1) * (0 - 1) = 1)%Qc) by ring. rewrite X, E.
    assert (Y : qdiv (0 - 1) 1 = Ok (- (1))%Qc) by (rewrite qdiv_ok by discriminate; f_equal; field; discriminate).
    destruct (Qclt_le_dec tiny (qabs (0 - 0))) as [A|_]; [exfalso; vm_compute in A; discriminate A|]. rewrite Y. cbn -[Qclt_le_dec Qcmult Qcplus Qcminus Qcopp].
    destruct (Qclt_le_dec (- (1)) (- 0)) as [_|A]; [|exfalso; apply A; reflexivity]. cbn -[Qcmult Qcplus Qcminus Qcopp].
    reflexivity.
  - exists [1; 0]%Qc. split; [reflexivity|]. split; [intros w [<-|[<-|[]]]; discriminate|]. split; [cbn; ring|]. intros [|[|[|k]]] Hk; [reflexivity|reflexivity|reflexivity|lia].
Qed.

(** Triangles in a plane through the origin cannot be handled, and points off the plane
    of a triangle are taken to be in it. *)
Lemma surface_refuted : (forall x bary, length x = 3 -> length bary = 3 ->
   getBarycentricCoords2Din3D [map Some [0; 0; 0]%Qc; map Some [1; 0; 0]%Qc; map Some [0; 1; 0]%Qc] x bary = Err EDiv0) /\
  (forall sq, exists m b, let V := [[1; 0; 0]; [0; 1; 0]; [0; 0; 1]]%Qc in
     vertexInCell sq 3 2 V [[0; 1; 2]] [1; 1; 1]%Qc 0 (alloc2 3 3) (alloc 3) 0 = Ok (true, m, b) /\ ~ inside 3 V [1; 1; 1]%Qc).
Proof.
  split.
  - intros x bary Hx Hb. destruct (len3_list x Hx) as (x0 & x1 & x2 & ->). destruct (len3_list bary Hb) as (b0 & b1 & b2 & ->).
    unfold getBarycentricCoords2Din3D, solve3. cbn -[Qcmult Qcplus Qcminus Qcopp qdiv det3].
    match goal with |- context [qdiv _ (det3 ?m)] => assert (X : det3 m = 0%Qc) by (apply Qc_is_canon; vm_compute; reflexivity); rewrite X end. reflexivity.
  - intros sq. exists (map (map Some) [[1; 0; 0]; [0; 1; 0]; [0; 0; 1]]%Qc), (map Some [1; 1; 1]%Qc). cbn zeta. split; [vm_compute; reflexivity|].
    intros (l & Hl & _ & Ht & Hx). destruct (len3_list l Hl) as (a & b & c & ->).
    pose proof (Hx 0 ltac:(lia)) as H0. pose proof (Hx 1 ltac:(lia)) as H1. pose proof (Hx 2 ltac:(lia)) as H2. cbn -[Qcmult Qcplus] in Ht, H0, H1, H2. unfold vat in *. cbn -[Qcmult Qcplus] in H0, H1, H2.
    assert (Ea : a = 1%Qc) by (rewrite H0; ring). assert (Eb : b = 1%Qc) by (rewrite H1; ring). assert (Ec : c = 1%Qc) by (rewrite H2; ring).
    rewrite Ea, Eb, Ec in Ht. apply (f_equal this) in Ht. vm_compute in Ht. discriminate Ht.
Qed.
