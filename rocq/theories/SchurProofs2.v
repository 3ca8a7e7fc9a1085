(** The products of a Schur complement. *)
From Verif Require Import Util Lin SparsitySpec CSRModel CSRSpec CSRProofs OpsProofs3 DenseModel SmootherModel CompModel CompSpec CompProofs CompProofs7 CompProofs10 CompProofs9 BlockInvProofs4 SchurModel SchurSpec SchurProofs.
Local Open Scope nat_scope.
Set Default Proof Using "Type".

Lemma performs_ext lens T T' n m A B a f : (forall i j, i < n -> j < m -> A i j = B i j) -> (forall id, In id T -> In id T') -> performs lens T n m A a f -> performs lens T' n m B a f.
Proof.
  intros H HT P x y xs ys h (LT & Lx & Ly & Ix & Iy & Cx & Cy & Nx & Ny & Nxy).
  destruct (P x y xs ys h) as (h' & E & C & O); [repeat split; auto|]. exists h'. split; [exact E|]. split.
  - rewrite C. f_equal. apply tab_ext. intros i Hi. f_equal. unfold mv. apply sumf_ext. intros j Hj. now rewrite H.
  - eapply only_weaken; [exact O|]. intros id k [X|X]; auto.
Qed.

Lemma sandwich_ok lens A R P I J n b : ok lens A -> dims A = (n, n) -> offers A false false = true -> wf_csr (length I) n R -> wf_csr n (length J) P ->
  (forall i, In i I -> i < n) -> (forall j, In j J -> j < n) -> (forall id, In id (scratch A) -> id < b) -> n <= lens b -> n <= lens (b + 1) ->
  (forall i k, i < length I -> matrix R i k = if nth i I 0 =? k then 1%Qc else 0%Qc) -> (forall l j, l < n -> j < length J -> matrix P l j = if nth j J 0 =? l then 1%Qc else 0%Qc) ->
  exists o, build (sandwich R A P b) = Ok o /\ l_rows o = length I /\ l_cols o = length J /\
    forall a, performs lens (b :: b + 1 :: scratch A) (length I) (length J) (sub_matrix (meaning A) I J) a (l_mv o false a).
Proof.
  intros OA DA VA wR wP HI HJ F L1 L2 ER EP.
  assert (DR : dims (ECSR R) = (length I, n)) by (cbn; destruct wR as (Ec & (El & _)); rewrite El, Ec; f_equal; lia).
  assert (DP : dims (ECSR P) = (n, length J)) by (cbn; destruct wP as (Ec & (El & _)); rewrite El, Ec; f_equal; lia).
  assert (O : ok lens (sandwich R A P b)).
  { unfold sandwich, matmul. cbn [ok]. change (dims (EProduct (ECSR R) A b)) with (fst (dims (ECSR R)), snd (dims A)). rewrite DR, DA, DP. cbn [fst snd].
    split; [split; [exact wR|]; split; [exact OA|]; split; [reflexivity|]; split; [exact L1|]; cbn; intros X; specialize (F _ X); lia|].
    split; [exact wP|]. split; [reflexivity|]. split; [exact L2|]. cbn. rewrite app_nil_r. intros [X|X]; [lia|specialize (F _ X); lia]. }
  destruct (build_sound lens _ O) as (o & E & (Rn & Rm & Pf) & _). exists o. split; [exact E|].
  assert (Dn : fst (dims (sandwich R A P b)) = length I) by (unfold sandwich, matmul; change (fst (dims (ECSR R)) = length I); rewrite DR; reflexivity).
  assert (Dm : snd (dims (sandwich R A P b)) = length J) by (unfold sandwich, matmul; change (snd (dims (ECSR P)) = length J); rewrite DP; reflexivity).
  rewrite Dn in Rn. rewrite Dm in Rm. split; [exact Rn|]. split; [exact Rm|]. intros a.
  specialize (Pf false a). cbv iota in Pf. rewrite Dn, Dm in Pf. eapply performs_ext; [| |apply Pf].
  - intros i j Hi Hj. change (mm (snd (dims A)) (mm (snd (dims (ECSR R))) (matrix R) (meaning A)) (matrix P) i j = sub_matrix (meaning A) I J i j).
    rewrite DA, DR. cbn [snd]. apply picked; auto.
  - unfold sandwich, matmul. cbn [scratch]. intros id. cbn. rewrite app_nil_r. tauto.
  - unfold sandwich, matmul. cbn [offers]. rewrite VA. reflexivity.
Qed.

Lemma v_updateScaled_ok y z alpha ys zs h : inside h y -> inside h z -> contents h y = map Some ys -> contents h z = map Some zs -> v_len z = v_len y ->
  exists h', v_updateScaled y z alpha h = Ok h' /\ contents h' y = map Some (tab (v_len y) (fun i => vat ys i + alpha * vat zs i)%Qc) /\ only h h' (touches y).
Proof.
  intros Iy Iz Cy Cz Hl. assert (L : length ys = v_len y) by (rewrite <- (contents_length h y Iy), Cy, map_length; reflexivity).
  assert (L' : length zs = v_len y) by (rewrite <- Hl, <- (contents_length h z Iz), Cz, map_length; reflexivity).
  unfold v_updateScaled. rewrite (vread_ok h y Iy). cbn [bind]. rewrite (vread_ok h z Iz). cbn [bind]. rewrite Cy, Cz.
  rewrite (fill_loop (v_len y) _ (map Some ys) (fun i => vat ys i + alpha * vat zs i)%Qc).
  - cbn [bind]. apply vwrite_ok; [exact Iy|]. rewrite map_length. apply tab_length.
  - rewrite map_length. exact L.
  - intros i y0 Hi _ E. rewrite (rd_ok _ _ (vat ys i)) by (rewrite E; apply map_nth_error, nth_error_nth'; lia). cbn [bind].
    rewrite (rd_some _ i 0%Qc) by lia. reflexivity.
Qed.

Lemma selected lens A I n : (forall i, In i I -> i < n) -> ok lens A -> dims A = (n, n) ->
  exists P, csr_transpose (selection n I) = Ok P /\ wf_csr n (length I) P /\ forall l j, l < n -> j < length I -> matrix P l j = if nth j I 0 =? l then 1%Qc else 0%Qc.
Proof.
  intros HI _ _. destruct (transpose_thm (length I) n (selection n I) (selection_wf n I HI)) as (P & E & W & X & _).
  - unfold selection. cbn [c_indptr]. rewrite seq_nth by lia. reflexivity.
  - exists P. split; [exact E|]. split; [exact W|]. intros l j Hl Hj. rewrite X by auto. apply selection_matrix. exact Hj.
Qed.

Lemma schur_ok lens A D I b n : schur_ready lens A D I b n ->
  exists f, schur A D I b = Ok f /\ forall add, performs lens (seq b 11 ++ scratch A ++ scratch D) (length I) (length I) (schur_matrix (meaning A) (meaning D) I (rest n I)) add (f add).
Proof.
  intros (OA & DA & VA & Nd & HI & OD & DD & VD & F & LB & L8 & L9 & L10). set (J := rest n I) in *.
  assert (HJ : forall j, In j J -> j < n) by (intros j Hj; apply in_rest in Hj; tauto).
  assert (FA : forall id, In id (scratch A) -> id < b) by (intros id X; apply F, in_or_app; auto).
  destruct (selected lens A I n HI OA DA) as (P1 & EP1 & wP1 & MP1). destruct (selected lens A J n HJ OA DA) as (P2 & EP2 & wP2 & MP2).
  pose proof (selection_wf n I HI) as wR1. pose proof (selection_wf n J HJ) as wR2.
  pose proof (selection_matrix n I) as MR1. pose proof (selection_matrix n J) as MR2.
  assert (Lb : n <= lens b) by (specialize (LB 0); rewrite Nat.add_0_r in LB; apply LB; lia).
  destruct (sandwich_ok lens A (selection n I) P1 I I n b) as (a11 & E11 & R11 & C11 & P11); auto; try (apply LB; lia).
  destruct (sandwich_ok lens A (selection n I) P2 I J n (b + 2)) as (a12 & E12 & R12 & C12 & P12); auto; try (intros id X; specialize (FA id X); lia); try (rewrite <- ?Nat.add_assoc; apply LB; cbn; lia).
  destruct (sandwich_ok lens A (selection n J) P1 J I n (b + 4)) as (a21 & E21 & R21 & C21 & P21); auto; try (intros id X; specialize (FA id X); lia); try (rewrite <- ?Nat.add_assoc; apply LB; cbn; lia).
  destruct (sandwich_ok lens A (selection n J) P2 J J n (b + 6)) as (a22 & E22 & R22 & C22 & _); auto; try (intros id X; specialize (FA id X); lia); try (rewrite <- ?Nat.add_assoc; apply LB; cbn; lia).
  destruct (products_ok lens D OD) as (d & ED & _ & _ & PD). specialize (PD false false VD). cbv iota in PD. rewrite DD in PD. cbn [fst snd] in PD.
  unfold schur, schur_blocks. rewrite (shape_dims lens A OA), DA. cbv zeta. cbn [fst]. rewrite EP1. cbn [bind]. rewrite (others_ok n I HI). cbn [bind]. fold J. rewrite EP2. cbn [bind].
  rewrite E11. cbn [bind]. rewrite E12. cbn [bind]. rewrite E21. cbn [bind]. rewrite E22. cbn [bind]. rewrite ED. cbn [bind].
  eexists. split; [reflexivity|]. intros add x y xs ys h (LT & Lx & Ly & Ix & Iy & Cx & Cy & Nx & Ny & Nxy). cbv beta zeta. rewrite R11, R22.
  set (t := View (b + 8) 0 (length J)). set (t2 := View (b + 9) 0 (length J)). set (t3 := View (b + 10) 0 (length I)). set (T := seq b 11 ++ scratch A ++ scratch D) in *.
  assert (TS : forall k, b <= k < b + 11 -> In k T) by (intros k Hk; unfold T; apply in_or_app; left; apply in_seq; lia).
  assert (TA : forall id, In id (scratch A) -> In id T) by (intros id X; unfold T; rewrite !in_app_iff; auto).
  assert (TD : forall id, In id (scratch D) -> In id T) by (intros id X; unfold T; rewrite !in_app_iff; auto).
  assert (FD : forall id, In id (scratch D) -> id < b) by (intros id X; apply F, in_or_app; auto).
  assert (T21 : forall id, In id (b + 4 :: b + 4 + 1 :: scratch A) -> In id T) by (intros id [<-|[<-|X]]; [apply TS; lia|apply TS; lia|auto]).
  assert (T12 : forall id, In id (b + 2 :: b + 2 + 1 :: scratch A) -> In id T) by (intros id [<-|[<-|X]]; [apply TS; lia|apply TS; lia|auto]).
  assert (T11 : forall id, In id (b :: b + 1 :: scratch A) -> In id T) by (intros id [<-|[<-|X]]; [apply TS; lia|apply TS; lia|auto]).
  assert (NT : forall id c, b + 8 <= id -> c + 1 < b + 8 -> ~ In id (c :: c + 1 :: scratch A)) by (intros id c G1 G2 [X|[X|X]]; [lia|lia|specialize (FA _ X); lia]).
  assert (NTD : forall id, b + 8 <= id -> ~ In id (scratch D)) by (intros id G X; specialize (FD _ X); lia).
  assert (It : inside h t) by (unfold inside, t; cbn; specialize (LT (b + 8) (TS (b + 8) ltac:(lia))); lia).
  assert (It2 : inside h t2) by (unfold inside, t2; cbn; specialize (LT (b + 9) (TS (b + 9) ltac:(lia))); lia).
  assert (It3 : inside h t3) by (unfold inside, t3; cbn; specialize (LT (b + 10) (TS (b + 10) ltac:(lia))); lia).
  assert (NB : forall v k, ~ In (v_buf v) T -> b <= k < b + 11 -> v_buf v <> k) by (intros v k X Hk E; apply X; rewrite E; apply TS, Hk).
  set (w1 := tab (length J) (fun i => 0 + mv (length I) (sub_matrix (meaning A) J I) (vat xs) i)%Qc).
  destruct (P21 false x t xs [] h) as (h1 & X1 & C1 & O1).
  { split; [auto|]. split; [exact Lx|]. split; [reflexivity|]. split; [exact Ix|]. split; [exact It|]. split; [exact Cx|]. split; [discriminate|]. split; [auto|]. split; [apply NT; unfold t, t2, t3; cbn [v_buf]; lia|apply (NB x (b + 8)); [exact Nx|lia]]. }
  rewrite X1. cbn [bind]. fold w1 in C1.
  set (w2 := tab (length J) (fun i => 0 + mv (length J) (meaning D) (vat w1) i)%Qc).
  assert (M1 : forall v, inside h v -> inside h1 v) by (intros v; apply (only_inside _ _ _ _ O1)).
  destruct (PD t t2 w1 [] h1) as (h2 & X2 & C2 & O2).
  { split; [intros id X; rewrite (proj1 O1); auto|]. split; [reflexivity|]. split; [reflexivity|]. split; [auto|]. split; [auto|]. split; [exact C1|]. split; [discriminate|]. split; [apply NTD; unfold t, t2, t3; cbn [v_buf]; lia|]. split; [apply NTD; unfold t, t2, t3; cbn [v_buf]; lia|unfold t, t2, t3; cbn [v_buf]; lia]. }
  rewrite X2. cbn [bind]. fold w2 in C2.
  assert (M2 : forall v, inside h v -> inside h2 v) by (intros v X; apply (only_inside _ _ _ _ O2); auto).
  set (w3 := tab (length I) (fun i => 0 + mv (length J) (sub_matrix (meaning A) I J) (vat w2) i)%Qc).
  destruct (P12 false t2 t3 w2 [] h2) as (h3 & X3 & C3 & O3).
  { split; [intros id X; rewrite (proj1 O2), (proj1 O1); auto|]. split; [reflexivity|]. split; [reflexivity|]. split; [auto|]. split; [auto|]. split; [exact C2|]. split; [discriminate|]. split; [apply NT; unfold t, t2, t3; cbn [v_buf]; lia|]. split; [apply NT; unfold t, t2, t3; cbn [v_buf]; lia|unfold t, t2, t3; cbn [v_buf]; lia]. }
  rewrite X3. cbn [bind]. fold w3 in C3.
  assert (M3 : forall v, inside h v -> inside h3 v) by (intros v X; apply (only_inside _ _ _ _ O3); auto).
  assert (W1 : only h h3 (fun id _ => In id T)).
  { apply only_trans with h1; [|apply only_trans with h2]; (eapply only_weaken; [eassumption|]); intros id k [X|(-> & _)]; auto; apply TS; unfold t, t2, t3; cbn [v_buf]; lia. }
  assert (Cx3 : contents h3 x = contents h x) by (apply (only_contents _ _ _ _ W1); auto).
  assert (Cy3 : contents h3 y = contents h y) by (apply (only_contents _ _ _ _ W1); auto).
  destruct (P11 add x y xs ys h3) as (h4 & X4 & C4 & O4).
  { split; [intros id X; rewrite (proj1 W1); auto|]. split; [exact Lx|]. split; [exact Ly|]. split; [auto|]. split; [auto|]. split; [now rewrite Cx3|]. split; [rewrite Cy3; exact Cy|]. split; [auto|]. split; [auto|exact Nxy]. }
  rewrite X4. cbn [bind].
  assert (C34 : contents h4 t3 = map Some w3).
  { rewrite <- C3. apply (only_contents _ _ _ _ O4). intros k _ [X|(X & _)]; [revert X; apply NT; unfold t, t2, t3; cbn [v_buf]; lia|]. apply (NB y (b + 10) Ny); [lia|]. symmetry. exact X. }
  destruct (v_updateScaled_ok y t3 (- (1))%Qc (tab (length I) (fun i => (if add then vat ys i else 0) + mv (length I) (sub_matrix (meaning A) I I) (vat xs) i)%Qc) w3 h4) as (h5 & X5 & C5 & O5); [apply (only_inside _ _ _ _ O4); auto|apply (only_inside _ _ _ _ O4); auto|exact C4|exact C34|rewrite Ly; reflexivity|].
  exists h5. split; [exact X5|]. split.
  - rewrite C5, Ly. f_equal. apply tab_ext. intros i Hi. rewrite vat_tab by exact Hi. unfold w3. rewrite vat_tab by exact Hi.
    assert (Em : mv (length I) (schur_matrix (meaning A) (meaning D) I J) (vat xs) i =
      (mv (length I) (sub_matrix (meaning A) I I) (vat xs) i - mv (length J) (sub_matrix (meaning A) I J) (mv (length J) (meaning D) (mv (length I) (sub_matrix (meaning A) J I) (vat xs))) i)%Qc).
    { transitivity (mv (length I) (sub_matrix (meaning A) I I) (vat xs) i - mv (length I) (mm (length J) (sub_matrix (meaning A) I J) (mm (length J) (meaning D) (sub_matrix (meaning A) J I))) (vat xs) i)%Qc.
      - unfold mv, Qcminus. rewrite <- sumf_opp, <- sumf_plus. apply sumf_ext. intros j _. unfold schur_matrix. ring.
      - f_equal. rewrite mv_mm. unfold mv at 1 3. apply sumf_ext. intros k _. now rewrite mv_mm. }
    assert (E3 : mv (length J) (sub_matrix (meaning A) I J) (vat w2) i = mv (length J) (sub_matrix (meaning A) I J) (mv (length J) (meaning D) (mv (length I) (sub_matrix (meaning A) J I) (vat xs))) i).
    { unfold mv at 1 2. apply sumf_ext. intros k Hk. f_equal. unfold w2. rewrite vat_tab by exact Hk. etransitivity; [apply Qcplus_0_l|]. unfold mv at 1 2. apply sumf_ext. intros l Hl. f_equal.
      unfold w1. rewrite vat_tab by exact Hl. apply Qcplus_0_l. }
    rewrite Em, E3. destruct add; ring.
  - apply only_trans with h3; [eapply only_weaken; [exact W1|]; auto|]. apply only_trans with h4; (eapply only_weaken; [eassumption|]); [intros id k [X|X]; auto|auto].
Qed.
