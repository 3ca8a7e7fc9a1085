(** Element matrices: the statements about all elements and the counterexamples. *)
From Verif Require Import Util Lin MeshSpec MeshModel BaryModel BarySpec BaryProofs LocalModel LocalTables LocalSpec LocalProofs LocalProofs2 LocalProofs3 LocalProofs4 LocalProofs5 LocalProofs6.
Set Default Proof Using "Type".
Local Open Scope Qc_scope.

(** An evaluation succeeds with a matrix of the kind P. *)
Lemma yields {P : list Qc -> Prop} (r : res (buf Qc)) m : r = Ok (map Some m) -> P m -> exists m, r = Ok (map Some m) /\ P m.
Proof. eauto. Qed.
Ltac mass_by L F := intros HC; eapply yields; [eapply L; eauto|]; apply is_mass, F; lia.

Lemma mass1 vs J contrib : is_simplex 1 vs -> magnitude J (det 1 vs) ->
  (length contrib = 1%nat -> exists m, mass_1d_sym_P0_eval vs contrib = Ok (map Some m) /\ is_mass_matrix 1 J [shapeP0] m) /\
  (length contrib = 3%nat -> exists m, mass_1d_sym_P1_eval vs contrib = Ok (map Some m) /\ is_mass_matrix 1 J (shapesP1 1) m) /\
  (length contrib = 6%nat -> exists m, mass_1d_sym_P2_eval vs contrib = Ok (map Some m) /\ is_mass_matrix 1 J (shapesP2 1) m) /\
  (length contrib = 10%nat -> exists m, mass_1d_sym_P3_eval vs contrib = Ok (map Some m) /\ is_mass_matrix 1 J (shapesP3 1) m).
Proof.
  intros H HJ. split; [|split; [|split]]; intros HC.
  - eapply yields; [apply (mass_1_0 vs J); auto|apply is_mass, functions_P0].
  - eapply yields; [apply (mass_1_1 vs J); auto|apply is_mass, functions_P1].
  - eapply yields; [apply (mass_1_2 vs J); auto|apply is_mass, functions_P2; lia].
  - eapply yields; [apply (mass_1_3 vs J); auto|apply is_mass, functions_P3; lia].
Qed.
Lemma mass2 vs J temp contrib : is_simplex 2 vs -> magnitude J (det 2 vs) -> shape 3 2 temp ->
  (length contrib = 1%nat -> exists m, mass_2d_sym_P0_eval vs temp contrib = Ok (map Some m) /\ is_mass_matrix 2 J [shapeP0] m) /\
  (length contrib = 6%nat -> exists m, mass_2d_sym_P1_eval vs temp contrib = Ok (map Some m) /\ is_mass_matrix 2 J (shapesP1 2) m) /\
  (length contrib = 21%nat -> exists m, mass_2d_sym_P2_eval vs temp contrib = Ok (map Some m) /\ is_mass_matrix 2 J (shapesP2 2) m) /\
  (length contrib = 55%nat -> exists m, mass_2d_sym_P3_eval vs temp contrib = Ok (map Some m) /\ is_mass_matrix 2 J (shapesP3 2) m).
Proof.
  intros H HJ HT. split; [|split; [|split]]; intros HC.
  - eapply yields; [apply (mass_2_0 vs J); auto|apply is_mass, functions_P0].
  - eapply yields; [apply (mass_2_1 vs J); auto|apply is_mass, functions_P1].
  - eapply yields; [apply (mass_2_2 vs J); auto|apply is_mass, functions_P2; lia].
  - eapply yields; [apply (mass_2_3 vs J); auto|apply is_mass, functions_P3; lia].
Qed.
Lemma mass3 vs J temp contrib : is_simplex 3 vs -> magnitude J (det 3 vs) -> shape 4 3 temp ->
  (length contrib = 1%nat -> exists m, mass_3d_sym_P0_eval vs temp contrib = Ok (map Some m) /\ is_mass_matrix 3 J [shapeP0] m) /\
  (length contrib = 10%nat -> exists m, mass_3d_sym_P1_eval vs temp contrib = Ok (map Some m) /\ is_mass_matrix 3 J (shapesP1 3) m) /\
  (length contrib = 55%nat -> exists m, mass_3d_sym_P2_eval vs temp contrib = Ok (map Some m) /\ is_mass_matrix 3 J (shapesP2 3) m) /\
  (length contrib = 210%nat -> exists m, mass_3d_sym_P3_eval vs temp contrib = Ok (map Some m) /\ is_mass_matrix 3 J (shapesP3 3) m).
Proof.
  intros H HJ HT. split; [|split; [|split]]; intros HC.
  - eapply yields; [apply (mass_3_0 vs J); auto|apply is_mass, functions_P0].
  - eapply yields; [apply (mass_3_1 vs J); auto|apply is_mass, functions_P1].
  - eapply yields; [apply (mass_3_2 vs J); auto|apply is_mass, functions_P2; lia].
  - eapply yields; [apply (mass_3_3 vs J); auto|apply is_mass, functions_P3; lia].
Qed.

Lemma stiff_by d J vs fs ps (r : res (buf Qc)) : (1 <= d <= 3)%nat -> is_simplex d vs -> functions d fs ps ->
  (forall gs, gradients_of d vs gs -> r = Ok (map Some (upper_triangle (stiffness_entry d J gs) ps))) ->
  exists m, r = Ok (map Some m) /\ is_stiffness_matrix d J vs fs m.
Proof.
  intros Hd HS HF HR. destruct (gradients_exist d vs Hd HS) as (gs & HG). exists (upper_triangle (stiffness_entry d J gs) ps). split; [auto|].
  apply (is_stiffness d J vs fs ps); auto. intros gs' HG'. rewrite (gradients_unique d vs gs gs' Hd HS HG HG'). reflexivity.
Qed.
Lemma stiffness1 vs J contrib : is_simplex 1 vs -> magnitude J (det 1 vs) ->
  (length contrib = 3%nat -> exists m, stiffness_1d_sym_P1_eval vs contrib = Ok (map Some m) /\ is_stiffness_matrix 1 J vs (shapesP1 1) m) /\
  (length contrib = 6%nat -> exists m, stiffness_1d_sym_P2_eval vs contrib = Ok (map Some m) /\ is_stiffness_matrix 1 J vs (shapesP2 1) m) /\
  (length contrib = 10%nat -> exists m, stiffness_1d_sym_P3_eval vs contrib = Ok (map Some m) /\ is_stiffness_matrix 1 J vs (shapesP3 1) m).
Proof.
  intros H HJ. split; [|split]; intros HC.
  - apply (stiff_by _ _ _ _ (polysP1 1)); auto using functions_P1. intros gs HG. apply stiffness_1_1; auto.
  - apply (stiff_by _ _ _ _ (polysP2 1)); auto. { apply functions_P2; lia. } intros gs HG. apply stiffness_1_2; auto.
  - apply (stiff_by _ _ _ _ (polysP3 1)); auto. { apply functions_P3; lia. } intros gs HG. apply stiffness_1_3; auto.
Qed.
Lemma stiffness2 vs J ip temp contrib : is_simplex 2 vs -> magnitude J (det 2 vs) -> shape 3 2 temp -> length ip = 6%nat ->
  (length contrib = 6%nat -> exists m, stiffness_2d_sym_P1_eval vs ip temp contrib = Ok (map Some m) /\ is_stiffness_matrix 2 J vs (shapesP1 2) m) /\
  (length contrib = 21%nat -> exists m, stiffness_2d_sym_P2_eval vs ip temp contrib = Ok (map Some m) /\ is_stiffness_matrix 2 J vs (shapesP2 2) m) /\
  (length contrib = 55%nat -> exists m, stiffness_2d_sym_P3_eval vs ip temp contrib = Ok (map Some m) /\ is_stiffness_matrix 2 J vs (shapesP3 2) m).
Proof.
  intros H HJ HT HI. split; [|split]; intros HC.
  - apply (stiff_by _ _ _ _ (polysP1 2)); auto using functions_P1. intros gs HG. apply stiffness_2_1; auto.
  - apply (stiff_by _ _ _ _ (polysP2 2)); auto. { apply functions_P2; lia. } intros gs HG. apply stiffness_2_2; auto.
  - apply (stiff_by _ _ _ _ (polysP3 2)); auto. { apply functions_P3; lia. } intros gs HG. apply stiffness_2_3; auto.
Qed.
Lemma stiffness3 vs J ip temp contrib : is_simplex 3 vs -> magnitude J (det 3 vs) -> shape 10 3 temp -> length ip = 10%nat ->
  (length contrib = 10%nat -> exists m, stiffness_3d_sym_P1_eval vs ip temp contrib = Ok (map Some m) /\ is_stiffness_matrix 3 J vs (shapesP1 3) m) /\
  (length contrib = 55%nat -> exists m, stiffness_3d_sym_P2_eval vs ip temp contrib = Ok (map Some m) /\ is_stiffness_matrix 3 J vs (shapesP2 3) m) /\
  (length contrib = 210%nat -> exists m, stiffness_3d_sym_P3_eval vs ip temp contrib = Ok (map Some m) /\ is_stiffness_matrix 3 J vs (shapesP3 3) m).
Proof.
  intros H HJ HT HI. split; [|split]; intros HC.
  - apply (stiff_by _ _ _ _ (polysP1 3)); auto using functions_P1. intros gs HG. apply stiffness_3_1; auto.
  - apply (stiff_by _ _ _ _ (polysP2 3)); auto. { apply functions_P2; lia. } intros gs HG. apply stiffness_3_2; auto.
  - apply (stiff_by _ _ _ _ (polysP3 3)); auto. { apply functions_P3; lia. } intros gs HG. apply stiffness_3_3; auto.
Qed.
Lemma mixed_all J :
  (forall vs contrib, is_simplex 1 vs -> magnitude J (det 1 vs) -> length contrib = 2%nat ->
    exists m, mass_1d_nonsym_P0_P1_eval vs contrib = Ok (map Some m) /\ is_mixed_mass_matrix 1 J [shapeP0] (shapesP1 1) m) /\
  (forall vs temp contrib, is_simplex 2 vs -> magnitude J (det 2 vs) -> shape 3 2 temp -> length contrib = 3%nat ->
    exists m, mass_2d_nonsym_P0_P1_eval vs temp contrib = Ok (map Some m) /\ is_mixed_mass_matrix 2 J [shapeP0] (shapesP1 2) m) /\
  (forall vs temp contrib, is_simplex 3 vs -> magnitude J (det 3 vs) -> shape 4 3 temp -> length contrib = 4%nat ->
    exists m, mass_3d_nonsym_P0_P1_eval vs temp contrib = Ok (map Some m) /\ is_mixed_mass_matrix 3 J [shapeP0] (shapesP1 3) m).
Proof.
  split; [|split]; intros.
  - eapply yields; [apply (mixed_1 vs J); auto|]. apply is_mixed; [apply functions_P0|apply functions_P1].
  - eapply yields; [apply (mixed_2 vs J); auto|]. apply is_mixed; [apply functions_P0|apply functions_P1].
  - eapply yields; [apply (mixed_3 vs J); auto|]. apply is_mixed; [apply functions_P0|apply functions_P1].
Qed.

Lemma lagrange_all d : (1 <= d <= 3)%nat ->
  (exists ps, functions d (shapesP1 d) ps /\ lagrange_basis d 1 (nodesP1 d) ps) /\
  (exists ps, functions d (shapesP2 d) ps /\ lagrange_basis d 2 (nodesP2 d) ps) /\
  (exists ps, functions d (shapesP3 d) ps /\ lagrange_basis d 3 (nodesP3 d) ps).
Proof.
  intros H. split; [|split].
  - exists (polysP1 d). split; [apply functions_P1|apply lagrange_P1; auto].
  - exists (polysP2 d). split; [apply functions_P2; auto|apply lagrange_P2; auto].
  - exists (polysP3 d). split; [apply functions_P3; auto|apply lagrange_P3; auto].
Qed.

Lemma drift_same d J gs b fs ps qs l : functions d fs ps -> functions d fs qs -> full_matrix (drift_entry d J gs b) ps l = full_matrix (drift_entry d J gs b) qs l.
Proof.
  intros H H'. apply (full_same (same_function d) eq).
  - intros p j q j' E <-. unfold drift_entry. rewrite (integral_same d p q E). reflexivity.
  - apply (functions_same d fs); auto.
  - clear. induction l; constructor; auto.
Qed.
Lemma drift_all coeff gs :
  (forall vs ps contrib, is_simplex 1 vs -> gradients_of 1 vs gs -> functions 1 (shapesP1 1) ps -> (forall p, length (coeff p) = 1%nat) -> length contrib = 4%nat ->
    drift_1d_P1_eval coeff vs contrib = Ok (map Some (full_matrix (drift_entry 1 (det 1 vs) gs (coeff (centroid 1 vs))) ps (seq 0 2)))) /\
  (forall vs ps contrib, is_simplex 2 vs -> gradients_of 2 vs gs -> functions 2 (shapesP1 2) ps -> (forall p, length (coeff p) = 2%nat) -> length contrib = 9%nat ->
    drift_2d_P1_eval coeff vs contrib = Ok (map Some (full_matrix (drift_entry 2 (det 2 vs) gs (coeff (centroid 2 vs))) ps (seq 0 3)))).
Proof.
  split; intros vs ps contrib H HG HF HL HC.
  - rewrite (drift_1 coeff vs gs) by auto. rewrite (drift_same 1 _ _ _ (shapesP1 1) (polysP1 1) ps); auto. apply functions_P1.
  - rewrite (drift_2 coeff vs gs) by auto. rewrite (drift_same 2 _ _ _ (shapesP1 2) (polysP1 2) ps); auto. apply functions_P1.
Qed.

(** ** Counterexamples *)
Definition w_big : list (list Qc) := [[qz 0; qz 0]; [qz 2; qz 0]; [qz 0; qz 2]].
Definition w_big_gs : list (list Qc) := [[qf 1 2; qz 0]; [qz 0; qf 1 2]].
Definition ws (n m : nat) : list (buf Qc) := repeat (repeat None m) n.
Lemma ws_shape n m : shape n m (ws n m).
Proof. split; [apply repeat_length|]. intros r H. apply repeat_spec in H as ->. apply repeat_length. Qed.

Ltac qcanon := apply Qc_is_canon; vm_compute; reflexivity.
Ltac fin3 := let k := fresh "k" in let m := fresh "m" in
  intros k m ? ?; destruct k as [|[|[|k]]]; try lia; destruct m as [|[|[|m]]]; try lia; qcanon.
Ltac rows_in := let g := fresh "g" in intros g H; repeat (destruct H as [<- | H]; [reflexivity|]); destruct H.
Ltac is_simp := split; [reflexivity|]; split; [rows_in|]; let E := fresh in intros E; apply (f_equal this) in E; vm_compute in E; discriminate E.
Ltac is_grads := split; [reflexivity|]; split; [rows_in|]; fin3.
Ltac is_mag1 := split; [vm_compute; discriminate|left; qcanon].
Ltac is_mag2 := split; [vm_compute; discriminate|right; qcanon].
Ltac neq := let E := fresh in intros E; apply (f_equal (fun l => map (option_map this) l)) in E; vm_compute in E; discriminate E.
Ltac neq1 := let E := fresh in intros E; apply (f_equal (fun l => map this l)) in E; vm_compute in E; discriminate E.
Ltac neq2 := let E := fresh in intros E; apply (f_equal (fun l => map (map (option_map this)) l)) in E; vm_compute in E; discriminate E.

Lemma big_simplex : is_simplex 2 w_big. Proof. is_simp. Qed.
Lemma big_grads : gradients_of 2 w_big w_big_gs. Proof. is_grads. Qed.
Lemma big_mag : magnitude (qz 4) (det 2 w_big). Proof. is_mag1. Qed.

Lemma curlcurl_wrong : exists vs J gs cell ip temp contrib m,
  is_simplex 2 vs /\ magnitude J (det 2 vs) /\ gradients_of 2 vs gs /\ length cell = 3%nat /\
  shape 3 2 temp /\ length ip = 6%nat /\ length contrib = 6%nat /\
  curlcurl_2d_sym_N1e_eval cell vs ip temp contrib = Ok (map Some m) /\
  m <> upper_triangle (curl_product J gs) (edge_fields cell).
Proof.
  exists w_big, (qz 4), w_big_gs, [0; 1; 2]%nat, (alloc 6), (ws 3 2), (alloc 6). eexists.
  split; [apply big_simplex|]. split; [apply big_mag|]. split; [apply big_grads|]. split; [reflexivity|]. split; [apply ws_shape|].
  split; [reflexivity|]. split; [reflexivity|]. split.
  - rewrite (curlcurl_N1e w_big (qz 4) w_big_gs); auto using big_simplex, big_mag, big_grads, ws_shape.
    rewrite <- (map_map (fun e => qz 4 * qz 4 * e) Some). reflexivity.
  - neq1.
Qed.

Definition w_flip : list (list Qc) := [[qz 0; qz 0]; [qz 0; qz 1]; [qz 1; qz 0]].
Definition w_flip_gs : list (list Qc) := [[qz 0; qz 1]; [qz 1; qz 0]].
Lemma flip_simplex : is_simplex 2 w_flip. Proof. is_simp. Qed.
Lemma flip_grads : gradients_of 2 w_flip w_flip_gs. Proof. is_grads. Qed.
Lemma flip_mag : magnitude (qz 1) (det 2 w_flip). Proof. is_mag2. Qed.

Lemma drift_wrong : exists b vs J gs contrib m,
  is_simplex 2 vs /\ magnitude J (det 2 vs) /\ gradients_of 2 vs gs /\ length b = 2%nat /\ length contrib = 9%nat /\
  drift_2d_P1_eval (fun _ => b) vs contrib = Ok (map Some m) /\
  forall ps, functions 2 (shapesP1 2) ps -> m <> full_matrix (drift_entry 2 J gs b) ps (seq 0 3).
Proof.
  exists [1; 0], w_flip, (qz 1), w_flip_gs, (alloc 9). eexists.
  split; [apply flip_simplex|]. split; [apply flip_mag|]. split; [apply flip_grads|]. split; [reflexivity|]. split; [reflexivity|]. split.
  - rewrite (drift_2 (fun _ => [1; 0]) w_flip w_flip_gs); auto using flip_simplex, flip_grads.
  - intros ps H. rewrite (drift_same 2 _ _ _ (shapesP1 2) ps (polysP1 2) _ H (functions_P1 2)). neq1.
Qed.

Definition w_seg : list (list Qc) := [[qz 0]; [qz 1]].
Definition w_tet : list (list Qc) := [[qz 0; qz 0; qz 0]; [qz 1; qz 0; qz 0]; [qz 0; qz 1; qz 0]; [qz 0; qz 0; qz 1]].
Definition w_tet_gs : list (list Qc) := [[qz 1; qz 0; qz 0]; [qz 0; qz 1; qz 0]; [qz 0; qz 0; qz 1]].
Lemma seg_simplex : is_simplex 1 w_seg. Proof. is_simp. Qed.
Lemma seg_grads : gradients_of 1 w_seg [[qz 1]]. Proof. is_grads. Qed.
Lemma seg_mag : magnitude (qz 1) (det 1 w_seg). Proof. is_mag1. Qed.
Lemma tet_simplex : is_simplex 3 w_tet. Proof. is_simp. Qed.
Lemma tet_grads : gradients_of 3 w_tet w_tet_gs. Proof. is_grads. Qed.
Lemma tet_mag : magnitude (qz 1) (det 3 w_tet). Proof. is_mag1. Qed.

Lemma gradients_wrong :
  (exists vs gs grad ip vol g ip', is_simplex 1 vs /\ gradients_of 1 vs gs /\ shape 2 1 grad /\ length ip = 3%nat /\
     gradients1D vs grad ip = Ok (vol, g, ip') /\ g <> map (map Some) (all_gradients 1 gs)) /\
  (exists vs gs grad ip vol g ip', is_simplex 2 vs /\ gradients_of 2 vs gs /\ shape 3 2 grad /\ length ip = 6%nat /\
     gradients2D vs grad ip = Ok (vol, g, ip') /\ g <> map (map Some) (all_gradients 2 gs)) /\
  (exists vs gs temp grad ip vol g ip' temp', is_simplex 3 vs /\ gradients_of 3 vs gs /\ shape 10 3 temp /\ shape 4 3 grad /\ length ip = 10%nat /\
     gradients3D vs temp grad ip = Ok (vol, g, ip', temp') /\ g <> map (map Some) (all_gradients 3 gs)).
Proof.
  split; [|split].
  - exists w_seg, [[qz 1]], (ws 2 1), (alloc 3). do 3 eexists. split; [apply seg_simplex|]. split; [apply seg_grads|]. split; [apply ws_shape|].
    split; [reflexivity|]. split; [apply (computations1 w_seg (qz 1) [[qz 1]]); auto using seg_simplex, seg_grads, seg_mag, ws_shape|neq2].
  - exists w_flip, w_flip_gs, (ws 3 2), (alloc 6). do 3 eexists. split; [apply flip_simplex|]. split; [apply flip_grads|]. split; [apply ws_shape|].
    split; [reflexivity|]. split; [apply (computations2 w_flip (qz 1) w_flip_gs); auto using flip_simplex, flip_grads, flip_mag, ws_shape|neq2].
  - destruct (computations3 w_tet (qz 1) w_tet_gs (ws 10 3) (ws 4 3) (alloc 10) tet_simplex tet_mag tet_grads (ws_shape _ _) (ws_shape _ _) eq_refl) as (t & E).
    exists w_tet, w_tet_gs, (ws 10 3), (ws 4 3), (alloc 10). do 4 eexists. split; [apply tet_simplex|]. split; [apply tet_grads|]. split; [apply ws_shape|].
    split; [apply ws_shape|]. split; [reflexivity|]. split; [exact E|neq2].
Qed.

(** ** The statement for simplexComputations *)
Lemma computations_all J gs :
  (forall vs grad ip, is_simplex 1 vs -> magnitude J (det 1 vs) -> gradients_of 1 vs gs -> shape 2 1 grad -> length ip = 3%nat ->
    gradients1D vs grad ip = Ok (J, map (map (fun x => Some (- (det 1 vs / J) * x))) (all_gradients 1 gs),
      map Some (upper_triangle (fun a b => J * vdot 1 a b) (all_gradients 1 gs)))) /\
  (forall vs grad ip, is_simplex 2 vs -> magnitude J (det 2 vs) -> gradients_of 2 vs gs -> shape 3 2 grad -> length ip = 6%nat ->
    gradients2D vs grad ip = Ok (J * one_half, map (map (fun x => Some (det 2 vs / J * x))) (all_gradients 2 gs),
      map Some (upper_triangle (fun a b => J * one_half * vdot 2 a b) (all_gradients 2 gs)))) /\
  (forall vs temp grad ip, is_simplex 3 vs -> magnitude J (det 3 vs) -> gradients_of 3 vs gs -> shape 10 3 temp -> shape 4 3 grad -> length ip = 10%nat ->
    exists temp', gradients3D vs temp grad ip = Ok (J / qz 6, map (map (fun x => Some (- (det 3 vs / J) * x))) (all_gradients 3 gs),
      map Some (upper_triangle (fun a b => J / qz 6 * vdot 3 a b) (all_gradients 3 gs)), temp')).
Proof.
  split; [|split].
  - intros vs grad ip H HJ HG HT HI. pose proof HG as (L & _). destruct (len1_list' gs L) as (g & ->). exact (computations1 vs J _ grad ip H HJ HG HT HI).
  - intros vs grad ip H HJ HG HT HI. pose proof HG as (L & _). destruct (len2_list gs L) as (g & g' & ->). exact (computations2 vs J _ grad ip H HJ HG HT HI).
  - intros vs temp grad ip H HJ HG HT HT' HI. pose proof HG as (L & _). destruct (len3_list gs L) as (g & g' & g'' & ->).
    exact (computations3 vs J _ temp grad ip H HJ HG HT HT' HI).
Qed.
