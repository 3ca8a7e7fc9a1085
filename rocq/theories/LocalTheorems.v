(** C31: local element matrices. *)
From Verif Require Import Util Lin MeshSpec MeshModel BaryModel BarySpec LocalModel LocalTables LocalSpec LocalProofs LocalProofs2 LocalProofs4 LocalProofs7 LocalProofs8.
Local Open Scope Qc_scope.

(** C31. The local shape functions of P1, P2 and P3 are polynomials of degree 1, 2 and 3
    that are 1 at their own node and 0 at the others. *)
Theorem C31_shape_functions d : (1 <= d <= 3)%nat ->
  (exists ps, functions d (shapesP1 d) ps /\ lagrange_basis d 1 (nodesP1 d) ps) /\
  (exists ps, functions d (shapesP2 d) ps /\ lagrange_basis d 2 (nodesP2 d) ps) /\
  (exists ps, functions d (shapesP3 d) ps /\ lagrange_basis d 3 (nodesP3 d) ps).
Proof. exact (lagrange_all d). Qed.
Print Assumptions C31_shape_functions.

(** C31. On every non-degenerate simplex, whatever the contents of the work space, the
    local mass matrices are the integrals of the products of the shape functions. *)
Theorem C31_mass_1D vs J contrib : is_simplex 1 vs -> magnitude J (det 1 vs) ->
  (length contrib = 1%nat -> exists m, mass_1d_sym_P0_eval vs contrib = Ok (map Some m) /\ is_mass_matrix 1 J [shapeP0] m) /\
  (length contrib = 3%nat -> exists m, mass_1d_sym_P1_eval vs contrib = Ok (map Some m) /\ is_mass_matrix 1 J (shapesP1 1) m) /\
  (length contrib = 6%nat -> exists m, mass_1d_sym_P2_eval vs contrib = Ok (map Some m) /\ is_mass_matrix 1 J (shapesP2 1) m) /\
  (length contrib = 10%nat -> exists m, mass_1d_sym_P3_eval vs contrib = Ok (map Some m) /\ is_mass_matrix 1 J (shapesP3 1) m).
Proof. exact (mass1 vs J contrib). Qed.
Print Assumptions C31_mass_1D.

Theorem C31_mass_2D vs J temp contrib : is_simplex 2 vs -> magnitude J (det 2 vs) -> shape 3 2 temp ->
  (length contrib = 1%nat -> exists m, mass_2d_sym_P0_eval vs temp contrib = Ok (map Some m) /\ is_mass_matrix 2 J [shapeP0] m) /\
  (length contrib = 6%nat -> exists m, mass_2d_sym_P1_eval vs temp contrib = Ok (map Some m) /\ is_mass_matrix 2 J (shapesP1 2) m) /\
  (length contrib = 21%nat -> exists m, mass_2d_sym_P2_eval vs temp contrib = Ok (map Some m) /\ is_mass_matrix 2 J (shapesP2 2) m) /\
  (length contrib = 55%nat -> exists m, mass_2d_sym_P3_eval vs temp contrib = Ok (map Some m) /\ is_mass_matrix 2 J (shapesP3 2) m).
Proof. exact (mass2 vs J temp contrib). Qed.
Print Assumptions C31_mass_2D.

Theorem C31_mass_3D vs J temp contrib : is_simplex 3 vs -> magnitude J (det 3 vs) -> shape 4 3 temp ->
  (length contrib = 1%nat -> exists m, mass_3d_sym_P0_eval vs temp contrib = Ok (map Some m) /\ is_mass_matrix 3 J [shapeP0] m) /\
  (length contrib = 10%nat -> exists m, mass_3d_sym_P1_eval vs temp contrib = Ok (map Some m) /\ is_mass_matrix 3 J (shapesP1 3) m) /\
  (length contrib = 55%nat -> exists m, mass_3d_sym_P2_eval vs temp contrib = Ok (map Some m) /\ is_mass_matrix 3 J (shapesP2 3) m) /\
  (length contrib = 210%nat -> exists m, mass_3d_sym_P3_eval vs temp contrib = Ok (map Some m) /\ is_mass_matrix 3 J (shapesP3 3) m).
Proof. exact (mass3 vs J temp contrib). Qed.
Print Assumptions C31_mass_3D.

(** C31. The same for P0 functions against P1 functions. *)
Theorem C31_mass_mixed J :
  (forall vs contrib, is_simplex 1 vs -> magnitude J (det 1 vs) -> length contrib = 2%nat ->
    exists m, mass_1d_nonsym_P0_P1_eval vs contrib = Ok (map Some m) /\ is_mixed_mass_matrix 1 J [shapeP0] (shapesP1 1) m) /\
  (forall vs temp contrib, is_simplex 2 vs -> magnitude J (det 2 vs) -> shape 3 2 temp -> length contrib = 3%nat ->
    exists m, mass_2d_nonsym_P0_P1_eval vs temp contrib = Ok (map Some m) /\ is_mixed_mass_matrix 2 J [shapeP0] (shapesP1 2) m) /\
  (forall vs temp contrib, is_simplex 3 vs -> magnitude J (det 3 vs) -> shape 4 3 temp -> length contrib = 4%nat ->
    exists m, mass_3d_nonsym_P0_P1_eval vs temp contrib = Ok (map Some m) /\ is_mixed_mass_matrix 3 J [shapeP0] (shapesP1 3) m).
Proof. exact (mixed_all J). Qed.
Print Assumptions C31_mass_mixed.

(** C31. The local stiffness matrices are the integrals of the products of the gradients
    of the shape functions. *)
Theorem C31_stiffness_1D vs J contrib : is_simplex 1 vs -> magnitude J (det 1 vs) ->
  (length contrib = 3%nat -> exists m, stiffness_1d_sym_P1_eval vs contrib = Ok (map Some m) /\ is_stiffness_matrix 1 J vs (shapesP1 1) m) /\
  (length contrib = 6%nat -> exists m, stiffness_1d_sym_P2_eval vs contrib = Ok (map Some m) /\ is_stiffness_matrix 1 J vs (shapesP2 1) m) /\
  (length contrib = 10%nat -> exists m, stiffness_1d_sym_P3_eval vs contrib = Ok (map Some m) /\ is_stiffness_matrix 1 J vs (shapesP3 1) m).
Proof. exact (stiffness1 vs J contrib). Qed.
Print Assumptions C31_stiffness_1D.

Theorem C31_stiffness_2D vs J ip temp contrib : is_simplex 2 vs -> magnitude J (det 2 vs) -> shape 3 2 temp -> length ip = 6%nat ->
  (length contrib = 6%nat -> exists m, stiffness_2d_sym_P1_eval vs ip temp contrib = Ok (map Some m) /\ is_stiffness_matrix 2 J vs (shapesP1 2) m) /\
  (length contrib = 21%nat -> exists m, stiffness_2d_sym_P2_eval vs ip temp contrib = Ok (map Some m) /\ is_stiffness_matrix 2 J vs (shapesP2 2) m) /\
  (length contrib = 55%nat -> exists m, stiffness_2d_sym_P3_eval vs ip temp contrib = Ok (map Some m) /\ is_stiffness_matrix 2 J vs (shapesP3 2) m).
Proof. exact (stiffness2 vs J ip temp contrib). Qed.
Print Assumptions C31_stiffness_2D.

Theorem C31_stiffness_3D vs J ip temp contrib : is_simplex 3 vs -> magnitude J (det 3 vs) -> shape 10 3 temp -> length ip = 10%nat ->
  (length contrib = 10%nat -> exists m, stiffness_3d_sym_P1_eval vs ip temp contrib = Ok (map Some m) /\ is_stiffness_matrix 3 J vs (shapesP1 3) m) /\
  (length contrib = 55%nat -> exists m, stiffness_3d_sym_P2_eval vs ip temp contrib = Ok (map Some m) /\ is_stiffness_matrix 3 J vs (shapesP2 3) m) /\
  (length contrib = 210%nat -> exists m, stiffness_3d_sym_P3_eval vs ip temp contrib = Ok (map Some m) /\ is_stiffness_matrix 3 J vs (shapesP3 3) m).
Proof. exact (stiffness3 vs J ip temp contrib). Qed.
Print Assumptions C31_stiffness_3D.

(** C31. Nedelec elements in the plane: the shape functions are the edge fields, and the
    mass matrix has the integrals of their products. *)
Theorem C31_N1e_functions cell gs x : length cell = 3%nat -> length gs = 2%nat -> (forall g, In g gs -> length g = 2%nat) ->
  map (fun f => f (bary 2 x) (all_gradients 2 gs)) (shapesN1e_2d cell) = map (fun v => field_value 2 gs v x) (edge_fields cell).
Proof. exact (N1e_fields cell gs x). Qed.
Print Assumptions C31_N1e_functions.

Theorem C31_mass_N1e vs J gs cell ip temp contrib : is_simplex 2 vs -> magnitude J (det 2 vs) -> gradients_of 2 vs gs -> length cell = 3%nat ->
  shape 3 2 temp -> length ip = 6%nat -> length contrib = 6%nat ->
  mass_2d_sym_N1e_eval cell vs ip temp contrib = Ok (map Some (upper_triangle (field_product 2 J gs) (edge_fields cell))).
Proof. exact (mass_N1e vs J gs cell ip temp contrib). Qed.
Print Assumptions C31_mass_N1e.

(** C31. Its curl-curl matrix is not the integral of the products of the curls: every
    entry is too large by the square of twice the area. *)
Theorem C31_curlcurl_N1e_scaled vs J gs cell ip temp contrib : is_simplex 2 vs -> magnitude J (det 2 vs) -> gradients_of 2 vs gs -> length cell = 3%nat ->
  shape 3 2 temp -> length ip = 6%nat -> length contrib = 6%nat ->
  curlcurl_2d_sym_N1e_eval cell vs ip temp contrib =
  Ok (map (fun e => Some (J * J * e)) (upper_triangle (curl_product J gs) (edge_fields cell))).
Proof. exact (curlcurl_N1e vs J gs cell ip temp contrib). Qed.
Print Assumptions C31_curlcurl_N1e_scaled.

Theorem C31_curlcurl_N1e_refuted : exists vs J gs cell ip temp contrib m,
  is_simplex 2 vs /\ magnitude J (det 2 vs) /\ gradients_of 2 vs gs /\ length cell = 3%nat /\
  shape 3 2 temp /\ length ip = 6%nat /\ length contrib = 6%nat /\
  curlcurl_2d_sym_N1e_eval cell vs ip temp contrib = Ok (map Some m) /\
  m <> upper_triangle (curl_product J gs) (edge_fields cell).
Proof. exact curlcurl_wrong. Qed.
Print Assumptions C31_curlcurl_N1e_refuted.

(** C31. The local discrete gradient takes the nodal values of a linear function to half
    of its gradient, and the discrete curl of a discrete gradient is zero. *)
Theorem C31_discrete_gradient cell contrib : length cell = 3%nat -> length contrib = 9%nat ->
  exists m, discrete_gradient_2d_N1e_P1_eval cell contrib = Ok (map Some m) /\ length m = 9%nat /\
  (forall gs x (u : nat -> Qc) k, length gs = 2%nat -> (forall g, In g gs -> length g = 2%nat) -> (k < 2)%nat ->
    sumf 3 (fun e => sumf 3 (fun j => vat m (e * 3 + j) * u j) * vat (field_value 2 gs (nth e (edge_fields cell) []) x) k) =
    Q2Qc (1 # 2) * sumf 3 (fun j => u j * vat (nth j (all_gradients 2 gs) []) k)) /\
  (forall contrib', length contrib' = 3%nat -> exists c, discrete_curl_2d_P0_N1e_eval cell contrib' = Ok (map Some c) /\ length c = 3%nat /\
    (forall j, (j < 3)%nat -> sumf 3 (fun e => vat c e * vat m (e * 3 + j)) = 0)).
Proof. exact (gradient_N1e cell contrib). Qed.
Print Assumptions C31_discrete_gradient.

(** C31. The discrete curl has the curls of the edge fields, times the determinant. *)
Theorem C31_discrete_curl vs gs cell contrib : is_simplex 2 vs -> gradients_of 2 vs gs -> length cell = 3%nat -> length contrib = 3%nat ->
  exists m, discrete_curl_2d_P0_N1e_eval cell contrib = Ok (map Some m) /\ length m = 3%nat /\
  forall x e, (e < 3)%nat -> value 2 (curl2 gs (nth e (edge_fields cell) [])) x * det 2 vs = vat m e.
Proof. exact (curl_N1e vs gs cell contrib). Qed.
Print Assumptions C31_discrete_curl.

(** C31. The volumes are the integrals of 1. *)
Theorem C31_volume vs J :
  (is_simplex 1 vs -> magnitude J (det 1 vs) -> simplexVolume1D vs = Ok (J * integral 1 (pconst 1 1))) /\
  (is_simplex 2 vs -> magnitude J (det 2 vs) -> volume2Dsimplex vs = Ok (J * integral 2 (pconst 2 1)) /\
    forall temp, shape 3 2 temp -> exists temp', simplexVolume2D vs temp = Ok (J * integral 2 (pconst 2 1), temp')) /\
  (is_simplex 3 vs -> magnitude J (det 3 vs) -> volume3Dsimplex vs = Ok (J * integral 3 (pconst 3 1)) /\
    forall temp, shape 4 3 temp -> exists temp', simplexVolume3D vs temp = Ok (J * integral 3 (pconst 3 1), temp')).
Proof. exact (volumes_all vs J). Qed.
Print Assumptions C31_volume.
Example C31_example_volume :
  show_one (volume2Dsimplex [[qz 1; qz 0]; [qz 4; qz 1]; [qz 2; qz 5]]) = Ok 7%Q /\
  show_one (volume3Dsimplex [[qz 1; qz 0; qz 0]; [qz 4; qz 1; qz 0]; [qz 2; qz 5; qz 1]; [qz 0; qz 0; qz 6]]) = Ok (83 # 6)%Q.
Proof. split; vm_compute; reflexivity. Qed.

(** C31. The volume and the inner products of simplexComputations are right for every
    simplex; the gradients are right up to a common sign: in one and three dimensions they
    are right for a negative determinant, in two for a positive one. *)
Theorem C31_gradients J gs :
  (forall vs grad ip, is_simplex 1 vs -> magnitude J (det 1 vs) -> gradients_of 1 vs gs -> shape 2 1 grad -> length ip = 3%nat ->
    gradients1D vs grad ip = Ok (J, map (map (fun x => Some (- (det 1 vs / J) * x))) (all_gradients 1 gs),
      map Some (upper_triangle (fun a b => J * vdot 1 a b) (all_gradients 1 gs)))) /\
  (forall vs grad ip, is_simplex 2 vs -> magnitude J (det 2 vs) -> gradients_of 2 vs gs -> shape 3 2 grad -> length ip = 6%nat ->
    gradients2D vs grad ip = Ok (J * one_half, map (map (fun x => Some (det 2 vs / J * x))) (all_gradients 2 gs),
      map Some (upper_triangle (fun a b => J * one_half * vdot 2 a b) (all_gradients 2 gs)))) /\
  (forall vs temp grad ip, is_simplex 3 vs -> magnitude J (det 3 vs) -> gradients_of 3 vs gs -> shape 10 3 temp -> shape 4 3 grad -> length ip = 10%nat ->
    exists temp', gradients3D vs temp grad ip = Ok (J / qz 6, map (map (fun x => Some (- (det 3 vs / J) * x))) (all_gradients 3 gs),
      map Some (upper_triangle (fun a b => J / qz 6 * vdot 3 a b) (all_gradients 3 gs)), temp')).
Proof. exact (computations_all J gs). Qed.
Print Assumptions C31_gradients.

Theorem C31_gradients_refuted :
  (exists vs gs grad ip vol g ip', is_simplex 1 vs /\ gradients_of 1 vs gs /\ shape 2 1 grad /\ length ip = 3%nat /\
     gradients1D vs grad ip = Ok (vol, g, ip') /\ g <> map (map Some) (all_gradients 1 gs)) /\
  (exists vs gs grad ip vol g ip', is_simplex 2 vs /\ gradients_of 2 vs gs /\ shape 3 2 grad /\ length ip = 6%nat /\
     gradients2D vs grad ip = Ok (vol, g, ip') /\ g <> map (map Some) (all_gradients 2 gs)) /\
  (exists vs gs temp grad ip vol g ip' temp', is_simplex 3 vs /\ gradients_of 3 vs gs /\ shape 10 3 temp /\ shape 4 3 grad /\ length ip = 10%nat /\
     gradients3D vs temp grad ip = Ok (vol, g, ip', temp') /\ g <> map (map Some) (all_gradients 3 gs)).
Proof. exact gradients_wrong. Qed.
Print Assumptions C31_gradients_refuted.

(** C31. The convection matrices are the integrals for the velocity at the centroid, with
    the determinant in place of its absolute value: right for positive orientation, and
    of the wrong sign otherwise. *)
Theorem C31_drift coeff gs :
  (forall vs ps contrib, is_simplex 1 vs -> gradients_of 1 vs gs -> functions 1 (shapesP1 1) ps -> (forall p, length (coeff p) = 1%nat) -> length contrib = 4%nat ->
    drift_1d_P1_eval coeff vs contrib = Ok (map Some (full_matrix (drift_entry 1 (det 1 vs) gs (coeff (centroid 1 vs))) ps (seq 0 2)))) /\
  (forall vs ps contrib, is_simplex 2 vs -> gradients_of 2 vs gs -> functions 2 (shapesP1 2) ps -> (forall p, length (coeff p) = 2%nat) -> length contrib = 9%nat ->
    drift_2d_P1_eval coeff vs contrib = Ok (map Some (full_matrix (drift_entry 2 (det 2 vs) gs (coeff (centroid 2 vs))) ps (seq 0 3)))).
Proof. exact (drift_all coeff gs). Qed.
Print Assumptions C31_drift.

Theorem C31_drift_refuted : exists b vs J gs contrib m,
  is_simplex 2 vs /\ magnitude J (det 2 vs) /\ gradients_of 2 vs gs /\ length b = 2%nat /\ length contrib = 9%nat /\
  drift_2d_P1_eval (fun _ => b) vs contrib = Ok (map Some m) /\
  forall ps, functions 2 (shapesP1 2) ps -> m <> full_matrix (drift_entry 2 J gs b) ps (seq 0 3).
Proof. exact drift_wrong. Qed.
Print Assumptions C31_drift_refuted.

(** A triangle of area 2, a segment and a tetrahedron, with their gradients. *)
Example C31_example_simplex :
  (is_simplex 2 w_big /\ magnitude (qz 4) (det 2 w_big) /\ gradients_of 2 w_big w_big_gs) /\
  (is_simplex 1 w_seg /\ magnitude (qz 1) (det 1 w_seg) /\ gradients_of 1 w_seg [[qz 1]]) /\
  (is_simplex 3 w_tet /\ magnitude (qz 1) (det 3 w_tet) /\ gradients_of 3 w_tet w_tet_gs) /\
  (is_simplex 2 w_flip /\ magnitude (qz 1) (det 2 w_flip) /\ gradients_of 2 w_flip w_flip_gs).
Proof.
  split; [|split; [|split]]; (split; [|split]); auto using big_simplex, big_mag, big_grads, seg_simplex, seg_mag, seg_grads, tet_simplex, tet_mag, tet_grads, flip_simplex, flip_mag, flip_grads.
Qed.
Example C31_example_work_space : shape 3 2 (ws 3 2) /\ shape 4 3 (ws 4 3) /\ shape 10 3 (ws 10 3).
Proof. split; [|split]; apply ws_shape. Qed.
Example C31_example_mass : show_buf (mass_2d_sym_P1_eval w_big (ws 3 2) (alloc 6)) =
  Ok [Some (1 # 3); Some (1 # 6); Some (1 # 6); Some (1 # 3); Some (1 # 6); Some (1 # 3)]%Q.
Proof. vm_compute. reflexivity. Qed.
Example C31_example_stiffness : show_buf (stiffness_2d_sym_P1_eval w_big (alloc 6) (ws 3 2) (alloc 6)) =
  Ok [Some 1; Some (-1 # 2); Some (-1 # 2); Some (1 # 2); Some 0; Some (1 # 2)]%Q.
Proof. vm_compute. reflexivity. Qed.
Example C31_example_mass_3D : show_buf (mass_3d_sym_P1_eval w_tet (ws 4 3) (alloc 10)) =
  Ok (map Some [1 # 60; 1 # 120; 1 # 120; 1 # 120; 1 # 60; 1 # 120; 1 # 120; 1 # 60; 1 # 120; 1 # 60]%Q).
Proof. vm_compute. reflexivity. Qed.
(** The integral of the square of the curl is 1/8 for this triangle. *)
Example C31_example_curlcurl : show_buf (curlcurl_2d_sym_N1e_eval [0; 1; 2]%nat w_big (alloc 6) (ws 3 2) (alloc 6)) =
  Ok (map Some [2; 2; - (2); 2; - (2); 2]%Q) /\
  map this (upper_triangle (curl_product (qz 4) w_big_gs) (edge_fields [0; 1; 2]%nat)) = [1 # 8; 1 # 8; - (1 # 8); 1 # 8; - (1 # 8); 1 # 8]%Q.
Proof. split; vm_compute; reflexivity. Qed.
Example C31_example_drift : show_buf (drift_1d_P1_eval (fun x => [vat x 0]) w_seg (alloc 4)) =
  Ok (map Some [- (1 # 4); 1 # 4; - (1 # 4); 1 # 4]%Q) /\ functions 1 (shapesP1 1) (polysP1 1).
Proof. split; [vm_compute; reflexivity|apply functions_P1]. Qed.
