(** The local mass and stiffness matrices: the routines [eval] of the files
    fem/PyNucleus_fem/mass_*.pxi and stiffness_*.pxi, transcribed line by line. The upper
    triangle is stored row by row. *)
From Verif Require Import Util Lin MeshModel BaryModel LocalModel.
Local Open Scope Qc_scope.

(** mass_1D_P0.pxi:8-17 *)
Definition mass_1d_sym_P0_eval (simplex : list (list Qc)) (contrib : buf Qc) : res (buf Qc) :=
  v <- simplexVolume1D simplex ;;
  let vol := 1 * v in
  put [vol] contrib.

(** mass_2D_P0.pxi:8-17 *)
Definition mass_2d_sym_P0_eval (simplex : list (list Qc)) (temp : list (buf Qc)) (contrib : buf Qc) : res (buf Qc) :=
  '(v, temp) <- simplexVolume2D simplex temp ;;
  let vol := 1 * v in
  put [vol] contrib.

(** mass_3D_P0.pxi:8-17 *)
Definition mass_3d_sym_P0_eval (simplex : list (list Qc)) (temp : list (buf Qc)) (contrib : buf Qc) : res (buf Qc) :=
  '(v, temp) <- simplexVolume3D simplex temp ;;
  let vol := 1 * v in
  put [vol] contrib.

(** mass_1D_P0_P1.pxi:8-18 *)
Definition mass_1d_nonsym_P0_P1_eval (simplex : list (list Qc)) (contrib : buf Qc) : res (buf Qc) :=
  v <- simplexVolume1D simplex ;;
  let vol := qf 1 2 * v in
  put [vol; vol] contrib.

(** mass_2D_P0_P1.pxi:8-19 *)
Definition mass_2d_nonsym_P0_P1_eval (simplex : list (list Qc)) (temp : list (buf Qc)) (contrib : buf Qc) : res (buf Qc) :=
  '(v, temp) <- simplexVolume2D simplex temp ;;
  let vol := qf 1 3 * v in
  put [vol; vol; vol] contrib.

(** mass_3D_P0_P1.pxi:8-20 *)
Definition mass_3d_nonsym_P0_P1_eval (simplex : list (list Qc)) (temp : list (buf Qc)) (contrib : buf Qc) : res (buf Qc) :=
  '(v, temp) <- simplexVolume3D simplex temp ;;
  let vol := qf 1 4 * v in
  put [vol; vol; vol; vol] contrib.

(** mass_1D_P1.pxi:8-19 *)
Definition mass_1d_sym_P1_eval (simplex : list (list Qc)) (contrib : buf Qc) : res (buf Qc) :=
  v <- simplexVolume1D simplex ;;
  let vol := qf 1 6 * v in
  put [qz 2 * vol; vol; qz 2 * vol] contrib.

(** mass_2D_P1.pxi:8-22 *)
Definition mass_2d_sym_P1_eval (simplex : list (list Qc)) (temp : list (buf Qc)) (contrib : buf Qc) : res (buf Qc) :=
  '(v, temp) <- simplexVolume2D simplex temp ;;
  let vol := qf 1 12 * v in
  put [qz 2 * vol; vol; vol; qz 2 * vol; vol; qz 2 * vol] contrib.

(** mass_3D_P1.pxi:8-26 *)
Definition mass_3d_sym_P1_eval (simplex : list (list Qc)) (temp : list (buf Qc)) (contrib : buf Qc) : res (buf Qc) :=
  '(v, temp) <- simplexVolume3D simplex temp ;;
  let vol := qf 1 20 * v in
  put [qz 2 * vol; vol; vol; vol; qz 2 * vol; vol; vol; qz 2 * vol; vol; qz 2 * vol] contrib.

(** stiffness_1D_P1.pxi:8-19 *)
Definition stiffness_1d_sym_P1_eval (simplex : list (list Qc)) (contrib : buf Qc) : res (buf Qc) :=
  v <- simplexVolume1D simplex ;;
  vol <- qdiv (1) v ;;
  put [vol; - vol; vol] contrib.

(** stiffness_2D_P1.pxi:8-29 *)
Definition stiffness_2d_sym_P1_eval (simplex : list (list Qc)) (innerProducts : buf Qc) (temp : list (buf Qc)) (contrib : buf Qc) : res (buf Qc) :=
  '(v, innerProducts, temp) <- simplexVolumeAndProducts2D simplex innerProducts temp ;;
  vol <- qdiv (qf 1 4) v ;;
  l00 <- rd innerProducts 0 ;; l01 <- rd innerProducts 1 ;; l02 <- rd innerProducts 2 ;; l11 <- rd innerProducts 3 ;; l12 <- rd innerProducts 4 ;; l22 <- rd innerProducts 5 ;;
  put [l00 * vol; l01 * vol; l02 * vol; l11 * vol; l12 * vol; l22 * vol] contrib.

(** stiffness_3D_P1.pxi:8-37 *)
Definition stiffness_3d_sym_P1_eval (simplex : list (list Qc)) (innerProducts : buf Qc) (temp : list (buf Qc)) (contrib : buf Qc) : res (buf Qc) :=
  '(v, innerProducts, temp) <- simplexVolumeAndProducts3D simplex innerProducts temp ;;
  vol <- qdiv (qf 1 36) v ;;
  l00 <- rd innerProducts 0 ;; l01 <- rd innerProducts 1 ;; l02 <- rd innerProducts 2 ;; l03 <- rd innerProducts 3 ;; l11 <- rd innerProducts 4 ;; l12 <- rd innerProducts 5 ;; l13 <- rd innerProducts 6 ;; l22 <- rd innerProducts 7 ;; l23 <- rd innerProducts 8 ;; l33 <- rd innerProducts 9 ;;
  put [l00 * vol; l01 * vol; l02 * vol; l03 * vol; l11 * vol; l12 * vol; l13 * vol; l22 * vol; l23 * vol;
    l33 * vol] contrib.

(** mass_1D_P2.pxi:8-22 *)
Definition mass_1d_sym_P2_eval (simplex : list (list Qc)) (contrib : buf Qc) : res (buf Qc) :=
  v <- simplexVolume1D simplex ;;
  let vol := qf 1 30 * v in
  put [qz 4 * vol; - vol; qz 2 * vol; qz 4 * vol; qz 2 * vol; qz 16 * vol] contrib.

(** mass_2D_P2.pxi:8-37 *)
Definition mass_2d_sym_P2_eval (simplex : list (list Qc)) (temp : list (buf Qc)) (contrib : buf Qc) : res (buf Qc) :=
  '(v, temp) <- simplexVolume2D simplex temp ;;
  let vol := qf 1 180 * v in
  put [qz 6 * vol; - vol; - vol; 0; qz (-4) * vol; 0; qz 6 * vol; - vol; 0; 0; qz (-4) * vol; qz 6 * vol;
    qz (-4) * vol; 0; 0; qz 32 * vol; qz 16 * vol; qz 16 * vol; qz 32 * vol; qz 16 * vol; qz 32 * vol] contrib.

(** mass_3D_P2.pxi:8-71 *)
Definition mass_3d_sym_P2_eval (simplex : list (list Qc)) (temp : list (buf Qc)) (contrib : buf Qc) : res (buf Qc) :=
  '(v, temp) <- simplexVolume3D simplex temp ;;
  let vol := qf 1 420 * v in
  put [qz 6 * vol; vol; vol; vol; qz (-4) * vol; qz (-6) * vol; qz (-4) * vol; qz (-4) * vol; qz (-6) * vol;
    qz (-6) * vol; qz 6 * vol; vol; vol; qz (-4) * vol; qz (-4) * vol; qz (-6) * vol; qz (-6) * vol; qz (-4) * vol;
    qz (-6) * vol; qz 6 * vol; vol; qz (-6) * vol; qz (-4) * vol; qz (-4) * vol; qz (-6) * vol; qz (-6) * vol;
    qz (-4) * vol; qz 6 * vol; qz (-6) * vol; qz (-6) * vol; qz (-6) * vol; qz (-4) * vol; qz (-4) * vol;
    qz (-4) * vol; qz 32 * vol; qz 16 * vol; qz 16 * vol; qz 16 * vol; qz 16 * vol; qz 8 * vol; qz 32 * vol;
    qz 16 * vol; qz 8 * vol; qz 16 * vol; qz 16 * vol; qz 32 * vol; qz 16 * vol; qz 8 * vol; qz 16 * vol; qz 32 * vol;
    qz 16 * vol; qz 16 * vol; qz 32 * vol; qz 16 * vol; qz 32 * vol] contrib.

(** stiffness_1D_P2.pxi:8-22 *)
Definition stiffness_1d_sym_P2_eval (simplex : list (list Qc)) (contrib : buf Qc) : res (buf Qc) :=
  v <- simplexVolume1D simplex ;;
  vol <- qdiv (qf 1 3) v ;;
  put [qz 7 * vol; vol; qz (-8) * vol; qz 7 * vol; qz (-8) * vol; qz 16 * vol] contrib.

(** stiffness_2D_P2.pxi:8-44 *)
Definition stiffness_2d_sym_P2_eval (simplex : list (list Qc)) (innerProducts : buf Qc) (temp : list (buf Qc)) (contrib : buf Qc) : res (buf Qc) :=
  '(v, innerProducts, temp) <- simplexVolumeAndProducts2D simplex innerProducts temp ;;
  vol <- qdiv (qf 1 12) v ;;
  l00 <- rd innerProducts 0 ;; l01 <- rd innerProducts 1 ;; l02 <- rd innerProducts 2 ;; l11 <- rd innerProducts 3 ;; l12 <- rd innerProducts 4 ;; l22 <- rd innerProducts 5 ;;
  put [qz 3 * l00 * vol; - l01 * vol; - l02 * vol; qz 4 * l01 * vol; 0; qz 4 * l02 * vol; qz 3 * l11 * vol;
    - l12 * vol; qz 4 * l01 * vol; qz 4 * l12 * vol; 0; qz 3 * l22 * vol; 0; qz 4 * l12 * vol; qz 4 * l02 * vol;
    qz 8 * vol * (l00 + l01 + l11); qz 4 * vol * (l01 + qz 2 * l02 + l11 + l12);
    qz 4 * vol * (l00 + l01 + l02 + qz 2 * l12); qz 8 * vol * (l11 + l12 + l22);
    qz 4 * vol * (qz 2 * l01 + l02 + l12 + l22); qz 8 * vol * (l00 + l02 + l22)] contrib.

(** stiffness_3D_P2.pxi:8-82 *)
Definition stiffness_3d_sym_P2_eval (simplex : list (list Qc)) (innerProducts : buf Qc) (temp : list (buf Qc)) (contrib : buf Qc) : res (buf Qc) :=
  '(v, innerProducts, temp) <- simplexVolumeAndProducts3D simplex innerProducts temp ;;
  vol <- qdiv (qf 1 180) v ;;
  l00 <- rd innerProducts 0 ;; l01 <- rd innerProducts 1 ;; l02 <- rd innerProducts 2 ;; l03 <- rd innerProducts 3 ;; l11 <- rd innerProducts 4 ;; l12 <- rd innerProducts 5 ;; l13 <- rd innerProducts 6 ;; l22 <- rd innerProducts 7 ;; l23 <- rd innerProducts 8 ;; l33 <- rd innerProducts 9 ;;
  put [qz 3 * l00 * vol; - l01 * vol; - l02 * vol; - l03 * vol; vol * (- l00 + qz 3 * l01); - vol * (l01 + l02);
    vol * (- l00 + qz 3 * l02); vol * (- l00 + qz 3 * l03); - vol * (l01 + l03); - vol * (l02 + l03);
    qz 3 * l11 * vol; - l12 * vol; - l13 * vol; vol * (qz 3 * l01 - l11); vol * (- l11 + qz 3 * l12);
    - vol * (l01 + l12); - vol * (l01 + l13); vol * (- l11 + qz 3 * l13); - vol * (l12 + l13); qz 3 * l22 * vol;
    - l23 * vol; - vol * (l02 + l12); vol * (qz 3 * l12 - l22); vol * (qz 3 * l02 - l22); - vol * (l02 + l23);
    - vol * (l12 + l23); vol * (- l22 + qz 3 * l23); qz 3 * l33 * vol; - vol * (l03 + l13); - vol * (l13 + l23);
    - vol * (l03 + l23); vol * (qz 3 * l03 - l33); vol * (qz 3 * l13 - l33); vol * (qz 3 * l23 - l33);
    qz 8 * vol * (l00 + l01 + l11); qz 4 * vol * (l01 + qz 2 * l02 + l11 + l12);
    qz 4 * vol * (l00 + l01 + l02 + qz 2 * l12); qz 4 * vol * (l00 + l01 + l03 + qz 2 * l13);
    qz 4 * vol * (l01 + qz 2 * l03 + l11 + l13); qz 4 * vol * (l02 + l03 + l12 + l13); qz 8 * vol * (l11 + l12 + l22);
    qz 4 * vol * (qz 2 * l01 + l02 + l12 + l22); qz 4 * vol * (l01 + l02 + l13 + l23);
    qz 4 * vol * (l11 + l12 + l13 + qz 2 * l23); qz 4 * vol * (l12 + qz 2 * l13 + l22 + l23);
    qz 8 * vol * (l00 + l02 + l22); qz 4 * vol * (l00 + l02 + l03 + qz 2 * l23); qz 4 * vol * (l01 + l03 + l12 + l23);
    qz 4 * vol * (l02 + qz 2 * l03 + l22 + l23); qz 8 * vol * (l00 + l03 + l33);
    qz 4 * vol * (qz 2 * l01 + l03 + l13 + l33); qz 4 * vol * (qz 2 * l02 + l03 + l23 + l33);
    qz 8 * vol * (l11 + l13 + l33); qz 4 * vol * (qz 2 * l12 + l13 + l23 + l33);
    qz 8 * vol * (l22 + l23 + l33)] contrib.

(** mass_1D_P3.pxi:8-26 *)
Definition mass_1d_sym_P3_eval (simplex : list (list Qc)) (contrib : buf Qc) : res (buf Qc) :=
  v <- simplexVolume1D simplex ;;
  let vol := qf 1 1680 * v in
  put [qz 128 * vol; qz 19 * vol; qz 99 * vol; qz (-36) * vol; qz 128 * vol; qz (-36) * vol; qz 99 * vol;
    qz 648 * vol; qz (-81) * vol; qz 648 * vol] contrib.

(** mass_2D_P3.pxi:8-71 *)
Definition mass_2d_sym_P3_eval (simplex : list (list Qc)) (temp : list (buf Qc)) (contrib : buf Qc) : res (buf Qc) :=
  '(v, temp) <- simplexVolume2D simplex temp ;;
  let vol := qf 1 6720 * v in
  put [qz 76 * vol; qz 11 * vol; qz 11 * vol; qz 18 * vol; 0; qz 27 * vol; qz 27 * vol; 0; qz 18 * vol; qz 36 * vol;
    qz 76 * vol; qz 11 * vol; 0; qz 18 * vol; qz 18 * vol; 0; qz 27 * vol; qz 27 * vol; qz 36 * vol; qz 76 * vol;
    qz 27 * vol; qz 27 * vol; 0; qz 18 * vol; qz 18 * vol; 0; qz 36 * vol; qz 540 * vol; qz (-189) * vol;
    qz (-135) * vol; qz (-54) * vol; qz (-135) * vol; qz 270 * vol; qz 162 * vol; qz 540 * vol; qz 270 * vol;
    qz (-135) * vol; qz (-54) * vol; qz (-135) * vol; qz 162 * vol; qz 540 * vol; qz (-189) * vol; qz (-135) * vol;
    qz (-54) * vol; qz 162 * vol; qz 540 * vol; qz 270 * vol; qz (-135) * vol; qz 162 * vol; qz 540 * vol;
    qz (-189) * vol; qz 162 * vol; qz 540 * vol; qz 162 * vol; qz 1944 * vol] contrib.

(** mass_3D_P3.pxi:8-226 *)
Definition mass_3d_sym_P3_eval (simplex : list (list Qc)) (temp : list (buf Qc)) (contrib : buf Qc) : res (buf Qc) :=
  '(v, temp) <- simplexVolume3D simplex temp ;;
  let vol := qf 1 4480 * v in
  put [qz 16 * vol; qz 2 * vol; qz 2 * vol; qz 2 * vol; qz (-12) * vol; qz 6 * vol; qz 3 * vol; qz 3 * vol;
    qz 6 * vol; qz (-12) * vol; qz (-12) * vol; qz 6 * vol; qz 3 * vol; qz 3 * vol; qz 3 * vol; qz 3 * vol;
    qz 18 * vol; qz 18 * vol; qz 36 * vol; qz 18 * vol; qz 16 * vol; qz 2 * vol; qz 2 * vol; qz 6 * vol;
    qz (-12) * vol; qz (-12) * vol; qz 6 * vol; qz 3 * vol; qz 3 * vol; qz 3 * vol; qz 3 * vol; qz (-12) * vol;
    qz 6 * vol; qz 3 * vol; qz 3 * vol; qz 18 * vol; qz 18 * vol; qz 18 * vol; qz 36 * vol; qz 16 * vol; qz 2 * vol;
    qz 3 * vol; qz 3 * vol; qz 6 * vol; qz (-12) * vol; qz (-12) * vol; qz 6 * vol; qz 3 * vol; qz 3 * vol;
    qz 3 * vol; qz 3 * vol; qz (-12) * vol; qz 6 * vol; qz 18 * vol; qz 36 * vol; qz 18 * vol; qz 18 * vol;
    qz 16 * vol; qz 3 * vol; qz 3 * vol; qz 3 * vol; qz 3 * vol; qz 3 * vol; qz 3 * vol; qz 6 * vol; qz (-12) * vol;
    qz 6 * vol; qz (-12) * vol; qz 6 * vol; qz (-12) * vol; qz 36 * vol; qz 18 * vol; qz 18 * vol; qz 18 * vol;
    qz 108 * vol; qz (-54) * vol; qz (-27) * vol; 0; qz (-27) * vol; qz 54 * vol; qz 54 * vol; qz (-27) * vol;
    qz (-27) * vol; 0; 0; 0; 0; 0; qz (-54) * vol; 0; qz 108 * vol; qz 54 * vol; qz (-27) * vol; 0; qz (-27) * vol;
    qz (-27) * vol; 0; qz 54 * vol; qz (-27) * vol; 0; 0; 0; 0; 0; qz (-54) * vol; qz 108 * vol; qz (-54) * vol;
    qz (-27) * vol; 0; 0; 0; qz 54 * vol; qz (-27) * vol; qz (-27) * vol; 0; 0; 0; 0; qz (-54) * vol; qz 108 * vol;
    qz 54 * vol; qz (-27) * vol; 0; 0; qz (-27) * vol; 0; qz 54 * vol; qz (-27) * vol; 0; qz (-54) * vol; 0; 0;
    qz 108 * vol; qz (-54) * vol; qz (-27) * vol; 0; 0; 0; qz 54 * vol; qz (-27) * vol; 0; qz (-54) * vol; 0; 0;
    qz 108 * vol; qz 54 * vol; qz (-27) * vol; 0; 0; qz (-27) * vol; 0; 0; 0; qz (-54) * vol; 0; qz 108 * vol;
    qz (-54) * vol; 0; qz (-27) * vol; 0; qz (-27) * vol; 0; 0; qz (-54) * vol; 0; qz 108 * vol; qz (-27) * vol;
    qz 54 * vol; qz (-27) * vol; qz 54 * vol; qz (-54) * vol; 0; 0; 0; qz 108 * vol; qz (-54) * vol; 0;
    qz (-27) * vol; 0; 0; 0; qz (-54) * vol; qz 108 * vol; qz (-27) * vol; qz 54 * vol; qz (-54) * vol; 0; 0; 0;
    qz 108 * vol; qz (-54) * vol; 0; qz (-54) * vol; 0; 0; qz 108 * vol; qz (-54) * vol; 0; 0; 0; qz 432 * vol;
    qz 216 * vol; qz 216 * vol; qz 216 * vol; qz 432 * vol; qz 216 * vol; qz 216 * vol; qz 432 * vol; qz 216 * vol;
    qz 432 * vol] contrib.

(** stiffness_1D_P3.pxi:8-26 *)
Definition stiffness_1d_sym_P3_eval (simplex : list (list Qc)) (contrib : buf Qc) : res (buf Qc) :=
  v <- simplexVolume1D simplex ;;
  vol <- qdiv (qf 1 40) v ;;
  put [qz 148 * vol; qz (-13) * vol; qz (-189) * vol; qz 54 * vol; qz 148 * vol; qz 54 * vol; qz (-189) * vol;
    qz 432 * vol; qz (-297) * vol; qz 432 * vol] contrib.

(** stiffness_2D_P3.pxi:8-78 *)
Definition stiffness_2d_sym_P3_eval (simplex : list (list Qc)) (innerProducts : buf Qc) (temp : list (buf Qc)) (contrib : buf Qc) : res (buf Qc) :=
  '(v, innerProducts, temp) <- simplexVolumeAndProducts2D simplex innerProducts temp ;;
  vol <- qdiv (qf 1 320) v ;;
  l00 <- rd innerProducts 0 ;; l01 <- rd innerProducts 1 ;; l02 <- rd innerProducts 2 ;; l11 <- rd innerProducts 3 ;; l12 <- rd innerProducts 4 ;; l22 <- rd innerProducts 5 ;;
  put [qz 68 * l00 * vol; qz 14 * l01 * vol; qz 14 * l02 * vol; qz 6 * vol * (l00 + qz 19 * l01);
    qz 6 * vol * (l00 - qz 8 * l01); qz 6 * vol * (l01 + l02); qz 6 * vol * (l01 + l02);
    qz 6 * vol * (l00 - qz 8 * l02); qz 6 * vol * (l00 + qz 19 * l02); qz 18 * vol * (l00 + l01 + l02);
    qz 68 * l11 * vol; qz 14 * l12 * vol; qz 6 * vol * (qz (-8) * l01 + l11); qz 6 * vol * (qz 19 * l01 + l11);
    qz 6 * vol * (l11 + qz 19 * l12); qz 6 * vol * (l11 - qz 8 * l12); qz 6 * vol * (l01 + l12);
    qz 6 * vol * (l01 + l12); qz 18 * vol * (l01 + l11 + l12); qz 68 * l22 * vol; qz 6 * vol * (l02 + l12);
    qz 6 * vol * (l02 + l12); qz 6 * vol * (qz (-8) * l12 + l22); qz 6 * vol * (qz 19 * l12 + l22);
    qz 6 * vol * (qz 19 * l02 + l22); qz 6 * vol * (qz (-8) * l02 + l22); qz 18 * vol * (l02 + l12 + l22);
    qz 270 * vol * (l00 + l01 + l11); qz 54 * vol * (- l00 + qz 2 * l01 - l11);
    qz (-27) * vol * (l01 + qz 2 * l02 + l11 + l12); qz (-27) * vol * (l01 + qz 2 * l02 + l11 + l12);
    qz (-27) * vol * (l00 + l01 + l02 + qz 2 * l12); qz 135 * vol * (l00 + l01 + l02 + qz 2 * l12);
    qz 162 * vol * (l01 + qz 2 * l02 + l11 + l12); qz 270 * vol * (l00 + l01 + l11);
    qz 135 * vol * (l01 + qz 2 * l02 + l11 + l12); qz (-27) * vol * (l01 + qz 2 * l02 + l11 + l12);
    qz (-27) * vol * (l00 + l01 + l02 + qz 2 * l12); qz (-27) * vol * (l00 + l01 + l02 + qz 2 * l12);
    qz 162 * vol * (l00 + l01 + l02 + qz 2 * l12); qz 270 * vol * (l11 + l12 + l22);
    qz 54 * vol * (- l11 + qz 2 * l12 - l22); qz (-27) * vol * (qz 2 * l01 + l02 + l12 + l22);
    qz (-27) * vol * (qz 2 * l01 + l02 + l12 + l22); qz 162 * vol * (qz 2 * l01 + l02 + l12 + l22);
    qz 270 * vol * (l11 + l12 + l22); qz 135 * vol * (qz 2 * l01 + l02 + l12 + l22);
    qz (-27) * vol * (qz 2 * l01 + l02 + l12 + l22); qz 162 * vol * (l01 + qz 2 * l02 + l11 + l12);
    qz 270 * vol * (l00 + l02 + l22); qz 54 * vol * (- l00 + qz 2 * l02 - l22);
    qz 162 * vol * (l00 + l01 + l02 + qz 2 * l12); qz 270 * vol * (l00 + l02 + l22);
    qz 162 * vol * (qz 2 * l01 + l02 + l12 + l22); qz 648 * vol * (l00 + l01 + l02 + l11 + l12 + l22)] contrib.

(** stiffness_3D_P3.pxi:8-237 *)
Definition stiffness_3d_sym_P3_eval (simplex : list (list Qc)) (innerProducts : buf Qc) (temp : list (buf Qc)) (contrib : buf Qc) : res (buf Qc) :=
  '(v, innerProducts, temp) <- simplexVolumeAndProducts3D simplex innerProducts temp ;;
  vol <- qdiv (qf 1 20160) v ;;
  l00 <- rd innerProducts 0 ;; l01 <- rd innerProducts 1 ;; l02 <- rd innerProducts 2 ;; l03 <- rd innerProducts 3 ;; l11 <- rd innerProducts 4 ;; l12 <- rd innerProducts 5 ;; l13 <- rd innerProducts 6 ;; l22 <- rd innerProducts 7 ;; l23 <- rd innerProducts 8 ;; l33 <- rd innerProducts 9 ;;
  put [qz 200 * l00 * vol; qz 38 * l01 * vol; qz 38 * l02 * vol; qz 38 * l03 * vol;
    qz 9 * vol * (qz (-13) * l00 + qz 23 * l01); qz 9 * vol * (qz 5 * l00 - qz 13 * l01); qz 45 * vol * (l01 + l02);
    qz 45 * vol * (l01 + l02); qz 9 * vol * (qz 5 * l00 - qz 13 * l02); qz 9 * vol * (qz (-13) * l00 + qz 23 * l02);
    qz 9 * vol * (qz (-13) * l00 + qz 23 * l03); qz 9 * vol * (qz 5 * l00 - qz 13 * l03); qz 45 * vol * (l01 + l03);
    qz 45 * vol * (l01 + l03); qz 45 * vol * (l02 + l03); qz 45 * vol * (l02 + l03);
    qz 54 * vol * (qz 2 * l00 - l01 - l02); qz 54 * vol * (qz 2 * l00 - l01 - l03); qz 108 * vol * (l01 + l02 + l03);
    qz 54 * vol * (qz 2 * l00 - l02 - l03); qz 200 * l11 * vol; qz 38 * l12 * vol; qz 38 * l13 * vol;
    qz 9 * vol * (qz (-13) * l01 + qz 5 * l11); qz 9 * vol * (qz 23 * l01 - qz 13 * l11);
    qz 9 * vol * (qz (-13) * l11 + qz 23 * l12); qz 9 * vol * (qz 5 * l11 - qz 13 * l12); qz 45 * vol * (l01 + l12);
    qz 45 * vol * (l01 + l12); qz 45 * vol * (l01 + l13); qz 45 * vol * (l01 + l13);
    qz 9 * vol * (qz (-13) * l11 + qz 23 * l13); qz 9 * vol * (qz 5 * l11 - qz 13 * l13); qz 45 * vol * (l12 + l13);
    qz 45 * vol * (l12 + l13); qz 54 * vol * (- l01 + qz 2 * l11 - l12); qz 54 * vol * (- l01 + qz 2 * l11 - l13);
    qz 54 * vol * (qz 2 * l11 - l12 - l13); qz 108 * vol * (l01 + l12 + l13); qz 200 * l22 * vol; qz 38 * l23 * vol;
    qz 45 * vol * (l02 + l12); qz 45 * vol * (l02 + l12); qz 9 * vol * (qz (-13) * l12 + qz 5 * l22);
    qz 9 * vol * (qz 23 * l12 - qz 13 * l22); qz 9 * vol * (qz 23 * l02 - qz 13 * l22);
    qz 9 * vol * (qz (-13) * l02 + qz 5 * l22); qz 45 * vol * (l02 + l23); qz 45 * vol * (l02 + l23);
    qz 45 * vol * (l12 + l23); qz 45 * vol * (l12 + l23); qz 9 * vol * (qz (-13) * l22 + qz 23 * l23);
    qz 9 * vol * (qz 5 * l22 - qz 13 * l23); qz 54 * vol * (- l02 - l12 + qz 2 * l22);
    qz 108 * vol * (l02 + l12 + l23); qz 54 * vol * (- l12 + qz 2 * l22 - l23);
    qz 54 * vol * (- l02 + qz 2 * l22 - l23); qz 200 * l33 * vol; qz 45 * vol * (l03 + l13);
    qz 45 * vol * (l03 + l13); qz 45 * vol * (l13 + l23); qz 45 * vol * (l13 + l23); qz 45 * vol * (l03 + l23);
    qz 45 * vol * (l03 + l23); qz 9 * vol * (qz (-13) * l03 + qz 5 * l33); qz 9 * vol * (qz 23 * l03 - qz 13 * l33);
    qz 9 * vol * (qz (-13) * l13 + qz 5 * l33); qz 9 * vol * (qz 23 * l13 - qz 13 * l33);
    qz 9 * vol * (qz (-13) * l23 + qz 5 * l33); qz 9 * vol * (qz 23 * l23 - qz 13 * l33);
    qz 108 * vol * (l03 + l13 + l23); qz 54 * vol * (- l03 - l13 + qz 2 * l33);
    qz 54 * vol * (- l13 - l23 + qz 2 * l33); qz 54 * vol * (- l03 - l23 + qz 2 * l33);
    qz 162 * vol * (qz 5 * l00 + qz 4 * l01 + qz 4 * l11); qz 81 * vol * (qz (-3) * l00 + qz 2 * l01 - qz 3 * l11);
    qz (-81) * vol * (qz 2 * l01 + qz 3 * l02 + l11 + l12); qz (-81) * vol * (l01 + qz 2 * l02 + l11 + l12);
    qz (-81) * vol * (l00 + l01 + qz 2 * l02 + qz 3 * l12);
    qz 81 * vol * (qz 5 * l00 + qz 4 * l01 + qz 4 * l02 + qz 8 * l12);
    qz 81 * vol * (qz 5 * l00 + qz 4 * l01 + qz 4 * l03 + qz 8 * l13);
    qz (-81) * vol * (l00 + l01 + qz 2 * l03 + qz 3 * l13); qz (-81) * vol * (qz 2 * l01 + qz 3 * l03 + l11 + l13);
    qz (-81) * vol * (l01 + qz 2 * l03 + l11 + l13); qz (-81) * vol * (l02 + l03 + l12 + l13);
    qz (-81) * vol * (l02 + l03 + l12 + l13);
    qz 162 * vol * (- l00 + qz 2 * l01 + qz 5 * l02 + qz 2 * l11 + qz 2 * l12);
    qz 162 * vol * (- l00 + qz 2 * l01 + qz 5 * l03 + qz 2 * l11 + qz 2 * l13);
    qz (-81) * vol * (l01 + qz 2 * l02 + qz 2 * l03 + l11 + l12 + l13);
    qz 81 * vol * (- l00 - l01 + qz 5 * l02 + qz 5 * l03 + qz 4 * l12 + qz 4 * l13);
    qz 162 * vol * (qz 4 * l00 + qz 4 * l01 + qz 5 * l11);
    qz 81 * vol * (qz 4 * l01 + qz 8 * l02 + qz 5 * l11 + qz 4 * l12);
    qz (-81) * vol * (l01 + qz 3 * l02 + l11 + qz 2 * l12); qz (-81) * vol * (l00 + l01 + l02 + qz 2 * l12);
    qz (-81) * vol * (l00 + qz 2 * l01 + l02 + qz 3 * l12); qz (-81) * vol * (l00 + qz 2 * l01 + l03 + qz 3 * l13);
    qz (-81) * vol * (l00 + l01 + l03 + qz 2 * l13);
    qz 81 * vol * (qz 4 * l01 + qz 8 * l03 + qz 5 * l11 + qz 4 * l13);
    qz (-81) * vol * (l01 + qz 3 * l03 + l11 + qz 2 * l13); qz (-81) * vol * (l02 + l03 + l12 + l13);
    qz (-81) * vol * (l02 + l03 + l12 + l13);
    qz 162 * vol * (qz 2 * l00 + qz 2 * l01 + qz 2 * l02 - l11 + qz 5 * l12);
    qz 162 * vol * (qz 2 * l00 + qz 2 * l01 + qz 2 * l03 - l11 + qz 5 * l13);
    qz 81 * vol * (- l01 + qz 4 * l02 + qz 4 * l03 - l11 + qz 5 * l12 + qz 5 * l13);
    qz (-81) * vol * (l00 + l01 + l02 + l03 + qz 2 * l12 + qz 2 * l13);
    qz 162 * vol * (qz 5 * l11 + qz 4 * l12 + qz 4 * l22); qz 81 * vol * (qz (-3) * l11 + qz 2 * l12 - qz 3 * l22);
    qz (-81) * vol * (qz 3 * l01 + l02 + qz 2 * l12 + l22); qz (-81) * vol * (qz 2 * l01 + l02 + l12 + l22);
    qz (-81) * vol * (l01 + l02 + l13 + l23); qz (-81) * vol * (l01 + l02 + l13 + l23);
    qz 81 * vol * (qz 5 * l11 + qz 4 * l12 + qz 4 * l13 + qz 8 * l23);
    qz (-81) * vol * (l11 + l12 + qz 2 * l13 + qz 3 * l23); qz (-81) * vol * (qz 2 * l12 + qz 3 * l13 + l22 + l23);
    qz (-81) * vol * (l12 + qz 2 * l13 + l22 + l23);
    qz 162 * vol * (qz 5 * l01 + qz 2 * l02 - l11 + qz 2 * l12 + qz 2 * l22);
    qz 81 * vol * (qz 5 * l01 + qz 4 * l02 - l11 - l12 + qz 5 * l13 + qz 4 * l23);
    qz 162 * vol * (- l11 + qz 2 * l12 + qz 5 * l13 + qz 2 * l22 + qz 2 * l23);
    qz (-81) * vol * (qz 2 * l01 + l02 + l12 + qz 2 * l13 + l22 + l23);
    qz 162 * vol * (qz 4 * l11 + qz 4 * l12 + qz 5 * l22);
    qz 81 * vol * (qz 8 * l01 + qz 4 * l02 + qz 4 * l12 + qz 5 * l22);
    qz (-81) * vol * (qz 3 * l01 + qz 2 * l02 + l12 + l22); qz (-81) * vol * (l01 + l02 + l13 + l23);
    qz (-81) * vol * (l01 + l02 + l13 + l23); qz (-81) * vol * (l11 + qz 2 * l12 + l13 + qz 3 * l23);
    qz (-81) * vol * (l11 + l12 + l13 + qz 2 * l23);
    qz 81 * vol * (qz 4 * l12 + qz 8 * l13 + qz 5 * l22 + qz 4 * l23);
    qz (-81) * vol * (l12 + qz 3 * l13 + l22 + qz 2 * l23);
    qz 162 * vol * (qz 2 * l01 + qz 5 * l02 + qz 2 * l11 + qz 2 * l12 - l22);
    qz (-81) * vol * (l01 + qz 2 * l02 + l11 + l12 + l13 + qz 2 * l23);
    qz 162 * vol * (qz 2 * l11 + qz 2 * l12 + qz 2 * l13 - l22 + qz 5 * l23);
    qz 81 * vol * (qz 4 * l01 + qz 5 * l02 - l12 + qz 4 * l13 - l22 + qz 5 * l23);
    qz 162 * vol * (qz 4 * l00 + qz 4 * l02 + qz 5 * l22); qz 81 * vol * (qz (-3) * l00 + qz 2 * l02 - qz 3 * l22);
    qz (-81) * vol * (l00 + qz 2 * l02 + l03 + qz 3 * l23); qz (-81) * vol * (l00 + l02 + l03 + qz 2 * l23);
    qz (-81) * vol * (l01 + l03 + l12 + l23); qz (-81) * vol * (l01 + l03 + l12 + l23);
    qz 81 * vol * (qz 4 * l02 + qz 8 * l03 + qz 5 * l22 + qz 4 * l23);
    qz (-81) * vol * (l02 + qz 3 * l03 + l22 + qz 2 * l23);
    qz 162 * vol * (qz 2 * l00 + qz 2 * l01 + qz 2 * l02 + qz 5 * l12 - l22);
    qz (-81) * vol * (l00 + l01 + l02 + l03 + qz 2 * l12 + qz 2 * l23);
    qz 81 * vol * (qz 4 * l01 - l02 + qz 4 * l03 + qz 5 * l12 - l22 + qz 5 * l23);
    qz 162 * vol * (qz 2 * l00 + qz 2 * l02 + qz 2 * l03 - l22 + qz 5 * l23);
    qz 162 * vol * (qz 5 * l00 + qz 4 * l02 + qz 4 * l22);
    qz 81 * vol * (qz 5 * l00 + qz 4 * l02 + qz 4 * l03 + qz 8 * l23);
    qz (-81) * vol * (l00 + l02 + qz 2 * l03 + qz 3 * l23); qz (-81) * vol * (l01 + l03 + l12 + l23);
    qz (-81) * vol * (l01 + l03 + l12 + l23); qz (-81) * vol * (qz 2 * l02 + qz 3 * l03 + l22 + l23);
    qz (-81) * vol * (l02 + qz 2 * l03 + l22 + l23);
    qz 162 * vol * (- l00 + qz 5 * l01 + qz 2 * l02 + qz 2 * l12 + qz 2 * l22);
    qz 81 * vol * (- l00 + qz 5 * l01 - l02 + qz 5 * l03 + qz 4 * l12 + qz 4 * l23);
    qz (-81) * vol * (qz 2 * l01 + l02 + qz 2 * l03 + l12 + l22 + l23);
    qz 162 * vol * (- l00 + qz 2 * l02 + qz 5 * l03 + qz 2 * l22 + qz 2 * l23);
    qz 162 * vol * (qz 5 * l00 + qz 4 * l03 + qz 4 * l33); qz 81 * vol * (qz (-3) * l00 + qz 2 * l03 - qz 3 * l33);
    qz (-81) * vol * (qz 2 * l01 + l03 + l13 + l33); qz (-81) * vol * (qz 3 * l01 + qz 2 * l03 + l13 + l33);
    qz (-81) * vol * (qz 2 * l02 + l03 + l23 + l33); qz (-81) * vol * (qz 3 * l02 + qz 2 * l03 + l23 + l33);
    qz 81 * vol * (- l00 + qz 5 * l01 + qz 5 * l02 - l03 + qz 4 * l13 + qz 4 * l23);
    qz 162 * vol * (- l00 + qz 5 * l01 + qz 2 * l03 + qz 2 * l13 + qz 2 * l33);
    qz (-81) * vol * (qz 2 * l01 + qz 2 * l02 + l03 + l13 + l23 + l33);
    qz 162 * vol * (- l00 + qz 5 * l02 + qz 2 * l03 + qz 2 * l23 + qz 2 * l33);
    qz 162 * vol * (qz 4 * l00 + qz 4 * l03 + qz 5 * l33); qz (-81) * vol * (qz 3 * l01 + l03 + qz 2 * l13 + l33);
    qz 81 * vol * (qz 8 * l01 + qz 4 * l03 + qz 4 * l13 + qz 5 * l33);
    qz (-81) * vol * (qz 3 * l02 + l03 + qz 2 * l23 + l33);
    qz 81 * vol * (qz 8 * l02 + qz 4 * l03 + qz 4 * l23 + qz 5 * l33);
    qz (-81) * vol * (l00 + l01 + l02 + l03 + qz 2 * l13 + qz 2 * l23);
    qz 162 * vol * (qz 2 * l00 + qz 2 * l01 + qz 2 * l03 + qz 5 * l13 - l33);
    qz 81 * vol * (qz 4 * l01 + qz 4 * l02 - l03 + qz 5 * l13 + qz 5 * l23 - l33);
    qz 162 * vol * (qz 2 * l00 + qz 2 * l02 + qz 2 * l03 + qz 5 * l23 - l33);
    qz 162 * vol * (qz 5 * l11 + qz 4 * l13 + qz 4 * l33); qz 81 * vol * (qz (-3) * l11 + qz 2 * l13 - qz 3 * l33);
    qz (-81) * vol * (qz 2 * l12 + l13 + l23 + l33); qz (-81) * vol * (qz 3 * l12 + qz 2 * l13 + l23 + l33);
    qz 81 * vol * (qz 5 * l01 + qz 4 * l03 - l11 + qz 5 * l12 - l13 + qz 4 * l23);
    qz 162 * vol * (qz 5 * l01 + qz 2 * l03 - l11 + qz 2 * l13 + qz 2 * l33);
    qz 162 * vol * (- l11 + qz 5 * l12 + qz 2 * l13 + qz 2 * l23 + qz 2 * l33);
    qz (-81) * vol * (qz 2 * l01 + l03 + qz 2 * l12 + l13 + l23 + l33);
    qz 162 * vol * (qz 4 * l11 + qz 4 * l13 + qz 5 * l33); qz (-81) * vol * (qz 3 * l12 + l13 + qz 2 * l23 + l33);
    qz 81 * vol * (qz 8 * l12 + qz 4 * l13 + qz 4 * l23 + qz 5 * l33);
    qz (-81) * vol * (l01 + qz 2 * l03 + l11 + l12 + l13 + qz 2 * l23);
    qz 162 * vol * (qz 2 * l01 + qz 5 * l03 + qz 2 * l11 + qz 2 * l13 - l33);
    qz 162 * vol * (qz 2 * l11 + qz 2 * l12 + qz 2 * l13 + qz 5 * l23 - l33);
    qz 81 * vol * (qz 4 * l01 + qz 5 * l03 + qz 4 * l12 - l13 + qz 5 * l23 - l33);
    qz 162 * vol * (qz 5 * l22 + qz 4 * l23 + qz 4 * l33); qz 81 * vol * (qz (-3) * l22 + qz 2 * l23 - qz 3 * l33);
    qz 81 * vol * (qz 5 * l02 + qz 4 * l03 + qz 5 * l12 + qz 4 * l13 - l22 - l23);
    qz (-81) * vol * (qz 2 * l02 + l03 + qz 2 * l12 + l13 + l23 + l33);
    qz 162 * vol * (qz 5 * l12 + qz 2 * l13 - l22 + qz 2 * l23 + qz 2 * l33);
    qz 162 * vol * (qz 5 * l02 + qz 2 * l03 - l22 + qz 2 * l23 + qz 2 * l33);
    qz 162 * vol * (qz 4 * l22 + qz 4 * l23 + qz 5 * l33);
    qz (-81) * vol * (l02 + qz 2 * l03 + l12 + qz 2 * l13 + l22 + l23);
    qz 81 * vol * (qz 4 * l02 + qz 5 * l03 + qz 4 * l12 + qz 5 * l13 - l23 - l33);
    qz 162 * vol * (qz 2 * l12 + qz 5 * l13 + qz 2 * l22 + qz 2 * l23 - l33);
    qz 162 * vol * (qz 2 * l02 + qz 5 * l03 + qz 2 * l22 + qz 2 * l23 - l33);
    qz 1944 * vol * (l00 + l01 + l02 + l11 + l12 + l22);
    qz 972 * vol * (l00 + l01 + l02 + l03 + l11 + l12 + l13 + qz 2 * l23);
    qz 972 * vol * (l01 + l02 + qz 2 * l03 + l11 + l12 + l13 + l22 + l23);
    qz 972 * vol * (l00 + l01 + l02 + l03 + l12 + qz 2 * l13 + l22 + l23);
    qz 1944 * vol * (l00 + l01 + l03 + l11 + l13 + l33);
    qz 972 * vol * (l01 + qz 2 * l02 + l03 + l11 + l12 + l13 + l23 + l33);
    qz 972 * vol * (l00 + l01 + l02 + l03 + qz 2 * l12 + l13 + l23 + l33);
    qz 1944 * vol * (l11 + l12 + l13 + l22 + l23 + l33);
    qz 972 * vol * (qz 2 * l01 + l02 + l03 + l12 + l13 + l22 + l23 + l33);
    qz 1944 * vol * (l00 + l02 + l03 + l22 + l23 + l33)] contrib.

(** The orientation [o = 1.] or [o = -1.] of an edge of the cell *)
Definition orient (cell : list nat) (a b : nat) : res Qc :=
  x <- aget cell a ;; y <- aget cell b ;; Ok (if (y <? x)%nat then - (1) else 1).

(** mass_2D_N1e.pxi:8-41 *)
Definition mass_2d_sym_N1e_eval (cell : list nat) (simplex : list (list Qc)) (innerProducts : buf Qc) (temp : list (buf Qc))
    (contrib : buf Qc) : res (buf Qc) :=
  '(v, innerProducts, temp) <- simplexVolumeAndProducts2D simplex innerProducts temp ;;
  vol <- qdiv (qf 1 48 / qz 4) v ;;
  l00 <- rd innerProducts 0 ;; l01 <- rd innerProducts 1 ;; l02 <- rd innerProducts 2 ;;
  l11 <- rd innerProducts 3 ;; l12 <- rd innerProducts 4 ;; l22 <- rd innerProducts 5 ;;
  o01 <- orient cell 0 1 ;; o12 <- orient cell 1 2 ;; o20 <- orient cell 2 0 ;;
  put [qz 2 * vol * (l00 - l01 + l11); o01 * o12 * vol * (l01 - qz 2 * l02 - l11 + l12);
       - o01 * o20 * vol * (l00 - l01 - l02 + qz 2 * l12); qz 2 * vol * (l11 - l12 + l22);
       - o12 * o20 * vol * (qz 2 * l01 - l02 - l12 + l22); qz 2 * vol * (l00 - l02 + l22)] contrib.

(** curlcurl_2D_N1e.pxi:8-41 *)
Definition curlcurl_2d_sym_N1e_eval (cell : list nat) (simplex : list (list Qc)) (innerProducts : buf Qc) (temp : list (buf Qc))
    (contrib : buf Qc) : res (buf Qc) :=
  '(v, innerProducts, temp) <- simplexVolumeAndProducts2D simplex innerProducts temp ;;
  vol <- qdiv (qf 1 4) v ;;
  l00 <- rd innerProducts 0 ;; l01 <- rd innerProducts 1 ;; l02 <- rd innerProducts 2 ;;
  l11 <- rd innerProducts 3 ;; l12 <- rd innerProducts 4 ;; l22 <- rd innerProducts 5 ;;
  o01 <- orient cell 0 1 ;; o12 <- orient cell 1 2 ;; o20 <- orient cell 2 0 ;;
  put [vol * (l00 * l11 - l01 * l01); o01 * o12 * vol * (l01 * l12 - l02 * l11);
       - o01 * o20 * vol * (l00 * l12 - l01 * l02); vol * (l11 * l22 - l12 * l12);
       - o12 * o20 * vol * (l01 * l22 - l02 * l12); vol * (l00 * l22 - l02 * l02)] contrib.

(** discrete_gradient_2d_N1e_P1.pxi:8-37; the entries are all different, so the order of
    the assignments does not matter *)
Definition discrete_gradient_2d_N1e_P1_eval (cell : list nat) (contrib : buf Qc) : res (buf Qc) :=
  o01 <- orient cell 0 1 ;; o12 <- orient cell 1 2 ;; o20 <- orient cell 2 0 ;;
  put [- o01; o01; 0; 0; - o12; o12; o20; 0; - o20] contrib.

(** discrete_curl_2d_P0_N1e.pxi:8-28 *)
Definition discrete_curl_2d_P0_N1e_eval (cell : list nat) (contrib : buf Qc) : res (buf Qc) :=
  o01 <- orient cell 0 1 ;; o12 <- orient cell 1 2 ;; o20 <- orient cell 2 0 ;;
  put [o01; o12; o20] contrib.
