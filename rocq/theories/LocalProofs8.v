(** Volumes of simplices. *)
From Verif Require Import Util Lin MeshSpec MeshModel BaryModel BarySpec LocalModel LocalSpec LocalProofs LocalProofs2.
Local Open Scope Qc_scope.

Lemma volume2simplex vs J : is_simplex 2 vs -> magnitude J (det 2 vs) -> volume2Dsimplex vs = Ok (J * one_half).
Proof.
  intros H HJ. destruct (simplex2 vs H) as (a0 & a1 & b0 & b1 & c0 & c1 & ->).
  unfold volume2Dsimplex. run. f_equal. f_equal. apply (qabs_is J _ _ HJ). left. cbn -[Qcplus Qcmult Qcminus]. ring.
Qed.
Lemma volume3simplex vs J : is_simplex 3 vs -> magnitude J (det 3 vs) -> volume3Dsimplex vs = Ok (J / qz 6).
Proof.
  intros H HJ. destruct (simplex3 vs H) as (a0 & a1 & a2 & b0 & b1 & b2 & c0 & c1 & c2 & d0 & d1 & d2 & ->).
  unfold volume3Dsimplex. run. f_equal. f_equal. apply (qabs_is J _ _ HJ). left. cbn -[Qcplus Qcmult Qcminus]. ring.
Qed.
Lemma one1 : integral 1 (pconst 1 1) = 1. Proof. vm_compute. apply Qc_is_canon. reflexivity. Qed.
Lemma one2 : integral 2 (pconst 2 1) = one_half. Proof. apply Qc_is_canon. vm_compute. reflexivity. Qed.
Lemma one3 : integral 3 (pconst 3 1) = / qz 6. Proof. apply Qc_is_canon. vm_compute. reflexivity. Qed.
Lemma volumes_all vs J :
  (is_simplex 1 vs -> magnitude J (det 1 vs) -> simplexVolume1D vs = Ok (J * integral 1 (pconst 1 1))) /\
  (is_simplex 2 vs -> magnitude J (det 2 vs) -> volume2Dsimplex vs = Ok (J * integral 2 (pconst 2 1)) /\
    forall temp, shape 3 2 temp -> exists temp', simplexVolume2D vs temp = Ok (J * integral 2 (pconst 2 1), temp')) /\
  (is_simplex 3 vs -> magnitude J (det 3 vs) -> volume3Dsimplex vs = Ok (J * integral 3 (pconst 3 1)) /\
    forall temp, shape 4 3 temp -> exists temp', simplexVolume3D vs temp = Ok (J * integral 3 (pconst 3 1), temp')).
Proof.
  rewrite one1, one2, one3. split; [|split]; intros H HJ.
  - rewrite (volume1 vs J) by auto. f_equal. ring.
  - split; [apply volume2simplex; auto|]. intros temp. apply volume2; auto.
  - split; [apply volume3simplex; auto|]. intros temp. apply volume3; auto.
Qed.
