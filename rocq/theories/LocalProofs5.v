(** The gradients of simplexComputations2D and 3D. *)
From Verif Require Import Util Lin MeshSpec MeshModel BaryModel BarySpec BaryProofs LocalModel LocalTables LocalSpec LocalProofs LocalProofs2 LocalProofs3 LocalProofs4.
Set Default Proof Using "Type".
Local Open Scope Qc_scope.

Ltac entries2 tac := match goal with |- [] = [] => reflexivity | |- _ :: _ = _ :: _ => apply f_equal2; [entries tac|entries2 tac] end.
Lemma over_half_half (J : Qc) : J <> 0 -> qdiv one_half (J * one_half) = Ok (/ J).
Proof.
  intros H. rewrite qdiv_ok.
  - f_equal. unfold Qcdiv. field. split; auto. discriminate.
  - intros E. apply Qcmult_integral in E as [E | E]; [auto|discriminate].
Qed.
Lemma over_sixth_sixth (J : Qc) : J <> 0 -> qdiv (qf 1 6) (J / qz 6) = Ok (/ J).
Proof.
  intros H. assert (S : qz 6 <> 0) by discriminate. assert (J / qz 6 <> 0).
  { intros E. apply H. transitivity (J / qz 6 * qz 6); [field; exact S|]. rewrite E. ring. }
  rewrite qdiv_ok by auto. f_equal. replace (qf 1 6) with (/ qz 6) by reflexivity. field. auto.
Qed.

Lemma computations2 vs J gs grad ip : is_simplex 2 vs -> magnitude J (det 2 vs) -> gradients_of 2 vs gs -> shape 3 2 grad -> length ip = 6%nat ->
  gradients2D vs grad ip =
  Ok (J * one_half, spread 2 (det 2 vs / J) gs, map Some (map (fun km => J * one_half * G 2 gs (fst km) (snd km)) (pairs 3))).
Proof.
  intros H HJ HG HT HI. destruct (simplex2 vs H) as (a0 & a1 & b0 & b1 & c0 & c1 & ->). destruct H as (_ & _ & HD).
  pose proof (gradients2 _ _ _ _ _ _ _ HD HG) as Eg. cbv zeta in Eg. rewrite Eg. clear Eg HG.
  pose proof (magnitude_0 _ _ HJ HD) as J0. pose proof (magnitude_square _ _ HJ) as JJ. rows HT.
  unfold gradients2D. cbn -[Qcplus Qcmult Qcminus Qcopp qabs one_half put map seq pairs qdiv spread det].
  match goal with |- context [qabs ?x] => rewrite (qabs_is J _ x HJ) by (left; cbn -[Qcplus Qcmult Qcminus]; ring) end.
  rewrite over_half_half by exact J0.
  cbn -[Qcplus Qcmult Qcminus Qcopp Qcdiv qabs one_half put map seq pairs spread det Qcinv]. rewrite put_ok by reflexivity. rewrite bind_Ok.
  set (D := det 2 _) in *. clearbody D.
  assert (UU : / J * / J = / D * / D).
  { transitivity (/ (J * J)); [field; auto|]. rewrite JJ. field. auto. }
  cbv [pairs upper_triangle seq map app fst snd G vdot dotf all_gradients tab sumf nth vat spread].
  f_equal. f_equal; [f_equal|].
  - entries2 ltac:(apply (f_equal (@Some Qc)); field; split; auto).
  - entries ltac:(apply (f_equal (@Some Qc));
      match goal with |- _ = J * one_half * ?g => 
        transitivity (J * one_half * (D * D * g * (/ J * / J))); [field; auto|rewrite UU; field; auto] end).
Qed.

Lemma computations3 vs J gs temp grad ip : is_simplex 3 vs -> magnitude J (det 3 vs) -> gradients_of 3 vs gs ->
  shape 10 3 temp -> shape 4 3 grad -> length ip = 10%nat ->
  exists temp', gradients3D vs temp grad ip =
  Ok (J / qz 6, spread 3 (- (det 3 vs / J)) gs, map Some (map (fun km => J / qz 6 * G 3 gs (fst km) (snd km)) (pairs 4)), temp').
Proof.
  intros H HJ HG HT HT' HI. destruct (simplex3 vs H) as (a0 & a1 & a2 & b0 & b1 & b2 & c0 & c1 & c2 & d0 & d1 & d2 & ->). destruct H as (_ & _ & HD).
  pose proof (gradients3 _ _ _ _ _ _ _ _ _ _ _ _ _ HD HG) as Eg. cbv zeta in Eg. rewrite Eg. clear Eg HG.
  pose proof (magnitude_0 _ _ HJ HD) as J0. pose proof (magnitude_square _ _ HJ) as JJ. rows HT. rows HT'.
  unfold gradients3D. cbn -[Qcplus Qcmult Qcminus Qcopp qabs one_half put map seq pairs qdiv spread det qz qf scale_rows].
  match goal with |- context [qabs ?x] => rewrite (qabs_is J _ x HJ) by (left; cbn -[Qcplus Qcmult Qcminus]; ring) end.
  rewrite over_sixth_sixth by exact J0. rewrite bind_Ok.
  cbn -[Qcplus Qcmult Qcminus Qcopp Qcdiv qabs one_half put map seq pairs spread det Qcinv qz qf]. rewrite put_ok by reflexivity. rewrite bind_Ok.
  eexists.
  set (D := det 3 _) in *. clearbody D.
  assert (UU : / J * / J = / D * / D).
  { transitivity (/ (J * J)); [field; auto|]. rewrite JJ. field. auto. }
  assert (S : qz 6 <> 0) by discriminate.
  cbv [pairs upper_triangle seq map app fst snd G vdot dotf all_gradients tab sumf nth vat spread].
  f_equal. f_equal. f_equal; [f_equal|].
  - entries2 ltac:(apply (f_equal (@Some Qc)); field; split; auto).
  - entries ltac:(apply (f_equal (@Some Qc));
      match goal with |- _ = J / qz 6 * ?g => 
        transitivity (J / qz 6 * (D * D * g * (/ J * / J))); [field; auto|rewrite UU; field; auto] end).
Qed.
