(** Restriction and prolongation are transposed; what fails. *)
From Verif Require Import Util Lin SparsitySpec CSRModel GraphModel GraphSpec GraphProofs GraphProofs2 GraphProofs3.
Local Open Scope nat_scope.
Set Default Proof Using "Type".

Lemma adjoint_mv n m (A B : mat) (x y : nat -> Qc) : (forall i c, i < n -> c < m -> B c i = A i c) ->
  sumf n (fun i => y i * mv m A x i)%Qc = sumf m (fun c => x c * mv n B y c)%Qc.
Proof.
  intros H. rewrite (sumf_ext n _ (fun i => sumf m (fun c => y i * (A i c * x c)))%Qc).
  - rewrite sumf_swap. apply sumf_ext. intros c Hc. unfold mv. rewrite <- sumf_scal. apply sumf_ext. intros i Hi. rewrite H by auto. ring.
  - intros i Hi. unfold mv. rewrite <- sumf_scal. reflexivity.
Qed.
Lemma transfer_adjoint n m g : wf_graph n m g -> n <= m -> exists g', graph_transpose g = Ok g' /\
  forall x y bx by_, length x = m -> length y = n -> length bx = n -> length by_ = m -> exists rx py,
  restriction_matvec g x bx = Ok (map Some rx) /\ prolongation_matvec g' y by_ = Ok (map Some py) /\
  sumf n (fun i => vat y i * vat rx i)%Qc = sumf m (fun c => vat x c * vat py c)%Qc.
Proof.
  intros W NM. destruct (graph_transpose_ok n m g W) as (g' & E & W' & T & _). exists g'. split; [exact E|].
  intros x y bx by_ Lx Ly L1 L2. rewrite (restriction_ok n m g W x bx NM Lx L1), (prolongation_ok m n g' W' y by_ NM Ly L2).
  do 2 eexists. split; [reflexivity|]. split; [reflexivity|].
  rewrite (sumf_ext n _ (fun i => vat y i * mv m (tmat g) (vat x) i)%Qc) by (intros i Hi; rewrite vat_tab by auto; reflexivity).
  rewrite (adjoint_mv n m (tmat g) (tmat g')) by (intros i c Hi Hc; apply (tmat_transposed n m); auto).
  apply sumf_ext. intros c Hc. rewrite vat_tab by auto. reflexivity.
Qed.
Lemma transpose_twice n m g : wf_graph n m g -> exists g' g'', graph_transpose g = Ok g' /\ graph_transpose g' = Ok g'' /\ wf_graph n m g'' /\
  forall i c, i < n -> c < m -> edges g'' i c = edges g i c.
Proof.
  intros W. destruct (graph_transpose_ok n m g W) as (g' & E & W' & T & _). destruct (graph_transpose_ok m n g' W') as (g'' & E' & W'' & T' & _).
  exists g', g''. split; [exact E|]. split; [exact E'|]. split; [exact W''|]. intros i c Hi Hc. rewrite T' by auto. apply T; auto.
Qed.
