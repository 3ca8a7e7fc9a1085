(** Final lemmas for C20 and C21, concrete smoothers. *)
From Verif Require Import Util Lin CSRModel CSRSpec CSRProofs TriModel TriSpec TriProofs SmootherModel SmootherSpec SmootherProofs3 SmootherProofs4 SmootherProofs5
  MGModel MGSpec MGProofs MGProofs2 MGProofs3.
Set Default Proof Using "Type".

(** * Gauss-Seidel as a matrix *)
Definition gs_once (n : nat) (A : csr) (dir : bool) (b : list Qc) : list Qc :=
  match (G <- gs_init (OpCSR A) (tab n (fun i => matrix A i i)) 1 1 dir dir ;; gs_eval G b (zeros n) false) with
  | Ok z => z | Err _ => []
  end.
Definition gsN (n : nat) (A : csr) (dir : bool) : mat := fun i j => vat (gs_once n A dir (tab n (unit_vec j))) i.
Definition part (dir : bool) (A : mat) : mat := fun i j => if (if dir then j <=? i else i <=? j) then A i j else 0%Qc.

Section GS.
  Variables (n : nat) (A : csr).
  Hypothesis wf : wf_csr n n A.
  Hypothesis Hd : forall i, i < n -> matrix A i i <> 0%Qc.

  Lemma gs_once_ok dir b : length b = n -> gs_sweep dir n (matrix A) b (zeros n) (gs_once n A dir b).
  Proof using wf Hd.
    intros Hb. destruct (gs_thm n A b (zeros n) 1 1 dir dir false wf Hd Hb (tab_length n _)) as (G & z & E1 & E2 & HS & _).
    unfold gs_once. rewrite E1. cbn [bind]. rewrite E2. inversion HS; subst. inversion H1; subst. auto.
  Qed.

  Lemma mv_part dir (M : mat) x i : mv n (part dir M) x i = mv n M (fun j => if (if dir then j <=? i else i <=? j) then x j else 0%Qc) i.
  Proof using. unfold mv, part. apply sumf_ext. intros j Hj. destruct (if dir then j <=? i else i <=? j); ring. Qed.

  Lemma gsN_inv dir v i : i < n -> mv n (part dir (matrix A)) (mv n (gsN n A dir) v) i = v i.
  Proof using wf Hd.
    intros Hi. rewrite <- mv_mm_rect. unfold mv at 1.
    rewrite (sumf_single n _ i Hi).
    - assert (E : forall j, j < n -> mm n (part dir (matrix A)) (gsN n A dir) i j = unit_vec j i).
      { intros j Hj. change (mm n (part dir (matrix A)) (gsN n A dir) i j) with (mv n (part dir (matrix A)) (fun l => gsN n A dir l j) i).
        rewrite mv_part. destruct (gs_once_ok dir (tab n (unit_vec j)) (tab_length n _)) as [_ HS]. specialize (HS i Hi).
        rewrite vat_tab in HS by auto. rewrite <- HS. apply mv_ext. intros l Hl. unfold gsN. rewrite vat_zeros. reflexivity. }
      rewrite E by auto. unfold unit_vec. rewrite Nat.eqb_refl. ring.
    - intros j Hj Hne.
      change (mm n (part dir (matrix A)) (gsN n A dir) i j) with (mv n (part dir (matrix A)) (fun l => gsN n A dir l j) i).
      rewrite mv_part. destruct (gs_once_ok dir (tab n (unit_vec j)) (tab_length n _)) as [_ HS]. specialize (HS i Hi).
      rewrite vat_tab in HS by auto.
      rewrite (mv_ext n _ _ (fun l => if (if dir then l <=? i else i <=? l) then vat (gs_once n A dir (tab n (unit_vec j))) l else vat (zeros n) l)).
      2: { intros l Hl. unfold gsN. rewrite vat_zeros. reflexivity. }
      rewrite HS. unfold unit_vec. apply not_eq_sym, Nat.eqb_neq in Hne. rewrite Hne. ring.
  Qed.

  Definition lstep (N : mat) (b x : list Qc) : list Qc := tab n (fun i => vat x i + mv n N (vat (resid n (matrix A) b x)) i)%Qc.

  Lemma gs_sweep_matrix dir b x y : length x = n -> gs_sweep dir n (matrix A) b x y -> y = lstep (gsN n A dir) b x.
  Proof using wf Hd.
    intros Hx HS. apply (gs_sweep_unique dir n (matrix A) b x y); auto. split; [apply tab_length|]. intros i Hi.
    set (r := vat (resid n (matrix A) b x)).
    rewrite (mv_ext n _ _ (fun j => vat x j + (if (if dir then j <=? i else i <=? j) then mv n (gsN n A dir) r j else 0))%Qc).
    - rewrite mv_plus, <- mv_part, gsN_inv by auto. unfold r. rewrite resid_at by auto. ring.
    - intros j Hj. destruct (if dir then j <=? i else i <=? j); [|ring]. unfold lstep. apply vat_tab; auto.
  Qed.

  Lemma gsN_adjoint : symmetric n (matrix A) -> adjoint n n (gsN n A true) (gsN n A false).
  Proof using wf Hd.
    intros Hs. apply dot_adjoint. intros u v.
    rewrite (dot_ext n u (mv n (part false (matrix A)) (mv n (gsN n A false) u)) _ (mv n (gsN n A true) v)) by (auto; intros; symmetry; apply gsN_inv; auto).
    rewrite <- (adjoint_dot n n (part true (matrix A)) (part false (matrix A))).
    - apply dot_ext; auto. intros i Hi. apply gsN_inv; auto.
    - intros i j Hi Hj. unfold part. rewrite Hs by auto. reflexivity.
  Qed.

  Lemma steps_iter (R : list Qc -> list Qc -> Prop) f k : (forall x y, length x = n -> R x y -> y = f x) -> (forall x, length x = n -> length (f x) = n) ->
    forall x y, length x = n -> steps R k x y -> y = Nat.iter k f x.
  Proof using.
    clear wf Hd. intros H1 H2. induction k as [|k IH]; intros x y Hx HS; inversion HS; subst; [reflexivity|].
    assert (y0 = f x) by (apply H1; auto). subst y0. rewrite <- iter_shift. apply IH; auto.
  Qed.

  Lemma gs_smoother_ok k post simple b x : length b = n -> length x = n ->
    gs_smoother n A k post simple b x = Ok (Nat.iter k (lstep (gsN n A (negb post)) b) x).
  Proof using wf Hd.
    intros Hb Hx. destruct (gs_thm n A b x k k true false post wf Hd Hb Hx) as (G & z & E1 & E2 & HS & _).
    unfold gs_smoother. rewrite E1. cbn [bind]. rewrite E2. f_equal.
    apply (steps_iter (gs_sweep (negb post) n (matrix A) b)); auto.
    - intros; apply gs_sweep_matrix; auto.
    - intros; apply tab_length.
    - destruct post; exact HS.
  Qed.
End GS.

Lemma lstep_smooths n A N : smooths_by n (matrix A) N (lstep n A N).
Proof. intros b x _ _. reflexivity. Qed.

Lemma sep_smoother_ok n A prec M k post simple b x : wf_csr n n A -> acts_as n n prec M -> length b = n -> length x = n ->
  (simple = true -> forall i, i < n -> vat x i = 0%Qc) ->
  sep_smoother n A prec k post simple b x = Ok (Nat.iter k (lstep n A M b) x).
Proof.
  intros wf HM Hb Hx Hs.
  destruct (sep_thm n A b prec (fun x => tab n (mv n M (vat x))) k x simple wf) as (z & E & HS & _); auto.
  { intros v w Hv Hw. split; [apply HM; auto|apply tab_length]. }
  unfold sep_smoother. rewrite E. f_equal. apply (steps_iter n _ (lstep n A M b) k) in HS; auto.
  - intros u w Hu ->. apply tab_ext. intros i Hi. rewrite vat_tab by auto. reflexivity.
  - intros; apply tab_length.
Qed.

(** * CSR hierarchies *)
Section CSRHier.
  Variables (dims : nat -> nat) (A R P : nat -> csr) (top : nat) (coarse : list Qc -> buf Qc -> res (buf Qc)) (C : mat) (k : nat).
  Hypothesis wfA : forall l, 0 < l <= top -> wf_csr (dims l) (dims l) (A l).
  Hypothesis wfR : forall l, 0 < l <= top -> wf_csr (dims (l - 1)) (dims l) (R l).
  Hypothesis wfP : forall l, 0 < l <= top -> wf_csr (dims l) (dims (l - 1)) (P l).
  Hypothesis HC : acts_as (dims 0) (dims 0) coarse C.
  Variable sm : nat -> bool -> bool -> list Qc -> list Qc -> res (list Qc).
  Variable M : nat -> bool -> mat.
  Hypothesis Hsm : forall l post simple b x, 0 < l <= top -> length b = dims l -> length x = dims l ->
    (simple = true -> forall i, i < dims l -> vat x i = 0%Qc) ->
    sm l post simple b x = Ok (Nat.iter k (lstep (dims l) (A l) (M l post) b) x).

  Definition csrH : hierarchy := Hier dims (fun l => matrix (A l)) (fun l => matrix (R l)) (fun l => matrix (P l))
    (fun l post b => Nat.iter k (lstep (dims l) (A l) (M l post) b)) (fun b => tab (dims 0) (mv (dims 0) C (vat b))).

  Lemma lstep_iter_length l N b x : length x = dims l -> length (Nat.iter k (lstep (dims l) (A l) N b) x) = dims l.
  Proof. clear Hsm. intros Hx. destruct k as [|k']; [exact Hx|]. cbn [Nat.iter nat_rect]. apply tab_length. Qed.

  Lemma csr_realises : realises csrH top (csr_levels dims A R P sm top) coarse.
  Proof using wfA wfR wfP HC Hsm.
    split; [apply tab_length|]. split.
    - intros x y Hx Hy. split; [apply HC; auto|apply tab_length].
    - intros l lvl E. assert (Hl : l < top).
      { rewrite <- (tab_length top (fun l => Level (dims (S l)) (csr_residual (A (S l))) (csr_matvec false (R (S l))) (csr_matvec false (P (S l))) (sm (S l)))).
        apply nth_error_Some. unfold csr_levels in E. congruence. }
      unfold csr_levels in E. rewrite nth_error_tab in E by auto. injection E as <-. cbn [l_n l_residual l_R l_P l_smooth csrH dim hA hR hP hS].
      split; [reflexivity|]. split; [|split; [|split]].
      + intros x b y Hx Hb Hy. destruct (csr_kernels_ok _ _ (A (S l)) false x (wfA (S l) ltac:(lia)) Hx) as (_ & _ & K).
        destruct (K b y Hb Hy) as [K1 K2]. split; auto.
      + intros x y Hx Hy. specialize (wfR (S l) ltac:(lia)). replace (S l - 1) with l in wfR by lia.
        apply (csr_kernels_ok _ _ _ false x wfR Hx); auto.
      + intros x y Hx Hy. specialize (wfP (S l) ltac:(lia)). replace (S l - 1) with l in wfP by lia.
        apply (csr_kernels_ok _ _ _ false x wfP Hx); auto.
      + intros post simple b x Hx Hb Hs. split; [apply Hsm; auto; lia|]. apply lstep_iter_length; auto.
  Qed.

  Lemma csr_smooths l post : smooths_by (dims l) (matrix (A l)) (series (dims l) (matrix (A l)) (M l post) k) (hS csrH l post).
  Proof. intros b x Hb Hx. cbn [csrH hS]. apply (iter_series _ _ (M l post) (lstep (dims l) (A l) (M l post))); auto. apply lstep_smooths. Qed.
End CSRHier.

(** * C20 *)
Lemma smooths_consistent H top C N : (forall l post, 0 < l <= top -> smooths_by (dim H l) (hA H l) (N l post) (hS H l post)) ->
  (forall b, length b = dim H 0 -> hC H b = tab (dim H 0) (mv (dim H 0) C (vat b))) -> consistent H top.
Proof.
  intros HS HC. split.
  - rewrite HC by apply tab_length. apply tab_ext. intros i Hi. apply mv_zero. intros j Hj. apply vat_tab; auto.
  - intros l post b x Hl Hs. pose proof Hs as (Lx & Lb & _). rewrite (HS l post Hl b x Lb Lx). symmetry.
    apply (eq_tab _ _ _ 0%Qc Lx). intros i Hi. rewrite (resid_solved _ _ _ _ Hs). rewrite mv_zero by (intros; apply vat_zeros).
    change (nth i x 0%Qc) with (vat x i). ring.
Qed.

Lemma cycle_thm H top levels coarse cyc l mem simple b x : realises H top levels coarse -> mem_ok (dim H) top mem -> 0 < l <= top ->
  nth_error mem l = Some (map Some b, map Some x) -> (simple = true -> forall i, i < dim H l -> vat x i = 0%Qc) ->
  exists mem', solveOnLevel levels coarse cyc l mem simple = Ok mem' /\
    nth_error mem' l = Some (map Some b, map Some (mg H cyc l b x)) /\
    forall k, l < k -> nth_error mem' k = nth_error mem k.
Proof.
  intros Hr Hm Hl E Hs. destruct (call_ok H top levels coarse Hr cyc l mem simple b x Hl Hm E Hs) as (mem' & E1 & _ & A2 & A3).
  exists mem'. auto.
Qed.

Lemma fixed_thm H top levels coarse cyc l mem simple b x : realises H top levels coarse -> consistent H top -> mem_ok (dim H) top mem -> 0 < l <= top ->
  nth_error mem l = Some (map Some b, map Some x) -> (simple = true -> forall i, i < dim H l -> vat x i = 0%Qc) ->
  solves (dim H l) (hA H l) b x ->
  exists mem', solveOnLevel levels coarse cyc l mem simple = Ok mem' /\ nth_error mem' l = nth_error mem l.
Proof.
  intros Hr Hc Hm Hl E Hs Hx. destruct (cycle_thm H top levels coarse cyc l mem simple b x Hr Hm Hl E Hs) as (mem' & E1 & A2 & _).
  exists mem'. split; auto. rewrite A2, E. rewrite (mg_fixed H top cyc Hc) by (auto; lia). reflexivity.
Qed.

Lemma correction_thm H top levels coarse cyc mem simple b x : realises H top levels coarse -> mem_ok (dim H) top mem -> 0 < top -> 0 < cyc ->
  nth_error mem 1 = Some (map Some b, map Some x) -> (simple = true -> forall i, i < dim H 1 -> vat x i = 0%Qc) ->
  (forall i j, i < dim H 0 -> j < dim H 0 -> mm (dim H 1) (mm (dim H 1) (hR H 1) (hA H 1)) (hP H 1) i j = hA H 0 i j) ->
  (forall d, length d = dim H 0 -> solves (dim H 0) (hA H 0) d (hC H d)) ->
  exists mem' z, solveOnLevel levels coarse cyc 1 mem simple = Ok mem' /\
    nth_error mem' 1 = Some (map Some b, map Some (hS H 1 true b z)) /\
    forall i, i < dim H 0 -> mv (dim H 1) (hR H 1) (vat (resid (dim H 1) (hA H 1) b z)) i = 0%Qc.
Proof.
  intros Hr Hm Ht Hcyc E Hs HG HC.
  destruct (cycle_thm H top levels coarse cyc 1 mem simple b x Hr Hm ltac:(lia) E Hs) as (mem' & E1 & A2 & _).
  exists mem'. eexists. split; [exact E1|]. split; [exact A2|].
  set (y := hS H 1 false b x). set (d := tab (dim H 0) _).
  assert (Ld : length d = dim H 0) by apply tab_length.
  rewrite (iter_const _ cyc _ (hC H d)) by auto.
  assert (Ly : length y = dim H 1).
  { destruct (level_ok H top levels coarse Hr 0 Ht) as (lvl & El). destruct Hr as (_ & _ & HL). destruct (HL _ _ El) as (_ & _ & _ & _ & HS).
    pose proof Hm as [_ Hsz]. destruct (Hsz _ _ E) as [L1 L2]. cbn [fst snd] in *. rewrite map_length in *.
    apply (HS false simple b x L2 L1 Hs). }
  apply (coarse_correction (dim H 1) (dim H 0) (hA H 1) (hR H 1) (hP H 1) (hA H 0) b y (hC H d) Ly HG).
  intros i Hi. rewrite (proj2 (proj2 (HC d Ld))) by auto. unfold d. apply vat_tab; auto.
Qed.

Lemma solve_thm H top levels coarse {N} (norm : list Qc -> N) gt cycle maxIter tol x0 mem b x :
  realises H top levels coarse -> 0 < top -> mem_ok (dim H) top mem -> length b = dim H top -> length x = dim H top ->
  (forall v, x0 = Some v -> length v = dim H top) ->
  let cyc := match cycle with V | FMG_V => 1 | W | FMG_W => 2 end in
  let first := match cycle with V | W => 0 | FMG_V | FMG_W => 1 end in
  let x_start := match cycle with
                 | V | W => match x0 with None => tab (dim H top) (fun _ => 0%Qc) | Some v => v end
                 | FMG_V | FMG_W => hS H top true b (nested H cyc top top b [])
                 end in
  let it := fun k => Nat.iter k (mg H cyc top b) x_start in
  let r := fun k => norm (resid (dim H top) (hA H top) b (it k)) in
  exists k, mg_solve levels coarse norm gt cycle top maxIter tol x0 mem b x = Ok (first + k, it k, tab (S k) r) /\
    (forall j, j < k -> gt (r j) tol = true) /\ (k = 0 \/ first + k <= maxIter) /\
    (first + k < maxIter -> gt (r k) tol = false).
Proof.
  intros Hr Ht Hm Lb Lx H0 cyc first x_start it r.
  exact (solve_ok H top levels coarse Hr Ht norm gt cycle maxIter tol x0 mem b x Hm Lb Lx H0).
Qed.

(** * C21 *)
Lemma linear_thm H top levels coarse cyc C N : realises H top levels coarse -> 0 < top -> 0 < cyc ->
  (forall b, length b = dim H 0 -> hC H b = tab (dim H 0) (mv (dim H 0) C (vat b))) ->
  (forall l post, 0 < l <= top -> smooths_by (dim H l) (hA H l) (N l post) (hS H l post)) ->
  forall maxIter, exists B,
    (forall mem b y, mem_ok (dim H) top mem -> length b = dim H top -> length y = dim H top ->
       mg_prec levels coarse cyc top maxIter mem b y = Ok (tab (dim H top) (mv (dim H top) B (vat b)))) /\
    (symmetric (dim H 0) C ->
     (forall l, 0 < l <= top -> symmetric (dim H l) (hA H l) /\
        adjoint (dim H (l - 1)) (dim H l) (hR H l) (hP H l) /\ adjoint (dim H l) (dim H l) (N l false) (N l true)) ->
     symmetric (dim H top) B).
Proof.
  intros Hr Ht Hcyc HC HS maxIter.
  exists (series (dim H top) (hA H top) (cyc_mat H cyc C N top) maxIter). split.
  - intros mem b y Hm Lb Ly. rewrite (prec_ok H top levels coarse Hr Ht cyc maxIter mem b y Hm Lb Ly). f_equal.
    apply iter_series0; auto. apply (cycle_matrix H top cyc C N Hcyc HC HS). lia.
  - intros HCs Hsym. apply symmetric_adjoint. apply series_adjoint; [apply Hsym; lia|]. apply symmetric_adjoint.
    apply (cycle_sym H top cyc C N HCs Hsym). lia.
Qed.

Lemma gs_mg_thm dims A R P top coarse C k cyc maxIter :
  (forall l, 0 < l <= top -> wf_csr (dims l) (dims l) (A l) /\ wf_csr (dims (l - 1)) (dims l) (R l) /\ wf_csr (dims l) (dims (l - 1)) (P l) /\
     (forall i, i < dims l -> matrix (A l) i i <> 0%Qc) /\ symmetric (dims l) (matrix (A l)) /\
     adjoint (dims (l - 1)) (dims l) (matrix (R l)) (matrix (P l))) ->
  acts_as (dims 0) (dims 0) coarse C -> symmetric (dims 0) C -> 0 < top -> 0 < cyc ->
  exists B, symmetric (dims top) B /\
    forall mem b y, mem_ok dims top mem -> length b = dims top -> length y = dims top ->
      mg_prec (csr_levels dims A R P (fun l => gs_smoother (dims l) (A l) k) top) coarse cyc top maxIter mem b y
      = Ok (tab (dims top) (mv (dims top) B (vat b))).
Proof.
  intros Hl HC HCs Ht Hcyc.
  set (M := fun l post => gsN (dims l) (A l) (negb post)).
  set (H := csrH dims A R P C k M).
  assert (Hr : realises H top (csr_levels dims A R P (fun l => gs_smoother (dims l) (A l) k) top) coarse).
  { apply csr_realises; auto; try (intros l Hl'; apply Hl; auto; fail).
    intros l post simple b x Hl' Hb Hx _. destruct (Hl l Hl') as (W1 & _ & _ & W4 & _). apply gs_smoother_ok; auto. }
  destruct (linear_thm H top _ coarse cyc C (fun l post => series (dims l) (matrix (A l)) (M l post) k) Hr Ht Hcyc) with (maxIter := maxIter) as (B & HB & HBs).
  { intros b Hb. reflexivity. }
  { intros l post Hl'. apply csr_smooths. }
  exists B. split; [|exact HB]. apply HBs; auto. intros l Hl'. destruct (Hl l Hl') as (W1 & W2 & W3 & W4 & W5 & W6).
  cbn [H csrH dim hA hR hP]. split; auto. split; auto. apply series_adjoint; auto. apply gsN_adjoint; auto.
Qed.

Lemma sep_mg_thm dims A R P prec M top coarse C k cyc maxIter :
  (forall l, 0 < l <= top -> wf_csr (dims l) (dims l) (A l) /\ wf_csr (dims (l - 1)) (dims l) (R l) /\ wf_csr (dims l) (dims (l - 1)) (P l) /\
     acts_as (dims l) (dims l) (prec l) (M l) /\ symmetric (dims l) (M l) /\ symmetric (dims l) (matrix (A l)) /\
     adjoint (dims (l - 1)) (dims l) (matrix (R l)) (matrix (P l))) ->
  acts_as (dims 0) (dims 0) coarse C -> symmetric (dims 0) C -> 0 < top -> 0 < cyc ->
  exists B, symmetric (dims top) B /\
    forall mem b y, mem_ok dims top mem -> length b = dims top -> length y = dims top ->
      mg_prec (csr_levels dims A R P (fun l => sep_smoother (dims l) (A l) (prec l) k) top) coarse cyc top maxIter mem b y
      = Ok (tab (dims top) (mv (dims top) B (vat b))).
Proof.
  intros Hl HC HCs Ht Hcyc.
  set (N := fun l (post : bool) => M l).
  set (H := csrH dims A R P C k N).
  assert (Hr : realises H top (csr_levels dims A R P (fun l => sep_smoother (dims l) (A l) (prec l) k) top) coarse).
  { apply csr_realises; auto; try (intros l Hl'; apply Hl; auto; fail).
    intros l post simple b x Hl' Hb Hx Hs. destruct (Hl l Hl') as (W1 & _ & _ & W4 & _). apply sep_smoother_ok; auto. }
  destruct (linear_thm H top _ coarse cyc C (fun l post => series (dims l) (matrix (A l)) (N l post) k) Hr Ht Hcyc) with (maxIter := maxIter) as (B & HB & HBs).
  { intros b Hb. reflexivity. }
  { intros l post Hl'. apply csr_smooths. }
  exists B. split; [|exact HB]. apply HBs; auto. intros l Hl'. destruct (Hl l Hl') as (W1 & W2 & W3 & W4 & W5 & W6 & W7).
  cbn [H csrH dim hA hR hP]. split; auto. split; auto. apply series_adjoint; auto.
Qed.

(** Jacobi as a matrix. *)
Lemma jacobi_acts n D omega : length D = n -> (forall i, i < n -> vat D i <> 0%Qc) ->
  acts_as n n (jacobi_prec D omega) (fun i j => if i =? j then (omega / vat D i)%Qc else 0%Qc) /\
  symmetric n (fun i j => if i =? j then (omega / vat D i)%Qc else 0%Qc).
Proof.
  intros HD Hd. split.
  - intros x y Hx Hy. destruct (jacobi_prec_ok n D omega HD Hd x y Hx Hy) as [E _]. rewrite E. do 2 f_equal. apply tab_ext. intros i Hi.
    unfold mv. rewrite (sumf_single n _ i Hi); [rewrite Nat.eqb_refl; reflexivity|].
    intros j _ Hne. apply not_eq_sym, Nat.eqb_neq in Hne. rewrite Hne. ring.
  - intros i j Hi Hj. rewrite (Nat.eqb_sym j i). destruct (Nat.eqb_spec i j) as [->|]; reflexivity.
Qed.

(** * Full multigrid does not use the initial guess *)
Definition fm_dims (l : nat) : nat := match l with O => 1 | _ => 2 end.
Definition fm_A (l : nat) : csr := CSR 2 [0; 1; 2] [0; 1] (map qz [1; 2]%Z).
Definition fm_R (l : nat) : csr := CSR 2 [0; 1] [0] (map qz [1]%Z).
Definition fm_P (l : nat) : csr := CSR 1 [0; 1; 1] [0] (map qz [1]%Z).
Definition fm_coarse (b : list Qc) (x : buf Qc) : res (buf Qc) := assign x b.
Definition fm_one : mat := fun i j => if i =? j then 1%Qc else 0%Qc.
Definition fm_levels := csr_levels fm_dims fm_A fm_R fm_P (fun l => sep_smoother 2 (fm_A l) (jacobi_prec (map qz [1; 2]%Z) (Q2Qc (1 # 2))) 1) 1.
Definition fm_M (l : nat) (post : bool) : mat := fun i j => if i =? j then (Q2Qc (1 # 2) / vat (map qz [1; 2]%Z) i)%Qc else 0%Qc.
Definition fm_H : hierarchy :=
  let H := csrH fm_dims fm_A fm_R fm_P fm_one 1 fm_M in
  Hier fm_dims (fun l => match l with O => fm_one | _ => matrix (fm_A l) end) (hR H) (hP H) (hS H) (hC H).

Lemma fm_real : realises fm_H 1 fm_levels fm_coarse.
Proof.
  assert (Hr : realises (csrH fm_dims fm_A fm_R fm_P fm_one 1 fm_M) 1 fm_levels fm_coarse).
  { apply csr_realises.
    - intros l Hl. replace l with 1 by lia. cbn [fm_dims fm_A]. repeat split; cbn; try lia; intros i Hi; cbn in Hi; destruct i as [|[|i]]; cbn; lia.
    - intros l Hl. replace l with 1 by lia. cbn [fm_dims Nat.sub]. repeat split; cbn; try lia; intros i Hi; cbn in Hi; destruct i as [|i]; cbn; lia.
    - intros l Hl. replace l with 1 by lia. cbn [fm_dims Nat.sub]. repeat split; cbn; try lia; intros i Hi; cbn in Hi; destruct i as [|[|i]]; cbn; lia.
    - intros x y Hx Hy. unfold fm_coarse. rewrite assign_ok by (cbn [fm_dims] in *; lia). do 2 f_equal.
      apply (eq_tab _ _ _ 0%Qc Hx). intros i Hi. unfold mv, fm_one. rewrite (sumf_single _ _ i Hi).
      + rewrite Nat.eqb_refl. change (nth i x 0%Qc) with (vat x i). ring.
      + intros j _ Hne. apply not_eq_sym, Nat.eqb_neq in Hne. rewrite Hne. ring.
    - intros l post simple b x Hl Hb Hx Hs. replace l with 1 in * by lia. apply sep_smoother_ok; auto.
      + repeat split; cbn; try lia; intros i Hi; cbn in Hi; destruct i as [|[|i]]; cbn; lia.
      + apply jacobi_acts; [reflexivity|]. intros i Hi E. cbn in Hi. apply (f_equal this) in E. destruct i as [|[|i]]; [| |lia]; vm_compute in E; discriminate. }
  destruct Hr as (H1 & H2 & H3). split; [exact H1|]. split; [exact H2|]. intros l lvl El.
  assert (l = 0) as ->. { assert (l < 1); [|lia]. change 1 with (length fm_levels). apply nth_error_Some. congruence. }
  exact (H3 0 lvl El).
Qed.

Lemma fmg_wrong : exists H levels coarse mem b x0 out rs,
  realises H 1 levels coarse /\ consistent H 1 /\ mem_ok (dim H) 1 mem /\
  (forall i j, i < dim H 0 -> j < dim H 0 -> mm (dim H 1) (mm (dim H 1) (hR H 1) (hA H 1)) (hP H 1) i j = hA H 0 i j) /\
  (forall d, length d = dim H 0 -> solves (dim H 0) (hA H 0) d (hC H d)) /\
  solves (dim H 1) (hA H 1) b x0 /\
  mg_solve levels coarse (fun r : list Qc => r) (fun _ _ => true) FMG_V 1 1 [] (Some x0) mem b (alloc (dim H 1)) = Ok (1, out, rs) /\
  ~ solves (dim H 1) (hA H 1) b out.
Proof.
  exists fm_H, fm_levels, fm_coarse, [(alloc 1, alloc 1); (alloc 2, alloc 2)], (map qz [1; 2]%Z), (map qz [1; 1]%Z), [qz 1; Q2Qc (1 # 2)], [[qz 0; qz 1]].
  split; [exact fm_real|]. split.
  { assert (Hc : consistent (csrH fm_dims fm_A fm_R fm_P fm_one 1 fm_M) 1).
    { apply (smooths_consistent _ _ fm_one (fun l post => series (fm_dims l) (matrix (fm_A l)) (fm_M l post) 1)).
      - intros l post Hl. apply csr_smooths.
      - reflexivity. }
    destruct Hc as [H1 H2]. split; [exact H1|]. intros l post b x Hl Hs. assert (l = 1) as -> by lia. apply H2; auto. }
  split.
  { split; [reflexivity|]. intros [|[|[|l]]] s E; cbn in E; try discriminate; injection E as <-; cbn; auto. }
  split.
  { intros i j Hi Hj. cbn in Hi, Hj. assert (i = 0) as -> by lia. assert (j = 0) as -> by lia. apply Qc_is_canon. vm_compute. reflexivity. }
  split.
  { intros d Hd. split; [apply tab_length|]. split; [exact Hd|]. intros i Hi. cbn in Hi. assert (i = 0) as -> by lia.
    change (mv 1 fm_one (vat (tab 1 (mv 1 fm_one (vat d)))) 0 = vat d 0). unfold mv. cbn [sumf]. rewrite vat_tab by lia. unfold fm_one. cbn [Nat.eqb]. ring. }
  split.
  { split; [reflexivity|]. split; [reflexivity|]. intros i Hi. apply Qc_is_canon. destruct i as [|[|i]]; [| |cbn in Hi; lia]; vm_compute; reflexivity. }
  split.
  { assert (E : forall r : res (nat * list Qc * list (list Qc)), (o <- r ;; Ok (fst (fst o), map this (snd (fst o)), map (map this) (snd o)))
       = Ok (1, map this [qz 1; Q2Qc (1 # 2)], map (map this) [[qz 0; qz 1]]) -> r = Ok (1, [qz 1; Q2Qc (1 # 2)], [[qz 0; qz 1]])).
    { assert (Hinj : forall a l : list Qc, map this a = map this l -> a = l).
      { intros a l Ea. assert (Ok a = Ok l) by (apply show_list_eq; cbn; f_equal; exact Ea). congruence. }
      intros [[[a1 a2] a3]|e]; cbn [bind fst snd]; [|discriminate]. intros H. injection H as H1 H2 H3. subst a1.
      apply (Hinj a2 [qz 1; Q2Qc (1 # 2)]) in H2. subst a2. do 2 f_equal.
      destruct a3 as [|u [|v a3]]; cbn [map] in H3; try discriminate. injection H3 as H3. f_equal. apply (Hinj u [qz 0; qz 1]). exact H3. }
    apply E. vm_compute. reflexivity. }
  intros (_ & _ & Hs). specialize (Hs 1). assert (Hs' : 1 < dim fm_H 1) by (cbn; lia). specialize (Hs Hs').
  apply (f_equal this) in Hs. vm_compute in Hs. discriminate.
Qed.
