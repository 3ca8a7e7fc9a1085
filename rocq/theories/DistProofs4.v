(** Proofs about distributed operators *)
From Verif Require Import Util Lin LocalProofs CSRModel SparsitySpec CSRSpec CSRProofs OverlapModel OverlapSpec OverlapProofs2 OverlapProofs5 DistModel DistSpec DistProofs DistProofs2 DistProofs3.
Local Open Scope nat_scope.
Set Default Proof Using "Type".

Lemma copy_into_ok n (v w : list Qc) : length v = n -> length w = n -> copy_into v w = Ok v.
Proof. intros Hv Hw. unfold copy_into. rewrite Hv. apply copy_n; auto. Qed.

(** * Rows of CSR operators *)
Section Rows.
  Variables (n : nat) (A : csr).
  Hypothesis wf : wf_csr n n A.
  Lemma csr_row_ok sign z r i : length z = n -> i < n -> csr_row A sign z r i = Ok (r + sign * mv n (matrix A) (vat z) i)%Qc.
  Proof using wf.
    intros Hz Hi. destruct wf as (_ & wfr). unfold csr_row.
    rewrite (for_row_list n n _ _ _ wfr i _ (fun p t => xj <- aget z (fst p) ;; Ok (t + sign * (snd p * xj))%Qc)) by
      (auto; intros jj j d s _ E1 E2; rewrite (aget_ok _ _ _ E1), (aget_ok _ _ _ E2); reflexivity).
    assert (forall row t, (forall p, In p row -> fst p < n) -> for_list row (fun p t => xj <- aget z (fst p) ;; Ok (t + sign * (snd p * xj))%Qc) t
      = Ok (t + sign * suml (map (fun p => snd p * vat z (fst p)) row))%Qc) as G.
    { induction row as [|p row IH]; intros t H; cbn [for_list map suml]; [f_equal; ring|].
      rewrite (aget_nth _ _ 0%Qc) by (rewrite Hz; apply H; left; auto). cbn [bind]. rewrite IH by (intros q Hq; apply H; right; auto). f_equal. unfold vat. ring. }
    rewrite G by apply (row_cols n n _ _ _ wfr). rewrite (ent_dot _ n (vat z)) by apply (row_cols n n _ _ _ wfr). reflexivity.
  Qed.
  Variables (sign : Qc) (idx : list nat) (z : list Qc) (rhs : nat -> res Qc) (b : nat -> Qc).
  Hypotheses (Hz : length z = n) (Hidx : forall i, In i idx -> i < n) (Hb : forall i, i < n -> rhs i = Ok (b i)).
  Let val i := (b i + sign * mv n (matrix A) (vat z) i)%Qc.
  Lemma shared_rows_ok w : length w = n -> exists w', csr_shared_rows A sign idx z rhs w = Ok w' /\ length w' = n /\
    (forall i, In i idx -> vat w' i = val i).
  Proof using wf Hz Hidx Hb.
    intros Hw. unfold csr_shared_rows.
    destruct (for_range_inv (fun k s => length s = n /\ forall i, In i (firstn k idx) -> vat s i = val i)
      (fun k w => i <- aget idx k ;; r <- rhs i ;; t <- csr_row A sign z r i ;; aset w i t) 0 (length idx) w) as (s & E & L & Hs).
    - lia.
    - split; auto. intros i [].
    - intros k s Hk (L & Hs). destruct (nth_error idx k) as [i|] eqn:Ei; [|apply nth_error_None in Ei; lia]. rewrite (aget_ok _ _ _ Ei). cbn [bind].
      assert (i < n) as Hi by (apply Hidx; eapply nth_error_In; eauto). rewrite Hb by auto. cbn [bind]. rewrite csr_row_ok by auto. cbn [bind]. rewrite aset_ok by lia.
      eexists. split; [reflexivity|]. split; [rewrite upd_length; auto|]. intros j Hj. rewrite vat_upd by lia. destruct (Nat.eqb_spec j i) as [->|Hne]; auto. apply Hs.
      assert (firstn (S k) idx = firstn k idx ++ [i]) as EF.
      { clear - Ei. revert k Ei. induction idx as [|a l IH]; intros [|k] Ek; cbn in *; try discriminate; [congruence|]. f_equal. apply IH. auto. }
      rewrite EF in Hj. apply in_app_or in Hj as [Hj|[Hj|[]]]; auto. congruence.
    - exists s. split; [exact E|]. split; auto. intros i Hi. apply Hs. rewrite firstn_all. auto.
  Qed.
  Lemma other_rows_ok w : length w = n -> exists w', csr_other_rows A sign idx z rhs w = Ok w' /\ length w' = n /\
    ((forall i, In i idx -> vat w i = val i) -> w' = tab n val).
  Proof using wf Hz Hidx Hb.
    intros Hw. unfold csr_other_rows. rewrite (csr_nrows n n A wf).
    set (body := fun (i : nat) (s : list Qc * nat) => let '(w, k) := s in same <- (if k <? length idx then j <- aget idx k ;; Ok (j =? i) else Ok false) ;;
          if (same : bool) then Ok (w, k + 1) else r <- rhs i ;; t <- csr_row A sign z r i ;; w <- aset w i t ;; Ok (w, k)).
    destruct (for_range_inv (fun i s => length (fst s) = n /\ ((forall i, In i idx -> vat w i = val i) -> forall j, j < i \/ In j idx -> vat (fst s) j = val j)) body 0 n (w, 0)) as ((s, k) & E & L & Hs).
    - lia.
    - split; auto. intros Hsh j [|]; [lia|auto].
    - intros i (s, k) Hi (L & Hs). cbn [fst] in *. unfold body.
      assert ((if k <? length idx then j <- aget idx k ;; Ok (j =? i) else Ok false) = Ok (if k <? length idx then nth k idx 0 =? i else false)) as ->.
      { destruct (k <? length idx) eqn:Ek; auto. apply Nat.ltb_lt in Ek. rewrite (aget_nth _ _ 0) by auto. reflexivity. }
      cbn [bind]. destruct (if k <? length idx then nth k idx 0 =? i else false) eqn:Es.
      + eexists. split; [reflexivity|]. cbn [fst]. split; auto. intros Hsh j [Hj|Hj]; [|auto]. apply Hs; auto. destruct (Nat.eq_dec j i) as [->|]; [|left; lia]. right.
        destruct (k <? length idx) eqn:Ek; [|discriminate]. apply Nat.ltb_lt in Ek. apply Nat.eqb_eq in Es. rewrite <- Es. apply nth_In. auto.
      + rewrite Hb by lia. cbn [bind]. rewrite csr_row_ok by (auto; lia). cbn [bind]. rewrite aset_ok by lia. cbn [bind]. eexists. split; [reflexivity|]. cbn [fst].
        split; [rewrite upd_length; auto|]. intros Hsh j Hj. rewrite vat_upd by lia. destruct (Nat.eqb_spec j i) as [->|]; auto. apply Hs; auto. destruct Hj; [left; lia|auto].
    - fold body. rewrite E. cbn [bind fst] in *. exists s. split; auto. split; auto. intros Hsh. apply (eq_tab s n _ 0%Qc); auto. intros i Hi. apply Hs; auto.
  Qed.
End Rows.

Section Consistent.
  Context {P N : nat} {size : nat -> nat} {mgr : nat -> manager} {glob : nat -> list nat}.
  Hypothesis Hc : consistent P N size mgr glob.
  Let Hv := con_valid _ _ _ _ _ Hc.
  Let D (p : nat) := prepareDistribute (mgr p).

  (** What doDistribute does to the whole *)
  Definition shared_out (doDistribute : bool) (x : nat -> Qc) (I : nat) : Qc := if doDistribute then (x I / qn (multiplicity P glob I))%Qc else x I.

  Lemma weighted_restricted x p : p < P -> @weighted P size glob (restricted glob x) p = restricted glob (shared_out true x) p.
  Proof using Hc.
    intros Hp. unfold weighted, restricted. rewrite (list_eq_tab (map (shared_out true x) (glob p)) 0%Qc). rewrite map_length, (con_size _ _ _ _ _ Hc) by auto. apply tab_ext. intros i Hi.
    rewrite <- (con_size _ _ _ _ _ Hc p Hp) in Hi.
    rewrite (nth_indep _ 0%Qc (shared_out true x 0)) by (rewrite map_length; auto). rewrite (map_nth (shared_out true x)). unfold vat.
    rewrite (nth_indep _ 0%Qc (x 0)) by (rewrite map_length; auto). rewrite (map_nth x). reflexivity.
  Qed.
  Lemma restricted_length x p : p < P -> length (restricted glob x p) = size p.
  Proof using Hc. intros Hp. unfold restricted. rewrite map_length. apply (con_size _ _ _ _ _ Hc). auto. Qed.
  Lemma restricted_ext x x' p : p < P -> (forall I, I < N -> x I = x' I) -> restricted glob x p = restricted glob x' p.
  Proof using Hc. intros Hp H. unfold restricted. apply map_ext_in. intros I HI. apply H. eapply con_range; eauto. Qed.

  Section Operator.
    Variables (dd kk : bool).
    Lemma prepare_ok K p m : p < P -> shaped K (size p) m -> 4 <= K ->
      exists m', prepare size D dd p m = Ok m' /\ shaped K (size p) m' /\ length m' = length m /\ (forall k, k <> 2 -> reg m' k = reg m k) /\
      (forall x, reg m 0 = restricted glob x p -> reg m' (source dd) = restricted glob (shared_out dd x) p).
    Proof using Hc.
      intros Hp Hm HK. unfold prepare, source. destruct dd.
      - rewrite (dist_to_ok Hc K) by (auto; lia). eexists. split; [reflexivity|]. split; [apply shaped_set; auto; apply weighted_length|]. split; [apply upd_length|].
        split; [intros k Hk; apply reg_neq; auto|]. intros x Hx. destruct Hm as (L & _). rewrite reg_eq by lia. rewrite <- weighted_restricted by auto. apply weighted_ext. auto.
      - exists m. split; auto.
    Qed.
    Lemma keep_ok K p m w : shaped K (size p) m -> 4 <= K -> length w = size p -> exists m', keep kk p (set_reg m (target kk) w) = Ok m' /\ shaped K (size p) m' /\ length m' = length m /\
      (forall k, k <> 1 -> k <> 3 -> reg m' k = reg m k) /\ reg m' 1 = w /\ (kk = true -> reg m' 3 = w).
    Proof.
      intros Hm HK Hw. assert (shaped K (size p) (set_reg m (target kk) w)) as Hm1 by (apply shaped_set; auto). destruct Hm as (L & _).
      unfold keep, target in *. destruct kk.
      - destruct (shaped_get _ _ _ 3 Hm1) as (E1 & L1); [lia|]. destruct (shaped_get _ _ _ 1 Hm1) as (E2 & L2); [lia|]. rewrite E1, E2. cbn [bind].
        rewrite (copy_into_ok (size p)) by auto. cbn [bind]. rewrite (shaped_aset K (size p)) by (auto; lia). eexists. split; [reflexivity|]. rewrite reg_eq in * by lia.
        split; [apply shaped_set; auto|]. split; [unfold set_reg; rewrite !upd_length; auto|]. split; [intros k H1 H2; rewrite !reg_neq by auto; auto|].
        split; [apply reg_eq; unfold set_reg; rewrite upd_length; lia|]. intros _. rewrite reg_neq by lia. apply reg_eq. lia.
      - eexists. split; [reflexivity|]. split; auto. split; [apply upd_length|]. split; [intros k H1 H2; apply reg_neq; auto|]. split; [apply reg_eq; lia|discriminate].
    Qed.

    (** ** Any local operator *)
    Variables (Mat : nat -> mat) (K : nat) (m : nat -> mem) (x : nat -> Qc).
    Hypothesis Hm : forall p, p < P -> shaped K (size p) (m p).
    Let G := assembled_matrix P glob Mat.
    Let x' := shared_out dd x.

    Definition local_ok (A : nat -> list Qc -> list Qc -> res (list Qc)) : Prop :=
      forall p z w, p < P -> length z = size p -> length w = size p -> A p z w = Ok (tab (size p) (mv (size p) (Mat p) (vat z))).
    Definition local_residual_ok (R : nat -> list Qc -> list Qc -> list Qc -> res (list Qc)) : Prop :=
      forall p z b w, p < P -> length z = size p -> length b = size p -> length w = size p -> R p z b w = Ok (tab (size p) (fun i => (vat b i - mv (size p) (Mat p) (vat z) i)%Qc)).
    Definition local_product (y : nat -> Qc) (q : nat) : list Qc := tab (size q) (mv (size q) (Mat q) (vat (restricted glob y q))).
    Lemma local_product_ok y I : I < N -> assembled P glob (local_product y) I = mv N G y I.
    Proof using Hc.
      intros HI. unfold G. rewrite <- (matrix_ok Hc) by auto. apply assembled_ext. intros q Hq. unfold local_product. rewrite (con_size _ _ _ _ _ Hc q Hq). auto.
    Qed.
    Lemma assembled_minus u v I : (forall q, q < P -> length (u q) = size q) -> (forall q, q < P -> length (v q) = size q) ->
      assembled P glob (fun q => tab (size q) (fun i => (vat (u q) i - vat (v q) i)%Qc)) I = (assembled P glob u I - assembled P glob v I)%Qc.
    Proof using Hc.
      intros Hu Hw. unfold assembled. rewrite <- sumf_minus. apply sumf_ext. intros q Hq. rewrite <- sumf_minus. apply sumf_ext. intros i Hi.
      rewrite vat_tab by (rewrite <- (con_size _ _ _ _ _ Hc q Hq); auto). destruct (_ =? _); ring.
    Qed.

    Lemma matvec_step A p r : local_ok A -> p < P -> shaped K (size p) r -> 4 <= K ->
      exists r', (m0 <- prepare size D dd p r ;; z <- aget m0 (source dd) ;; w <- aget m0 (target kk) ;; w <- A p z w ;; m0 <- aset m0 (target kk) w ;; keep kk p m0) = Ok r' /\
      shaped K (size p) r' /\ length r' = length r /\ (forall k, k <> 1 -> k <> 2 -> k <> 3 -> reg r' k = reg r k) /\
      forall y, reg r 0 = restricted glob y p -> reg r' 1 = local_product (shared_out dd y) p /\ (kk = true -> reg r' 3 = reg r' 1).
    Proof using Hc.
      clear x'. intros HA Hp Hr HK. destruct (prepare_ok K p r Hp Hr HK) as (m1 & E1 & S1 & L1 & O1 & X1). rewrite E1. cbn [bind].
      assert (source dd < K) as Hs by (unfold source; destruct dd; lia). assert (target kk < K) as Ht by (unfold target; destruct kk; lia).
      destruct (shaped_get _ _ _ _ S1 Hs) as (E2 & L2). destruct (shaped_get _ _ _ _ S1 Ht) as (E3 & L3). rewrite E2, E3. cbn [bind]. rewrite HA by auto. cbn [bind].
      rewrite (shaped_aset K (size p)) by auto. cbn [bind]. destruct (keep_ok K p m1 _ S1 HK (tab_length (size p) (mv (size p) (Mat p) (vat (reg m1 (source dd)))))) as (m2 & E4 & S2 & L4 & O2 & R1 & R2). rewrite E4.
      exists m2. split; auto. split; auto. split; [congruence|]. split; [intros k H1 H2 H3; rewrite O2, O1 by auto; auto|].
      intros y Hy. rewrite R1. split; [unfold local_product; rewrite (X1 y Hy); auto|auto].
    Qed.
    Lemma dist_matvec_ok A : local_ok A -> 4 <= K -> represents P N glob true (fun p => reg (m p) 0) x ->
      always P mgr (dist_matvec size D dd kk A) m (fun p r => reg r 0 = reg (m p) 0 /\ reg r 1 = restricted glob (mv N G x') p /\ (kk = true -> reg r 3 = local_product x' p)).
    Proof using Hc Hm.
      intros HA HK Hx. cbn [represents] in Hx. apply (always_ok P K size); auto.
      - constructor; [|constructor]. cbn [pre what]. split; [|cbn; lia]. intros p r Hp Hr. unfold attempt. destruct (matvec_step A p r HA Hp Hr HK) as (r' & E & S1 & _). rewrite E. auto.
      - repeat constructor.
      - intros p Hp. cbn [dist_matvec program_spec fold_left]. unfold round_spec. cbn [pre what call_spec].
        set (step := fun q (r : mem) => attempt (fun p m0 => m1 <- prepare size D dd p m0 ;; z <- aget m1 (source dd) ;; w <- aget m1 (target kk) ;; w <- A p z w ;; m1 <- aset m1 (target kk) w ;; keep kk p m1) q r).
        assert (forall q, q < P -> shaped K (size q) (step q (m q)) /\ length (step q (m q)) = length (m q) /\ reg (step q (m q)) 0 = reg (m q) 0 /\ reg (step q (m q)) 1 = local_product x' q /\ (kk = true -> reg (step q (m q)) 3 = local_product x' q)) as Hst.
        { intros q Hq. unfold step, attempt. destruct (matvec_step A q (m q) HA Hq (Hm q Hq) HK) as (r' & E & S1 & L1 & O1 & X1). rewrite E. destruct (X1 x (Hx q Hq)) as (X2 & X3).
          split; auto. split; auto. split; [apply O1; lia|]. split; auto. intros Hk. rewrite X3; auto. }
        fold (step p (m p)). destruct (Hst p Hp) as (S1 & L1 & O1 & X1 & X2). rewrite (reg_neq _ _ 0), (reg_neq _ _ 3) by lia. split; auto. split; auto.
        rewrite reg_eq by (rewrite L1; destruct (Hm p Hp); lia).
        rewrite (accumulated_ok Hc p (fun q => reg (step q (m q)) 1)) by (auto; rewrite X1; apply tab_length).
        apply restricted_ext; auto. intros I HI. rewrite <- local_product_ok by auto. apply assembled_ext. intros q Hq. apply Hst. auto.
    Qed.

    Lemma residual_step R p r : local_residual_ok R -> p < P -> shaped K (size p) r -> 5 <= K ->
      exists r', (m0 <- prepare size D dd p r ;; z <- aget m0 (source dd) ;; rhs <- aget m0 4 ;; w <- aget m0 (target kk) ;; w <- R p z rhs w ;; m0 <- aset m0 (target kk) w ;; keep kk p m0) = Ok r' /\
      shaped K (size p) r' /\ length r' = length r /\ (forall k, k <> 1 -> k <> 2 -> k <> 3 -> reg r' k = reg r k) /\
      forall y, reg r 0 = restricted glob y p -> reg r' 1 = tab (size p) (fun i => (vat (reg r 4) i - vat (local_product (shared_out dd y) p) i)%Qc) /\ (kk = true -> reg r' 3 = reg r' 1).
    Proof using Hc.
      clear x'. intros HR Hp Hr HK. assert (4 <= K) as HK' by lia. destruct (prepare_ok K p r Hp Hr HK') as (m1 & E1 & S1 & L1 & O1 & X1). rewrite E1. cbn [bind].
      assert (source dd < K) as Hs by (unfold source; destruct dd; lia). assert (target kk < K) as Ht by (unfold target; destruct kk; lia).
      destruct (shaped_get _ _ _ _ S1 Hs) as (E2 & L2). destruct (shaped_get _ _ _ _ S1 Ht) as (E3 & L3). destruct (shaped_get _ _ _ 4 S1) as (E5 & L5); [lia|]. rewrite E2, E5. cbn [bind]. rewrite E3. cbn [bind]. rewrite HR by auto. cbn [bind].
      rewrite (shaped_aset K (size p)) by auto. cbn [bind]. destruct (keep_ok K p m1 _ S1 HK' (tab_length (size p) (fun i => (vat (reg m1 4) i - mv (size p) (Mat p) (vat (reg m1 (source dd))) i)%Qc))) as (m2 & E4 & S2 & L4 & O2 & R1 & R2). rewrite E4.
      exists m2. split; auto. split; auto. split; [congruence|]. split; [intros k H1 H2 H3; rewrite O2, O1 by auto; auto|].
      intros y Hy. rewrite R1. split; [|auto]. apply tab_ext. intros i Hi. unfold local_product. rewrite vat_tab by auto. rewrite (X1 y Hy), O1 by lia. reflexivity.
    Qed.
    Lemma dist_residual_ok R b : local_residual_ok R -> 5 <= K -> represents P N glob true (fun p => reg (m p) 0) x -> represents P N glob false (fun p => reg (m p) 4) b ->
      always P mgr (dist_residual size D dd kk R) m (fun p r => reg r 0 = reg (m p) 0 /\ reg r 4 = reg (m p) 4 /\ reg r 1 = restricted glob (fun I => (b I - mv N G x' I)%Qc) p).
    Proof using Hc Hm.
      intros HR HK Hx Hb. cbn [represents] in Hx, Hb. apply (always_ok P K size); auto.
      - constructor; [|constructor]. cbn [pre what]. split; [|cbn; lia]. intros p r Hp Hr. unfold attempt. destruct (residual_step R p r HR Hp Hr HK) as (r' & E & S1 & _). rewrite E. auto.
      - repeat constructor.
      - intros p Hp. cbn [dist_residual program_spec fold_left]. unfold round_spec. cbn [pre what call_spec].
        set (step := fun q (r : mem) => attempt (fun p m0 => m1 <- prepare size D dd p m0 ;; z <- aget m1 (source dd) ;; rhs <- aget m1 4 ;; w <- aget m1 (target kk) ;; w <- R p z rhs w ;; m1 <- aset m1 (target kk) w ;; keep kk p m1) q r).
        assert (forall q, q < P -> shaped K (size q) (step q (m q)) /\ length (step q (m q)) = length (m q) /\ reg (step q (m q)) 0 = reg (m q) 0 /\ reg (step q (m q)) 4 = reg (m q) 4 /\
          reg (step q (m q)) 1 = tab (size q) (fun i => (vat (reg (m q) 4) i - vat (local_product x' q) i)%Qc)) as Hst.
        { intros q Hq. unfold step, attempt. destruct (residual_step R q (m q) HR Hq (Hm q Hq) HK) as (r' & E & S1 & L1 & O1 & X1). rewrite E. destruct (X1 x (Hx q Hq)) as (X2 & X3).
          split; auto. split; auto. split; [apply O1; lia|]. split; [apply O1; lia|auto]. }
        fold (step p (m p)). destruct (Hst p Hp) as (S1 & L1 & O1 & O2 & X1). rewrite !reg_neq by lia. split; auto. split; auto.
        rewrite reg_eq by (rewrite L1; destruct (Hm p Hp); lia).
        rewrite (accumulated_ok Hc p (fun q => reg (step q (m q)) 1)) by (auto; rewrite X1; apply tab_length).
        apply restricted_ext; auto. intros I HI. rewrite <- local_product_ok by auto. rewrite <- Hb by auto.
        rewrite <- (assembled_minus (fun q => reg (m q) 4)).
        + apply assembled_ext. intros q Hq. apply Hst. auto.
        + intros q Hq. apply (Hm q Hq). lia.
        + intros q Hq. apply tab_length.
    Qed.
  End Operator.

  (** ** CSR operators *)
  Section CSROperator.
    Variables (dd kk : bool) (A : nat -> csr) (idx : nat -> list nat) (K : nat) (m : nat -> mem) (x : nat -> Qc).
    Hypothesis Hm : forall p, p < P -> shaped K (size p) (m p).
    Hypothesis Hwf : forall p, p < P -> wf_csr (size p) (size p) (A p).
    Hypothesis Hidx : forall p i, p < P -> In i (idx p) <-> In i (flat_map o_shared (mgr p)).
    Let Mat p := matrix (A p).
    Let G := assembled_matrix P glob Mat.

    Lemma idx_range p i : p < P -> In i (idx p) -> i < size p.
    Proof using Hc Hidx.
      intros Hp Hi. apply Hidx in Hi; auto. apply in_flat_map in Hi as (o & Ho & Hi). rewrite <- (shared_of Hc o p Hp Ho) in Hi. eapply valid_range; eauto.
    Qed.
    Lemma idx_shared p q i : p < P -> In i (shared mgr p q) -> In i (idx p).
    Proof using Hc Hidx.
      intros Hp Hi. apply Hidx; auto. unfold shared in Hi. destruct (find _ _) as [o|] eqn:E; [|destruct Hi]. apply find_some in E as (E & _). apply in_flat_map. exists o. auto.
    Qed.
    Lemma incoming_ext p q u v i : q < P -> (forall j, In j (idx q) -> vat u j = vat v j) -> incoming mgr p q u i = incoming mgr p q v i.
    Proof using Hc Hidx.
      intros Hq H. unfold incoming. replace (values_of mgr p q u) with (values_of mgr p q v); auto. unfold values_of. apply map_ext_in. intros j Hj. symmetry. apply H. eapply idx_shared; eauto.
    Qed.
    Lemma accumulated_ext p base u v : p < P -> (forall q j, q < P -> In j (idx q) -> vat (u q) j = vat (v q) j) -> accumulated mgr p base u = accumulated mgr p base v.
    Proof using Hc Hidx.
      intros Hp H. unfold accumulated. apply tab_ext. intros i Hi. do 2 f_equal. apply map_ext_in. intros q Hq. assert (q < P) as Hq' by (apply (valid_rank _ _ _ Hv p); auto). apply incoming_ext; auto.
    Qed.

    (** A program that computes the shared entries, sends them and then computes the others *)
    Lemma split_ok (first second : nat -> mem -> res mem) (val : nat -> list Qc) (same : nat -> Prop) : 4 <= K ->
      (forall p r, p < P -> shaped K (size p) r -> exists r', first p r = Ok r' /\ shaped K (size p) r') ->
      (forall p r, p < P -> shaped K (size p) r -> exists r', second p r = Ok r' /\ shaped K (size p) r') ->
      (forall p, p < P -> exists r1 r2, first p (m p) = Ok r1 /\ second p r1 = Ok r2 /\ shaped K (size p) r2 /\
         (forall j, In j (idx p) -> vat (reg r1 (target kk)) j = vat (val p) j) /\ reg r2 1 = val p /\ length r2 = length (m p) /\ forall k, same k -> reg r2 k = reg (m p) k) ->
      (forall k, same k -> k <> 1) ->
      always P mgr [Round (attempt first) (Exch (target kk) (attempt second) 1)] m
        (fun p r => reg r 1 = restricted glob (assembled P glob val) p /\ forall k, same k -> reg r k = reg (m p) k).
    Proof using Hc Hm Hidx.
      intros HK H1 H2 H12 Hsame. apply (always_ok P K size); auto.
      - constructor; [|constructor]. cbn [pre what proper_call]. split.
        + intros p r Hp Hr. unfold attempt. destruct (H1 p r Hp Hr) as (r' & -> & S1). auto.
        + split; [unfold target; destruct kk; lia|]. split; [lia|]. intros p r Hp Hr. unfold attempt. destruct (H2 p r Hp Hr) as (r' & -> & S1). auto.
      - repeat constructor.
      - intros p Hp. cbn [program_spec fold_left]. unfold round_spec. cbn [pre what call_spec]. destruct (H12 p Hp) as (r1 & r2 & E1 & E2 & S2 & V1 & V2 & L2 & O2).
        assert (attempt first p (m p) = r1) as -> by (unfold attempt; rewrite E1; auto). assert (attempt second p r1 = r2) as -> by (unfold attempt; rewrite E2; auto).
        split; [|intros k Hk; rewrite reg_neq by (apply Hsame in Hk; auto); auto]. rewrite reg_eq by (rewrite L2; destruct (Hm p Hp); lia). rewrite V2.
        rewrite <- (accumulated_ok Hc p val) by (auto; rewrite <- V2; apply S2; lia). apply accumulated_ext; auto. intros q j Hq Hj.
        destruct (H12 q Hq) as (s1 & s2 & F1 & F2 & _ & W1 & _). unfold attempt. rewrite F1. auto.
    Qed.

    Section Program.
      Variables (prep : nat -> mem -> res mem) (sign : Qc) (rhs : mem -> nat -> res Qc) (b : mem -> nat -> Qc) (same : nat -> Prop) (y : nat -> Qc).
      Hypothesis HK : 4 <= K.
      Hypothesis Hprep : forall p r, p < P -> shaped K (size p) r -> exists r', prep p r = Ok r' /\ shaped K (size p) r' /\ length r' = length r /\ (forall k, same k -> reg r' k = reg r k) /\
        (reg r 0 = restricted glob x p -> reg r' (source dd) = restricted glob y p).
      Hypothesis Hrhs : forall p r i, p < P -> shaped K (size p) r -> i < size p -> rhs r i = Ok (b r i).
      Hypothesis Hb : forall r r', (forall k, same k -> reg r' k = reg r k) -> b r' = b r.
      Hypothesis Hsame : forall k, same k -> k <> 1 /\ k <> 3.
      Lemma csr_dist_ok : represents P N glob true (fun p => reg (m p) 0) x ->
        always P mgr (csr_dist dd kk prep sign rhs A idx) m
          (fun p r => reg r 1 = restricted glob (assembled P glob (fun q => tab (size q) (fun i => (b (m q) i + sign * vat (local_product Mat y q) i)%Qc))) p /\ forall k, same k -> reg r k = reg (m p) k).
      Proof using Hc Hm Hwf Hidx HK Hprep Hrhs Hb Hsame.
        intros Hx. cbn [represents] in Hx. unfold csr_dist.
        assert (target kk < K /\ target kk <> source dd /\ forall k, same k -> k <> target kk) as (Ht & Ht0 & Hst) by (unfold target, source; destruct kk, dd; repeat split; try lia; intros k Hk; apply Hsame in Hk; lia).
        assert (source dd < K) as Hs by (unfold source; destruct dd; lia).
        assert (forall p r, p < P -> shaped K (size p) r -> exists r', (m0 <- prep p r ;; z <- aget m0 (source dd) ;; w <- aget m0 (target kk) ;; w <- csr_shared_rows (A p) sign (idx p) z (rhs m0) w ;; aset m0 (target kk) w) = Ok r' /\
          shaped K (size p) r' /\ length r' = length r /\ (forall k, same k -> reg r' k = reg r k) /\
          (forall j, In j (idx p) -> vat (reg r' (target kk)) j = (b r j + sign * mv (size p) (Mat p) (vat (reg r' (source dd))) j)%Qc) /\ (reg r 0 = restricted glob x p -> reg r' (source dd) = restricted glob y p)) as S1.
        { intros p r Hp Hr. destruct (Hprep p r Hp Hr) as (r1 & E0 & Q1 & Q2 & Q3 & Q4). rewrite E0. cbn [bind].
          destruct (shaped_get _ _ _ _ Q1 Hs) as (E1 & L1). destruct (shaped_get _ _ _ _ Q1 Ht) as (E2 & L2). rewrite E1, E2. cbn [bind].
          destruct (shared_rows_ok (size p) (A p) (Hwf p Hp) sign (idx p) (reg r1 (source dd)) (rhs r1) (b r1) L1 (fun i => idx_range p i Hp) (fun i => Hrhs p r1 i Hp Q1) _ L2) as (w & E & Lw & Vw). rewrite E. cbn [bind].
          rewrite (shaped_aset K (size p)) by auto. eexists. split; [reflexivity|]. split; [apply shaped_set; auto|]. split; [unfold set_reg; rewrite upd_length; auto|].
          split; [intros k Hk; rewrite reg_neq by (apply Hst in Hk; auto); auto|]. rewrite (reg_neq _ _ (source dd)) by auto. split; [|auto].
          intros j Hj. rewrite reg_eq by (destruct Q1; lia). rewrite <- (Hb r r1) by auto. apply Vw. auto. }
        assert (forall p r, p < P -> shaped K (size p) r -> exists r', (z <- aget r (source dd) ;; w <- aget r (target kk) ;; w <- csr_other_rows (A p) sign (idx p) z (rhs r) w ;; m0 <- aset r (target kk) w ;; keep kk p m0) = Ok r' /\
          shaped K (size p) r' /\ length r' = length r /\ (forall k, same k -> reg r' k = reg r k) /\
          ((forall j, In j (idx p) -> vat (reg r (target kk)) j = (b r j + sign * mv (size p) (Mat p) (vat (reg r (source dd))) j)%Qc) -> reg r' 1 = tab (size p) (fun j => (b r j + sign * mv (size p) (Mat p) (vat (reg r (source dd))) j)%Qc))) as S2.
        { intros p r Hp Hr. destruct (shaped_get _ _ _ _ Hr Hs) as (E1 & L1). destruct (shaped_get _ _ _ _ Hr Ht) as (E2 & L2). rewrite E1, E2. cbn [bind].
          destruct (other_rows_ok (size p) (A p) (Hwf p Hp) sign (idx p) (reg r (source dd)) (rhs r) (b r) L1 (fun i => idx_range p i Hp) (fun i => Hrhs p r i Hp Hr) _ L2) as (w & E & Lw & Vw). rewrite E. cbn [bind].
          rewrite (shaped_aset K (size p)) by auto. cbn [bind]. destruct (keep_ok kk K p r w Hr HK Lw) as (r' & E3 & Q1 & Q2 & Q3 & Q4 & _). rewrite E3. exists r'. split; auto. split; auto. split; auto.
          split; [intros k Hk; apply Hsame in Hk; apply Q3; tauto|]. intros H. rewrite Q4. apply Vw. auto. }
        apply split_ok; auto.
        - intros p r Hp Hr. destruct (S1 p r Hp Hr) as (r' & E & Q & _). eauto.
        - intros p r Hp Hr. destruct (S2 p r Hp Hr) as (r' & E & Q & _). eauto.
        - intros p Hp. destruct (S1 p (m p) Hp (Hm p Hp)) as (r1 & E1 & Q1 & L1 & O1 & V1 & X1). destruct (S2 p r1 Hp Q1) as (r2 & E2 & Q2 & L2 & O2 & V2).
          exists r1, r2. specialize (X1 (Hx p Hp)). split; auto. split; auto. split; auto. rewrite (Hb (m p) r1) in V2 by auto. split; [|split; [|split]].
          + intros j Hj. rewrite V1 by auto. rewrite vat_tab by (apply idx_range; auto). unfold local_product. rewrite vat_tab by (apply idx_range; auto). rewrite X1. reflexivity.
          + rewrite V2 by auto. apply tab_ext. intros i Hi. unfold local_product. rewrite vat_tab by auto. rewrite X1. reflexivity.
          + congruence.
          + intros k Hk. rewrite O2, O1; auto.
        - intros k Hk. apply Hsame in Hk. tauto.
      Qed.
    End Program.

    Lemma csr_dist_matvec_ok : 4 <= K -> dd = false -> represents P N glob true (fun p => reg (m p) 0) x ->
      always P mgr (csr_dist_matvec dd kk A idx) m (fun p r => reg r 0 = reg (m p) 0 /\ reg r 1 = restricted glob (mv N G x) p).
    Proof using Hc Hm Hwf Hidx.
      intros HK Hd Hx.
      assert (always P mgr (csr_dist_matvec dd kk A idx) m (fun p r => reg r 1 = restricted glob (assembled P glob (fun q => tab (size q) (fun i => (0 + 1 * vat (local_product Mat x q) i)%Qc))) p /\ forall k, k = 0 -> reg r k = reg (m p) k)) as (B & H).
      { apply (csr_dist_ok _ 1%Qc _ (fun _ _ => 0%Qc) (fun k => k = 0) x); auto.
        - intros p r Hp Hr. exists r. rewrite Hd. cbn. auto 10.
        - intros k ->. lia. }
      exists B. intros buf n w R. destruct (H buf n w R) as (H1 & H2 & H3 & H4). split; auto. split; auto. split; auto. intros p Hp Hd'. destruct (H4 p Hp Hd') as (H5 & H6). split; [apply H6; auto|].
      rewrite H5. apply restricted_ext; auto. intros I HI. unfold G. rewrite <- local_product_ok by auto. apply assembled_ext. intros q Hq. unfold local_product. apply tab_ext. intros i Hi. rewrite vat_tab by auto. ring.
    Qed.
    Lemma csr_dist_residual_ok rhs : 5 <= K -> represents P N glob true (fun p => reg (m p) 0) x -> represents P N glob false (fun p => reg (m p) 4) rhs ->
      always P mgr (csr_dist_residual size D dd kk A idx) m (fun p r => reg r 0 = reg (m p) 0 /\ reg r 4 = reg (m p) 4 /\ reg r 1 = restricted glob (fun I => (rhs I - mv N G (shared_out dd x) I)%Qc) p).
    Proof using Hc Hm Hwf Hidx.
      intros HK Hx Hb. cbn [represents] in Hb. assert (4 <= K) as HK' by lia.
      assert (always P mgr (csr_dist_residual size D dd kk A idx) m (fun p r => reg r 1 = restricted glob (assembled P glob (fun q => tab (size q) (fun i => (vat (reg (m q) 4) i + -(1) * vat (local_product Mat (shared_out dd x) q) i)%Qc))) p /\ forall k, k = 0 \/ k = 4 -> reg r k = reg (m p) k)) as (B & H).
      { apply (csr_dist_ok (prepare size D dd) (-(1))%Qc _ (fun r => vat (reg r 4)) (fun k => k = 0 \/ k = 4) (shared_out dd x)); auto.
        - intros p r Hp Hr. destruct (prepare_ok dd K p r Hp Hr HK') as (r' & E & Q1 & Q2 & Q3 & Q4). exists r'. split; auto. split; auto. split; auto. split; [intros k Hk; apply Q3; lia|auto].
        - intros p r i Hp Hr Hi. destruct (shaped_get _ _ _ 4 Hr) as (E1 & L1); [lia|]. rewrite E1. cbn [bind]. apply aget_nth. lia.
        - intros r r' H. rewrite H; auto.
        - intros k Hk. lia. }
      exists B. intros buf n w R. destruct (H buf n w R) as (H1 & H2 & H3 & H4). split; auto. split; auto. split; auto. intros p Hp Hd'. destruct (H4 p Hp Hd') as (H5 & H6). split; [apply H6; auto|]. split; [apply H6; auto|].
      rewrite H5. apply restricted_ext; auto. intros I HI. unfold G. rewrite <- local_product_ok by auto. rewrite <- Hb by auto. rewrite <- (assembled_minus (fun q => reg (m q) 4)).
      - apply assembled_ext. intros q Hq. apply tab_ext. intros i Hi. ring.
      - intros q Hq. apply (Hm q Hq). lia.
      - intros q Hq. apply tab_length.
    Qed.
  End CSROperator.
End Consistent.
