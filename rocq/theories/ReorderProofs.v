(** Proofs about the Cuthill-McKee ordering. *)
From Verif Require Import Util ReorderModel ReorderSpec.
From Coq Require Import Permutation Sorted.
Set Default Proof Using "Type".

Lemma bind_Ok {X Y} (x : X) (f : X -> res Y) : bind (Ok x) f = f x.
Proof. reflexivity. Qed.
Lemma aget_app {X} (a b : list X) x k : k = length a -> aget (a ++ x :: b) k = Ok x.
Proof. intros ->. unfold aget. rewrite nth_error_app2, Nat.sub_diag by lia. reflexivity. Qed.
Lemma aset_app {X} (a b : list X) x y k : k = length a -> aset (a ++ x :: b) k y = Ok (a ++ y :: b).
Proof. intros ->. rewrite aset_ok by (rewrite app_length; cbn; lia). rewrite upd_middle. reflexivity. Qed.
Lemma rd_app {X} (a b : list X) (r : buf X) x k : k = length a -> rd (map Some (a ++ x :: b) ++ r) k = Ok x.
Proof. intros ->. apply rd_ok. rewrite nth_error_app1 by (rewrite map_length, app_length; cbn; lia). rewrite nth_error_map, nth_error_app2, Nat.sub_diag by lia. reflexivity. Qed.
Lemma wr_app {X} (a b : list X) (r : buf X) x y k : k = length a -> wr (map Some (a ++ x :: b) ++ r) k y = Ok (map Some (a ++ y :: b) ++ r).
Proof. intros ->. unfold wr. rewrite map_app, <- app_assoc. cbn [map app]. rewrite aset_app by (rewrite map_length; auto). rewrite map_app, <- app_assoc. reflexivity. Qed.
Lemma wr_end {X} (a : list X) (r : buf X) y k : k = length a -> r <> [] -> exists r', wr (map Some a ++ r) k y = Ok (map Some (a ++ [y]) ++ r') /\ length r = S (length r').
Proof.
  intros -> Hr. destruct r as [|x r]; [tauto|]. exists r. split; auto. unfold wr. rewrite aset_app by (rewrite map_length; auto). rewrite map_app, <- app_assoc. reflexivity.
Qed.

(** ** Degrees *)
Lemma existsb_snoc {X} (f : X -> bool) l x : existsb f (l ++ [x]) = existsb f l || f x.
Proof. rewrite existsb_app. cbn. rewrite orb_false_r. reflexivity. Qed.
Lemma firstn_skipn_snoc (l : list nat) a k : a + k < length l -> firstn (S k) (skipn a l) = firstn k (skipn a l) ++ [nth (a + k) l 0].
Proof.
  revert l. induction a as [|a IH]; intros l H.
  - cbn [skipn plus]. revert l H. induction k as [|k IHk]; intros l H; destruct l as [|x l]; cbn in H; try lia; [reflexivity|]. cbn [firstn]. change (x :: firstn (S k) l = x :: (firstn k l ++ [nth (0 + k) l 0])). rewrite IHk by (cbn; lia). reflexivity.
  - destruct l as [|x l]; cbn in H; [lia|]. cbn [skipn plus nth]. apply IH. lia.
Qed.

Section Graph.
  Variables (n : nat) (ind ptr : list nat).
  Hypothesis gok : graph_ok n ind ptr.
  Let lo i := nth i ptr 0.
  Let hi i := nth (S i) ptr 0.
  Lemma ptr_mono i j : i <= j -> j <= n -> nth i ptr 0 <= nth j ptr 0.
  Proof using gok. destruct gok as (L & B & M & V). intros H. induction H as [|j H IH]; intros; auto. etransitivity; [apply IH; lia|apply M; lia]. Qed.
  Lemma hi_bound i : i < n -> hi i <= length ind.
  Proof using gok. intros H. destruct gok as (L & B & M & V). etransitivity; [|exact B]. apply ptr_mono; lia. Qed.
  Lemma get_lo i : i < n -> aget ptr i = Ok (lo i).
  Proof using gok. intros. destruct gok as (L & _). apply aget_nth. lia. Qed.
  Lemma get_hi i : i < n -> aget ptr (S i) = Ok (hi i).
  Proof using gok. intros. destruct gok as (L & _). apply aget_nth. lia. Qed.
  Lemma get_ind k : k < length ind -> aget ind k = Ok (nth k ind 0) /\ nth k ind 0 < n.
  Proof using gok. intros. destruct gok as (L & B & M & V). split; [apply aget_nth|apply V]; auto. Qed.

  Definition deg : list nat := map (valence ind ptr) (seq 0 n).
  Lemma deg_length : length deg = n.
  Proof. unfold deg. rewrite map_length, seq_length. reflexivity. Qed.
  Lemma deg_nth i : i < n -> nth i deg 0 = valence ind ptr i.
  Proof. intros H. unfold deg. rewrite (nth_indep _ 0 (valence ind ptr 0)) by (rewrite map_length, seq_length; auto). rewrite map_nth, seq_nth by auto. reflexivity. Qed.

  Lemma node_degrees_ok : node_degrees ind ptr n = Ok deg.
  Proof using gok.
    unfold node_degrees.
    destruct (for_range_inv (fun m d => d = map (valence ind ptr) (seq 0 m) ++ repeat 0 (n - m))
      (fun ii degree => lo <- aget ptr ii ;; hi <- aget ptr (S ii) ;; degree <- aset degree ii (hi - lo) ;;
        '(_, degree) <- for_range lo hi (fun jj '(stop, degree) => if (stop : bool) then Ok (stop, degree)
          else j <- aget ind jj ;; if j =? ii then d <- aget degree ii ;; degree <- aset degree ii (S d) ;; Ok (true, degree) else Ok (false, degree)) (false, degree) ;;
        Ok degree) 0 n (repeat 0 n)) as (d & -> & HD).
    - lia.
    - rewrite Nat.sub_0_r. reflexivity.
    - intros m d Hm ->. rewrite get_lo, get_hi by lia. rewrite !bind_Ok. replace (n - m) with (S (n - S m)) by lia. cbn [repeat].
      set (a := map (valence ind ptr) (seq 0 m)). assert (La : m = length a) by (unfold a; rewrite map_length, seq_length; auto). set (b := repeat 0 (n - S m)).
      rewrite aset_app by auto. rewrite bind_Ok. assert (LH : lo m <= hi m) by (apply gok; lia).
      match goal with |- context [for_range (lo m) (hi m) ?f ?s0] => destruct (for_range_inv (fun jj (st : bool * list nat) => let c := existsb (Nat.eqb m) (firstn (jj - lo m) (skipn (lo m) ind)) in
        st = (c, a ++ (hi m - lo m + if c then 1 else 0) :: b)) f (lo m) (hi m) s0) as (st & -> & HS) end.
      + auto.
      + rewrite Nat.sub_diag. cbn. rewrite Nat.add_0_r. reflexivity.
      + intros jj st Hj ->. pose proof (hi_bound m ltac:(lia)) as HB. replace (S jj - lo m) with (S (jj - lo m)) by lia. rewrite firstn_skipn_snoc by lia. rewrite existsb_snoc. replace (lo m + (jj - lo m)) with jj by lia.
        destruct (existsb _ _); [eexists; split; reflexivity|]. rewrite (proj1 (get_ind jj ltac:(lia))). rewrite bind_Ok. cbn [orb]. rewrite (Nat.eqb_sym m). destruct (nth jj ind 0 =? m).
        * rewrite aget_app by auto. rewrite bind_Ok. rewrite aset_app by auto. rewrite bind_Ok. eexists. split; [reflexivity|]. do 3 f_equal. lia.
        * eexists. split; reflexivity.
      + cbv zeta in HS. rewrite HS. rewrite bind_Ok. eexists. split; [reflexivity|]. rewrite seq_S, map_app. rewrite <- app_assoc. reflexivity.
    - rewrite HD, Nat.sub_diag. cbn [repeat]. rewrite app_nil_r. reflexivity.
  Qed.

  (** ** The permutation of the nodes and its inverse *)
  Variable argsort : list nat -> list nat.
  Hypothesis sorts : is_argsort argsort.
  Definition sigma := argsort deg.
  Definition rho := argsort sigma.
  Lemma sigma_perm : Permutation sigma (seq 0 n).
  Proof using sorts. destruct (sorts deg) as [H _]. rewrite deg_length in H. exact H. Qed.
  Lemma sigma_length : length sigma = n.
  Proof using sorts. rewrite (Permutation_length sigma_perm), seq_length. auto. Qed.
  Lemma rho_perm : Permutation rho (seq 0 n).
  Proof using sorts. destruct (sorts sigma) as [H _]. rewrite sigma_length in H. exact H. Qed.
  Lemma rho_length : length rho = n.
  Proof using sorts. rewrite (Permutation_length rho_perm), seq_length. auto. Qed.
  Lemma sigma_lt k : k < n -> nth k sigma 0 < n.
  Proof using sorts. intros H. assert (Q : In (nth k sigma 0) (seq 0 n)) by (eapply Permutation_in; [apply sigma_perm|]; apply nth_In; rewrite sigma_length; auto). apply in_seq in Q. lia. Qed.
  Lemma rho_lt k : k < n -> nth k rho 0 < n.
  Proof using sorts. intros H. assert (Q : In (nth k rho 0) (seq 0 n)) by (eapply Permutation_in; [apply rho_perm|]; apply nth_In; rewrite rho_length; auto). apply in_seq in Q. lia. Qed.
  Lemma sorted_unique (l l' : list nat) : Permutation l l' -> StronglySorted le l -> StronglySorted le l' -> l = l'.
  Proof.
    clear. revert l'. induction l as [|a l IH]; intros l' HP H H'; [apply Permutation_nil in HP; auto|]. destruct l' as [|b l']; [apply Permutation_sym, Permutation_nil in HP; discriminate|].
    inversion H as [|? ? HS HF]; subst. inversion H' as [|? ? HS' HF']; subst. rewrite Forall_forall in HF, HF'.
    assert (E : a = b).
    { apply Nat.le_antisymm.
      - assert (Q : In b (a :: l)) by (eapply Permutation_in; [apply Permutation_sym; eauto|left; auto]). destruct Q as [->|Q]; auto.
      - assert (Q : In a (b :: l')) by (eapply Permutation_in; [eauto|left; auto]). destruct Q as [->|Q]; auto. }
    subst b. f_equal. apply IH; auto. eapply Permutation_cons_inv; eauto.
  Qed.
  Lemma sigma_rho j : j < n -> nth (nth j rho 0) sigma 0 = j.
  Proof using sorts.
    intros Hj. destruct (sorts sigma) as [HP HS]. fold rho in HP, HS.
    assert (E : map (fun k => nth k sigma 0) rho = seq 0 n).
    { apply sorted_unique.
      - rewrite rho_perm. assert (Q : map (fun k => nth k sigma 0) (seq 0 n) = sigma).
        { apply (nth_ext _ _ 0 0); [rewrite map_length, seq_length, sigma_length; auto|]. intros k Hk. rewrite map_length, seq_length in Hk.
          rewrite (nth_indep _ 0 (nth 0 sigma 0)) by (rewrite map_length, seq_length; auto). rewrite (map_nth (fun k => nth k sigma 0)), seq_nth by auto. reflexivity. }
        rewrite Q. apply sigma_perm.
      - apply Sorted_StronglySorted; [intros x y z; lia|]. exact HS.
      - clear. generalize 0. induction n as [|m IH]; intros s; cbn [seq]; constructor; auto. apply Forall_forall. intros x Hx. apply in_seq in Hx. lia. }
    assert (Q : nth j (map (fun k => nth k sigma 0) rho) 0 = j) by (rewrite E, seq_nth by auto; reflexivity).
    rewrite (nth_indep _ 0 (nth 0 sigma 0)) in Q by (rewrite map_length, rho_length; auto). rewrite (map_nth (fun k => nth k sigma 0)) in Q. exact Q.
  Qed.
  Lemma rho_sigma k : k < n -> nth (nth k sigma 0) rho 0 = k.
  Proof using sorts.
    intros Hk. pose proof (sigma_lt k Hk) as H1. pose proof (sigma_rho _ H1) as H2. assert (ND : NoDup sigma) by (eapply Permutation_NoDup; [apply Permutation_sym, sigma_perm|apply seq_NoDup]).
    rewrite NoDup_nth in ND. eapply ND; eauto; rewrite sigma_length; auto. apply rho_lt. auto.
  Qed.
  Lemma sigma_sorted k k' : k <= k' -> k' < n -> valence ind ptr (nth k sigma 0) <= valence ind ptr (nth k' sigma 0).
  Proof using sorts.
    intros H Hk. destruct (sorts deg) as [_ HS]. apply Sorted_StronglySorted in HS; [|intros x y z; lia]. fold sigma in HS. rewrite <- !deg_nth by (apply sigma_lt; lia).
    assert (L : length sigma = n) by apply sigma_length. revert k k' H Hk. rewrite <- L. clear -HS. induction sigma as [|a l IH]; intros k k' H Hk; [cbn in Hk; lia|].
    cbn [map] in HS. inversion HS as [|? ? HS' HF]; subst. destruct k as [|k]; destruct k' as [|k']; cbn [nth length] in *; try lia.
    - rewrite Forall_forall in HF. apply HF. apply in_map_iff. eexists. split; [reflexivity|]. apply nth_In. lia.
    - apply IH; auto; lia.
  Qed.

  (** ** Nodes visited *)
  Definition mem (j : nat) (os : list nat) : bool := existsb (Nat.eqb j) os.
  Lemma mem_in j os : mem j os = true <-> In j os.
  Proof. unfold mem. rewrite existsb_exists. split; [intros (x & H & E); apply Nat.eqb_eq in E; subst; auto|intros H; exists j; split; auto; apply Nat.eqb_refl]. Qed.
  Definition marked (inds : list Z) (os : list nat) : Prop :=
    length inds = n /\ forall j, j < n -> nth (nth j rho 0) inds 0%Z = if mem j os then (-1)%Z else Z.of_nat j.
  Lemma marked_add inds os j : marked inds os -> j < n -> marked (upd inds (nth j rho 0) (-1)%Z) (os ++ [j]).
  Proof using sorts.
    intros [L H] Hj. split; [rewrite upd_length; auto|]. intros i Hi. unfold mem. rewrite existsb_snoc. destruct (Nat.eqb_spec i j) as [->|Ne].
    - rewrite orb_true_r. apply nth_upd_eq. rewrite L. apply rho_lt; auto.
    - rewrite orb_false_r. rewrite nth_upd_neq; [apply H; auto|]. intros E. apply Ne. rewrite <- (sigma_rho i Hi), <- (sigma_rho j Hj), E. reflexivity.
  Qed.
  Lemma bounded os : NoDup os -> (forall j, In j os -> j < n) -> length os <= n.
  Proof. intros H1 H2. rewrite <- (seq_length n 0). apply NoDup_incl_length; auto. intros x Hx. apply in_seq. split; [lia|]. apply H2; auto. Qed.
  Definition good (os : list nat) : Prop := NoDup os /\ forall j, In j os -> j < n.
  Lemma good_snoc os j : good os -> j < n -> ~ In j os -> good (os ++ [j]).
  Proof.
    intros [H1 H2] Hj Hn. split.
    - eapply Permutation_NoDup; [apply Permutation_cons_append|]. constructor; auto.
    - intros i Hi. apply in_app_or in Hi. destruct Hi as [Hi|[<-|[]]]; auto.
  Qed.

  Lemma add_ok i os r inds : i < n -> good os -> marked inds os -> n <= length os + length r ->
    exists new r' inds', add_neighbors ind ptr rho i (map Some os ++ r, inds, length os) = Ok (map Some (os ++ new) ++ r', inds', length (os ++ new)) /\
      length r = length new + length r' /\ marked inds' (os ++ new) /\ good (os ++ new) /\ length new <= valence ind ptr i /\
      (forall j, In j new -> adjacent ind ptr i j) /\ (forall j, adjacent ind ptr i j -> In j (os ++ new)).
  Proof using All.
    intros Hi Hg Hm Hr. unfold add_neighbors. rewrite get_lo, get_hi by auto. rewrite !bind_Ok. assert (LH : lo i <= hi i) by (apply gok; lia).
    match goal with |- context [for_range (lo i) (hi i) ?f ?s0] => destruct (for_range_inv (fun jj (st : buf nat * list Z * nat) => exists new r' inds', st = (map Some (os ++ new) ++ r', inds', length (os ++ new)) /\
      length r = length new + length r' /\ marked inds' (os ++ new) /\ good (os ++ new) /\ length new <= jj - lo i /\
      (forall j, In j new -> adjacent ind ptr i j) /\ (forall k, lo i <= k < jj -> In (nth k ind 0) (os ++ new))) f (lo i) (hi i) s0) as (st & -> & new & r' & inds' & -> & H1 & H2 & H3 & H4 & H5 & H6) end.
    - auto.
    - exists [], r, inds. rewrite app_nil_r. split; [reflexivity|]. split; [reflexivity|]. split; [auto|]. split; [auto|]. split; [cbn; lia|]. split; [intros j []|]. intros. lia.
    - intros jj st Hj (new & r' & inds' & -> & H1 & H2 & H3 & H4 & H5 & H6). pose proof (hi_bound i Hi) as HB. destruct (get_ind jj ltac:(lia)) as [-> Hv]. rewrite bind_Ok. set (v := nth jj ind 0) in *.
      rewrite (aget_nth rho v 0) by (rewrite rho_length; auto). rewrite bind_Ok. pose proof (rho_lt v Hv) as Hr'. rewrite (aget_nth inds' _ 0%Z) by (destruct H2; lia). rewrite bind_Ok.
      destruct H2 as [LI HI]. rewrite HI by auto. destruct (mem v (os ++ new)) eqn:EM.
      + rewrite Z.eqb_refl. eexists. split; [reflexivity|]. exists new, r', inds'. split; [reflexivity|]. split; [auto|]. split; [split; auto|]. split; [auto|]. split; [lia|]. split; [auto|].
        intros k Hk. destruct (Nat.eq_dec k jj) as [->|Ne]; [apply mem_in; exact EM|apply H6; lia].
      + assert (EV : (Z.of_nat v =? -1)%Z = false) by (apply Z.eqb_neq; lia). rewrite EV. rewrite aset_ok by lia. rewrite bind_Ok.
        assert (NV : ~ In v (os ++ new)) by (intros Q; apply mem_in in Q; congruence). pose proof (good_snoc _ v H3 Hv NV) as HG. rewrite <- app_assoc in HG.
        assert (LB : length ((os ++ new) ++ [v]) <= n) by (rewrite <- app_assoc; apply bounded; apply HG). rewrite !app_length in LB. cbn in LB.
        destruct (wr_end (os ++ new) r' v (length (os ++ new)) eq_refl) as (r'' & -> & LR); [intros ->; cbn in *; lia|]. rewrite bind_Ok. eexists. split; [reflexivity|].
        exists (new ++ [v]), r'', (upd inds' (nth v rho 0) (-1)%Z). rewrite <- app_assoc. split; [f_equal; rewrite !app_length; cbn; lia|]. split; [rewrite app_length; cbn; lia|].
        split; [rewrite app_assoc; apply marked_add; [split; auto|auto]|]. split; [exact HG|]. split; [rewrite app_length; cbn [length]; lia|]. split.
        * intros j Hj'. apply in_app_or in Hj'. destruct Hj' as [Hj'|[<-|[]]]; [auto|]. exists jj. split; [unfold lo, hi in *; lia|reflexivity].
        * intros k Hk. rewrite app_assoc. apply in_or_app. destruct (Nat.eq_dec k jj) as [->|Ne]; [right; left; reflexivity|left; apply H6; lia].
    - exists new, r', inds'. split; [reflexivity|]. do 3 (split; [auto|]). split; [unfold valence; unfold lo, hi in *; lia|]. split; [auto|]. intros j (k & Hk & <-). apply H6. exact Hk.
  Qed.

  (** ** Sorting the new nodes *)
  Let df := valence ind ptr.
  Lemma load_ok os new r temps : good (os ++ new) -> length new <= length temps ->
    exists t, load_degrees deg (length os) (length (os ++ new)) (map Some (os ++ new) ++ r) temps = Ok (length new, map df new ++ t) /\ length temps = length new + length t.
  Proof using gok.
    intros Hg Ht. unfold load_degrees. rewrite app_length.
    match goal with |- context [for_range ?x ?y ?f ?s0] => destruct (for_range_inv (fun kk (st : nat * list nat) => exists a b t, new = a ++ b /\ kk = length os + length a /\ st = (length a, map df a ++ t) /\ length temps = length a + length t) f x y s0)
      as (st & -> & a & b & t & E1 & E2 & -> & E3) end.
    - lia.
    - exists [], new, temps. split; [reflexivity|]. split; [cbn; lia|]. split; reflexivity.
    - intros kk st Hk (a & b & t & -> & -> & -> & E3). rewrite app_length in *. destruct b as [|x b]; [cbn in Hk; lia|]. rewrite app_assoc. rewrite rd_app by (rewrite app_length; auto). rewrite bind_Ok.
      assert (Hx : x < n). { apply Hg. apply in_or_app. right. apply in_or_app. right. left. reflexivity. }
      rewrite (aget_nth deg x 0) by (rewrite deg_length; auto). rewrite bind_Ok, deg_nth by auto. cbn [length] in *. destruct t as [|y t]; [cbn [length] in *; lia|]. rewrite aset_app by (rewrite map_length; auto). rewrite bind_Ok.
      eexists. split; [reflexivity|]. exists (a ++ [x]), b, t. split; [rewrite <- app_assoc; reflexivity|]. split; [rewrite app_length; cbn [length]; lia|]. split; [f_equal; [rewrite app_length; cbn [length]; lia|rewrite map_app, <- app_assoc; reflexivity]|].
      rewrite app_length. cbn [length] in *. lia.
    - assert (Q : b = []) by (apply (f_equal (@length nat)) in E1; rewrite app_length in E1; destruct b; [auto|cbn in E1; lia]). subst b. rewrite app_nil_r in E1. subst a. exists t. split; auto.
  Qed.

  Lemma shift_ok temp os a1 : forall (th oh : nat) a2 b t (r : buf nat),
    exists a1' a1'' th' oh', a1 = a1' ++ a1'' /\
      shift temp (length os) (length a1) (map df a1 ++ th :: map df (a2 ++ b) ++ t) (map Some (os ++ a1 ++ oh :: a2 ++ b) ++ r) =
        Ok (length a1', map df a1' ++ th' :: map df (a1'' ++ a2 ++ b) ++ t, map Some (os ++ a1' ++ oh' :: a1'' ++ a2 ++ b) ++ r) /\
      (forall x, In x a1'' -> temp < df x) /\ (a1' = [] \/ exists c y, a1' = c ++ [y] /\ df y <= temp).
  Proof.
    induction a1 as [|x a1 IH] using rev_ind; intros th oh a2 b t r.
    - exists [], [], th, oh. split; [reflexivity|]. split; [reflexivity|]. split; [intros x []|]. left; auto.
    - rewrite app_length, Nat.add_1_r. cbn [length shift]. rewrite map_app. cbn [map]. rewrite <- !app_assoc. cbn [app]. rewrite aget_app by (rewrite map_length; auto). rewrite bind_Ok.
      destruct (Nat.ltb_spec temp (df x)) as [Hlt|Hge].
      + change (map df a1 ++ df x :: th :: map df (a2 ++ b) ++ t) with (map df a1 ++ ([df x] ++ th :: map df (a2 ++ b) ++ t)). rewrite app_assoc. rewrite aset_app by (rewrite app_length, map_length; cbn; lia). rewrite bind_Ok.
        rewrite app_assoc. rewrite rd_app by (rewrite app_length; auto). rewrite bind_Ok.
        change (x :: oh :: a2 ++ b) with ([x] ++ oh :: a2 ++ b). rewrite (app_assoc (os ++ a1)). rewrite wr_app by (rewrite !app_length; cbn; lia). rewrite bind_Ok.
        destruct (IH (df x) x (x :: a2) b t r) as (a1' & a1'' & th' & oh' & E1 & E2 & E3 & E4).
        exists a1', (a1'' ++ [x]), th', oh'. split; [rewrite E1, <- app_assoc; reflexivity|]. split; [|split; [|auto]].
        * rewrite <- !app_assoc. cbn [app]. cbn [app] in E2. exact E2.
        * intros y Hy. apply in_app_or in Hy. destruct Hy as [Hy|[<-|[]]]; auto.
      + exists (a1 ++ [x]), [], th, oh. split; [rewrite app_nil_r; reflexivity|]. split; [|split; [intros y []|right; exists a1, x; auto]].
        rewrite app_length, Nat.add_1_r. cbn [app]. rewrite (map_app df a1 [x]), <- !app_assoc. reflexivity.
  Qed.

  Definition by_df (x y : nat) : Prop := df x <= df y.
  Lemma sorted_snoc c y : StronglySorted by_df (c ++ [y]) -> forall x, In x c -> df x <= df y.
  Proof. induction c as [|a c IH]; intros H x Hx; [destruct Hx|]. inversion H as [|? ? HS HF]; subst. destruct Hx as [->|Hx]; [|auto]. rewrite Forall_forall in HF. apply HF. apply in_or_app. right. left. auto. Qed.
  Lemma sorted_app_l (a b : list nat) : StronglySorted by_df (a ++ b) -> StronglySorted by_df a /\ StronglySorted by_df b /\ forall x y, In x a -> In y b -> df x <= df y.
  Proof.
    induction a as [|x a IH]; intros H; [split; [constructor|split; [auto|intros x y []]]|]. inversion H as [|? ? HS HF]; subst. destruct (IH HS) as (H1 & H2 & H3). rewrite Forall_forall in HF.
    split; [constructor; auto; apply Forall_forall; intros; apply HF, in_or_app; auto|]. split; [auto|]. intros y z [->|Hy] Hz; [apply HF, in_or_app; auto|auto].
  Qed.
  Lemma sorted_app (a b : list nat) : StronglySorted by_df a -> StronglySorted by_df b -> (forall x y, In x a -> In y b -> df x <= df y) -> StronglySorted by_df (a ++ b).
  Proof.
    induction a as [|x a IH]; intros Ha Hb H; auto. inversion Ha as [|? ? HS HF]; subst. cbn [app]. constructor; [apply IH; auto; intros; apply H; auto; right; auto|].
    rewrite Forall_forall in *. intros y Hy. apply in_app_or in Hy. destruct Hy as [Hy|Hy]; [apply HF; auto|apply H; auto; left; auto].
  Qed.

  Lemma insertion_ok os new t (r : buf nat) : exists new', insertion_sort (length os) (length new) (map df new ++ t) (map Some (os ++ new) ++ r) = Ok (map df new' ++ t, map Some (os ++ new') ++ r) /\
    Permutation new new' /\ StronglySorted by_df new'.
  Proof.
    unfold insertion_sort. destruct new as [|x0 new0] eqn:EN.
    { exists []. split; [reflexivity|]. split; [auto|constructor]. }
    rewrite <- EN. assert (HL : 1 <= length new) by (rewrite EN; cbn; lia).
    match goal with |- context [for_range ?x ?y ?f ?s0] => destruct (for_range_inv (fun kk (st : list nat * buf nat) => exists a b, length a = kk /\ Permutation new (a ++ b) /\ StronglySorted by_df a /\ st = (map df (a ++ b) ++ t, map Some (os ++ a ++ b) ++ r)) f x y s0)
      as (st & -> & a & b & E1 & E2 & E3 & ->) end.
    - auto.
    - exists [x0], new0. rewrite EN. split; [reflexivity|]. split; [reflexivity|]. split; [repeat constructor|]. reflexivity.
    - intros kk st Hk (a & b & E1 & E2 & E3 & ->). assert (LB : length b > 0) by (apply Permutation_length in E2; rewrite app_length in E2; lia). destruct b as [|x b]; [cbn in LB; lia|].
      rewrite map_app. cbn [map]. rewrite <- app_assoc. cbn [app]. rewrite aget_app by (rewrite map_length; auto). rewrite bind_Ok. rewrite app_assoc. rewrite rd_app by (rewrite app_length; lia). rewrite bind_Ok. rewrite <- E1, <- app_assoc.
      destruct (shift_ok (df x) os a (df x) x [] b t r) as (a1 & a2 & th & oh & -> & ES & HB & HA). cbn [app] in ES. rewrite ES. rewrite bind_Ok. rewrite aset_app by (rewrite map_length; auto). rewrite bind_Ok. rewrite app_assoc, wr_app by (rewrite app_length; auto). rewrite bind_Ok.
      eexists. split; [reflexivity|]. exists (a1 ++ x :: a2), b. split; [rewrite !app_length; cbn; lia|]. split; [rewrite E2, <- !app_assoc; apply Permutation_app_head; cbn [app]; symmetry; apply Permutation_middle|].
      apply sorted_app_l in E3. destruct E3 as (S1 & S2 & S3). split.
      + apply sorted_app; [auto| |].
        * constructor; auto. apply Forall_forall. intros y Hy. specialize (HB y Hy). unfold by_df. lia.
        * intros y z Hy [<-|Hz]; [|auto]. destruct HA as [->|(c & w & -> & Hw)]; [destruct Hy|]. apply in_app_or in Hy. destruct Hy as [Hy|[<-|[]]]; [|auto]. pose proof (sorted_snoc _ _ S1 y Hy). lia.
      + rewrite <- !app_assoc. cbn [app]. f_equal. rewrite (map_app df a1 (x :: a2 ++ b)). cbn [map]. rewrite <- app_assoc. reflexivity.
    - assert (Q : b = []) by (apply Permutation_length in E2; rewrite app_length in E2; destruct b; [auto|cbn in E2; lia]). subst b. rewrite app_nil_r in *. exists a. split; auto.
  Qed.
End Graph.
