(** Entering a local matrix is a sequence of single additions. *)
From Verif Require Import Util Lin SparsityModel CSRModel CSRSpec MeshModel MeshSpec BaryModel BarySpec LocalSpec MeshProofs ReorderProofs RestrictionProofs
  ReorderModel AssemblyModel AssemblySpec.
Set Default Proof Using "Type".

Lemma for_n_list {S} (f : nat -> S -> res S) n lo s : for_n n lo f s = for_list (seq lo n) f s.
Proof. revert lo s. induction n as [|n IH]; intros lo s; cbn [for_n seq for_list]; [reflexivity|]. destruct (f lo s); [apply IH|reflexivity]. Qed.
Lemma for_range_list {S} (f : nat -> S -> res S) lo hi s : for_range lo hi f s = for_list (seq lo (hi - lo)) f s.
Proof. apply for_n_list. Qed.
Lemma for_list_ext {A S} (f g : A -> S -> res S) l s : (forall x s, In x l -> f x s = g x s) -> for_list l f s = for_list l g s.
Proof.
  revert s. induction l as [|x l IH]; intros s H; [reflexivity|]. cbn [for_list]. rewrite (H x s) by (left; auto). destruct (g x s); [|reflexivity].
  cbn [bind]. apply IH. intros; apply H; right; auto.
Qed.
Lemma for_list_flat {A B S} (h : A -> list B) (f : B -> S -> res S) l s : for_list (flat_map h l) f s = for_list l (fun x s => for_list (h x) f s) s.
Proof. revert s. induction l as [|x l IH]; intros s; [reflexivity|]. cbn [flat_map for_list]. rewrite for_list_app. destruct (for_list (h x) f s); [apply IH|reflexivity]. Qed.
Lemma for_list_id {A S} (l : list A) (s : S) : for_list l (fun _ s => Ok s) s = Ok s.
Proof. induction l as [|x l IH]; [reflexivity|]. exact IH. Qed.
Lemma bind_assoc {A B C} (x : res A) (f : A -> res B) (g : B -> res C) : bind (bind x f) g = bind x (fun a => bind (f a) g).
Proof. destruct x; reflexivity. Qed.
Lemma bind_ext {A B} (x : res A) (f g : A -> res B) : (forall a, f a = g a) -> bind x f = bind x g.
Proof. intros H. destruct x; cbn [bind]; auto. Qed.

Lemma drop_pos {P M} (x : res M) (s : P) : bind x (fun A => bind (Ok (s, A)) (fun '(_, A) => Ok A)) = x.
Proof. destruct x; reflexivity. Qed.

(** Reading the next entry of a packed matrix. *)
Lemma skipn_cons {A} s (l : list A) x t : skipn s l = x :: t -> nth_error l s = Some x /\ skipn (S s) l = t.
Proof.
  revert l. induction s as [|s IH]; intros [|y l] H; try discriminate.
  - cbn in H. inversion H; subst. auto.
  - cbn [skipn nth_error] in *. apply IH in H. exact H.
Qed.
Lemma read_next (contrib : buf Qc) s x t r : skipn s contrib = map Some (x :: t) ++ r -> rd contrib s = Ok x /\ skipn (S s) contrib = map Some t ++ r.
Proof. intros H. cbn [map app] in H. apply skipn_cons in H as [H1 H2]. split; [apply rd_ok; auto|exact H2]. Qed.
Lemma skip_many (contrib : buf Qc) s t t' r : skipn s contrib = map Some (t ++ t') ++ r -> skipn (s + length t) contrib = map Some t' ++ r.
Proof.
  revert s. induction t as [|x t IH]; intros s H.
  - rewrite Nat.add_0_r. exact H.
  - destruct (read_next _ _ _ _ _ H) as [_ H']. apply IH in H'. cbn [length]. rewrite <- plus_n_Sm. exact H'.
Qed.

(** The loop over the pairs j <= k, with a running position in the packed matrix. *)
Section Tri.
  Context {S : Type}.
  Variables (n : nat) (f : nat -> nat -> Qc) (contrib : buf Qc) (rest : buf Qc) (step : nat -> nat -> Qc -> S -> res S).
  Definition tri_row (row : nat -> nat * S -> res (nat * S)) : Prop := forall j s A t, j < n ->
    skipn s contrib = map Some (map (f j) (seq j (n - j)) ++ t) ++ rest ->
    row j (s, A) = bind (for_list (seq j (n - j)) (fun k => step j k (f j k)) A) (fun A => Ok (s + (n - j), A)).
  Lemma tri_loop row A : contrib = map Some (upper_triangle f (seq 0 n)) ++ rest -> tri_row row ->
    exists s, for_range 0 n row (0, A) =
      bind (for_list (seq 0 n) (fun j A => for_list (seq j (n - j)) (fun k => step j k (f j k)) A) A) (fun A => Ok (s, A)).
  Proof.
    intros Hc Hr. rewrite for_range_list, Nat.sub_0_r.
    enough (G : forall m j s, j + m = n -> skipn s contrib = map Some (upper_triangle f (seq j m)) ++ rest ->
      exists s', forall A, for_list (seq j m) row (s, A) =
        bind (for_list (seq j m) (fun j A => for_list (seq j (n - j)) (fun k => step j k (f j k)) A) A) (fun A => Ok (s', A))).
    { destruct (G n 0 0) as (s' & E); auto. exists s'. apply E. }
    clear A Hc. induction m as [|m IH]; intros j s Hj Hs.
    - exists s. reflexivity.
    - cbn [seq upper_triangle] in Hs. cbn [seq for_list].
      assert (E : n - j = Datatypes.S m) by lia.
      specialize (Hr j s). rewrite E in Hr. cbn [seq] in Hr.
      destruct (IH (Datatypes.S j) (s + Datatypes.S m)) as (s' & E'); [lia| |].
      { replace (Datatypes.S m) with (length (map (f j) (j :: seq (Datatypes.S j) m))) by (rewrite map_length; cbn [length]; rewrite seq_length; reflexivity).
        apply skip_many. exact Hs. }
      exists s'. intros A. rewrite (Hr A _ ltac:(lia) Hs). rewrite E. cbn [seq].
      destruct (for_list (j :: seq (Datatypes.S j) m) _ A); [|reflexivity]. rewrite !bind_Ok. apply E'.
  Qed.
  (** The inner loop. *)
  Lemma tri_inner j (body : nat -> nat * S -> res (nat * S)) :
    (forall k s A, k < n -> j <= k -> rd contrib s = Ok (f j k) -> body k (s, A) = bind (step j k (f j k) A) (fun A => Ok (Datatypes.S s, A))) ->
    forall m k s A t, k + m = n -> j <= k -> skipn s contrib = map Some (map (f j) (seq k m) ++ t) ++ rest ->
      for_list (seq k m) body (s, A) = bind (for_list (seq k m) (fun k => step j k (f j k)) A) (fun A => Ok (s + m, A)).
  Proof.
    intros Hb. induction m as [|m IH]; intros k s A t Hk Hj Hs.
    - cbn [seq for_list]. rewrite bind_Ok, Nat.add_0_r. reflexivity.
    - cbn [seq map app] in Hs. destruct (read_next contrib s _ _ _ Hs) as [Hr Hs']. cbn [seq for_list]. rewrite (Hb k s A) by (auto; lia).
      rewrite !bind_assoc. apply bind_ext. intros A'. rewrite bind_Ok. rewrite (IH (Datatypes.S k) (Datatypes.S s) A' t); try lia; auto.
      rewrite Nat.add_succ_r. reflexivity.
  Qed.
End Tri.

(** Values of the map of degrees of freedom. *)
Section Dofs.
  Variables (nc nb : nat) (dm : dofmap).
  Hypothesis ok : dofs_ok nc (dm_dpe dm) (dm_num dm) nb (dm_dofs dm).
  Lemma dof_get i j : i < nc -> j < dm_dpe dm -> get2 (dm_dofs dm) i j = Ok (dof (dm_dofs dm) i j).
  Proof using ok.
    intros Hi Hj. destruct ok as (H1 & H2 & _). assert (Hr : nth_error (dm_dofs dm) i = Some (nth i (dm_dofs dm) [])) by (apply nth_error_nth'; lia).
    apply (get2_ok _ _ _ _ _ Hr). apply nth_error_nth'. rewrite (H2 (nth i (dm_dofs dm) [])) by (eapply nth_error_In; exact Hr). auto.
  Qed.
  Lemma dof_range i j : i < nc -> j < dm_dpe dm -> (- Z.of_nat nb <= dof (dm_dofs dm) i j < Z.of_nat (dm_num dm))%Z.
  Proof using ok.
    intros Hi Hj. destruct ok as (H1 & H2 & H3). assert (Hin : In (nth i (dm_dofs dm) []) (dm_dofs dm)) by (apply nth_In; lia).
    apply (H3 _ _ Hin). apply nth_In. rewrite (H2 _ Hin). auto.
  Qed.
End Dofs.

(** The additions made for the pair (j, k) of a cell. *)
Definition events_csr (dofs : list (list Z)) (loc : nat -> nat -> nat -> Qc) (i j k : nat) : list contribution :=
  let a := dof dofs i j in let b := dof dofs i k in let v := loc i j k in
  if ((a <? 0) || (b <? 0))%Z then []
  else if (a =? b)%Z then [(Z.to_nat a, Z.to_nat a, v)] else [(Z.to_nat a, Z.to_nat b, v); (Z.to_nat b, Z.to_nat a, v)].
Definition events_sss (dofs : list (list Z)) (loc : nat -> nat -> nat -> Qc) (i j k : nat) : list contribution :=
  let a := dof dofs i j in let b := dof dofs i k in let v := loc i j k in
  if ((a <? 0) || (b <? 0))%Z then []
  else if (a <? b)%Z then [(Z.to_nat b, Z.to_nat a, v)] else [(Z.to_nat a, Z.to_nat b, v)].
Definition events_rhs (dofs : list (list Z)) (loc : nat -> nat -> nat -> Qc) (g : list Qc) (i j k : nat) : list (nat * Qc) :=
  let a := dof dofs i j in let b := dof dofs i k in let v := loc i j k in
  if ((0 <=? a) && (b <? 0))%Z then [(Z.to_nat a, v * vat g (Z.to_nat (- b - 1)))%Qc]
  else if ((a <? 0) && (0 <=? b))%Z then [(Z.to_nat b, v * vat g (Z.to_nat (- a - 1)))%Qc] else [].
Definition tri_events {X} (ev : nat -> nat -> nat -> list X) (n i : nat) : list X :=
  flat_map (fun j => flat_map (ev i j) (seq j (n - j))) (seq 0 n).
Definition full_events {X} (ev : nat -> nat -> nat -> list X) (n n' i : nat) : list X :=
  flat_map (fun j => flat_map (ev i j) (seq 0 n')) (seq 0 n).
Definition events_nonsym (dofs dofs' : list (list Z)) (loc : nat -> nat -> nat -> Qc) (i j k : nat) : list contribution :=
  let a := dof dofs i j in let b := dof dofs' i k in let v := loc i j k in
  if ((a <? 0) || (b <? 0))%Z then [] else [(Z.to_nat a, Z.to_nat b, v)].

Section Enter.
  Context {M : Type}.
  Variables (add : M -> nat -> nat -> Qc -> res M) (nc nb : nat) (dm : dofmap).
  Hypothesis ok : dofs_ok nc (dm_dpe dm) (dm_num dm) nb (dm_dofs dm).
  Variables (loc : nat -> nat -> nat -> Qc) (i : nat) (contrib rest : buf Qc).
  Hypothesis Hi : i < nc.
  Hypothesis Hc : contrib = map Some (upper_triangle (loc i) (seq 0 (dm_dpe dm))) ++ rest.
  Let n := dm_dpe dm.
  Let d := dof (dm_dofs dm) i.
  Definition do_add (t : contribution) (A : M) : res M := let '(a, b, v) := t in add A a b v.

  Lemma enter_csr_ok A : enter_csr add dm i contrib A = for_list (tri_events (events_csr (dm_dofs dm) loc) n i) do_add A.
  Proof using ok Hi Hc.
    unfold enter_csr.
    set (row := fun (j : nat) (st : nat * M) => _).
    set (step := fun j k v A => if ((d j <? 0) || (d k <? 0))%Z then Ok A else
       if (d j =? d k)%Z then add A (Z.to_nat (d j)) (Z.to_nat (d j)) v else A <- add A (Z.to_nat (d j)) (Z.to_nat (d k)) v ;; add A (Z.to_nat (d k)) (Z.to_nat (d j)) v).
    destruct (tri_loop n (loc i) contrib rest step row A Hc) as (s & E).
    - intros j s A0 t Hj Hs. unfold row. rewrite (dof_get nc nb dm ok i j Hi Hj), bind_Ok. fold n. fold (d j).
      destruct (Z.ltb_spec (d j) 0) as [L|L].
      + rewrite (for_list_ext _ (fun _ A => Ok A)); [rewrite for_list_id; reflexivity|]. intros k A1 _. unfold step. destruct (Z.ltb_spec (d j) 0); [reflexivity|lia].
      + rewrite for_range_list. apply (tri_inner n (loc i) contrib rest step j) with (t := t); auto; [|lia].
        intros k s1 A1 Hk Hjk Hr. rewrite (dof_get nc nb dm ok i k Hi Hk), bind_Ok. unfold step. fold (d k).
        destruct (Z.ltb_spec (d j) 0); [lia|]. cbn [orb].
        destruct (Z.ltb_spec (d k) 0) as [L'|L']; [reflexivity|]. rewrite Hr, bind_Ok. unfold add_at. reflexivity.
    - fold n. rewrite E. rewrite bind_assoc. etransitivity; [apply (drop_pos _ s)|]. unfold tri_events. rewrite for_list_flat. apply for_list_ext.
      intros j A0 Hj. rewrite for_list_flat. apply for_list_ext. intros k A1 Hk. unfold step, events_csr. fold d. fold (d j) (d k).
      destruct (_ || _); [reflexivity|]. destruct (_ =? _)%Z; cbn [for_list do_add].
      + destruct (add A1 _ _ _); reflexivity.
      + destruct (add A1 _ _ _) as [A2|]; [|reflexivity]. cbn [bind]. destruct (add A2 _ _ _); reflexivity.
  Qed.

  Lemma enter_sss_ok A : enter_sss add dm i contrib A = for_list (tri_events (events_sss (dm_dofs dm) loc) n i) do_add A.
  Proof using ok Hi Hc.
    unfold enter_sss.
    set (row := fun (j : nat) (st : nat * M) => _).
    set (step := fun j k v A => if ((d j <? 0) || (d k <? 0))%Z then Ok A else
       if (d j <? d k)%Z then add A (Z.to_nat (d k)) (Z.to_nat (d j)) v else add A (Z.to_nat (d j)) (Z.to_nat (d k)) v).
    destruct (tri_loop n (loc i) contrib rest step row A Hc) as (s & E).
    - intros j s A0 t Hj Hs. unfold row. rewrite (dof_get nc nb dm ok i j Hi Hj), bind_Ok. fold n. fold (d j).
      destruct (Z.ltb_spec (d j) 0) as [L|L].
      + rewrite (for_list_ext _ (fun _ A => Ok A)); [rewrite for_list_id; reflexivity|]. intros k A1 _. unfold step. destruct (Z.ltb_spec (d j) 0); [reflexivity|lia].
      + replace (n - j) with (S (n - S j)) in * by lia. cbn [seq map app] in Hs.
        destruct (read_next contrib s _ _ _ Hs) as [Hr Hs']. rewrite Hr, bind_Ok. cbn [seq for_list].
        assert (E0 : step j j (loc i j j) A0 = add_at add A0 (d j) (d j) (loc i j j)).
        { unfold step. destruct (Z.ltb_spec (d j) 0); [lia|]. rewrite Z.ltb_irrefl. reflexivity. }
        rewrite E0, bind_assoc. apply bind_ext. intros A1. rewrite for_range_list, Nat.add_succ_r. change (S (s + (n - S j))) with (S s + (n - S j)).
        apply (tri_inner n (loc i) contrib rest step j) with (t := t); auto; [|lia].
        intros k s1 A2 Hk Hjk Hr2. rewrite (dof_get nc nb dm ok i k Hi Hk), bind_Ok. unfold step. fold (d k).
        destruct (Z.ltb_spec (d j) 0); [lia|]. cbn [orb].
        destruct (Z.ltb_spec (d k) 0) as [L'|L']; [reflexivity|]. rewrite Hr2, bind_Ok. unfold add_at. destruct (d j <? d k)%Z; reflexivity.
    - fold n. rewrite E. rewrite bind_assoc. etransitivity; [apply (drop_pos _ s)|]. unfold tri_events. rewrite for_list_flat. apply for_list_ext.
      intros j A0 Hj. rewrite for_list_flat. apply for_list_ext. intros k A1 Hk. unfold step, events_sss. fold d. fold (d j) (d k).
      destruct (_ || _); [reflexivity|]. destruct (_ <? _)%Z; cbn [for_list do_add]; destruct (add A1 _ _ _); reflexivity.
  Qed.

  (** with boundary data: the matrix and the right-hand side *)
  Variable g : list Qc.
  Hypothesis Hg : nb <= length g.
  Definition sub_at (t : nat * Qc) (r : list Qc) : res (list Qc) := let '(a, v) := t in x <- aget r a ;; aset r a (x - v)%Qc.
  Lemma lift_ok rhs a b v : (- Z.of_nat nb <= b < 0)%Z ->
    lift rhs g a b v = sub_at (Z.to_nat a, v * vat g (Z.to_nat (- b - 1)))%Qc rhs.
  Proof using Hg. clear Hi Hc n ok. intros Hb. unfold lift. rewrite (aget_nth g _ 0%Qc) by lia. rewrite bind_Ok. reflexivity. Qed.

  Variable ev : nat -> nat -> nat -> list contribution.
  Variable add2 : M -> Z -> Z -> Qc -> res M.
  Hypothesis Hadd2 : forall A j k, (0 <= d j)%Z -> (0 <= d k)%Z -> add2 A (d j) (d k) (loc i j k) = for_list (ev i j k) do_add A.
  Hypothesis Hev : forall j k, (d j < 0 \/ d k < 0)%Z -> ev i j k = [].
  Lemma enter_bc_ok A rhs A' rhs' :
    for_list (tri_events ev n i) do_add A = Ok A' -> for_list (tri_events (events_rhs (dm_dofs dm) loc g) n i) sub_at rhs = Ok rhs' ->
    enter_bc add2 dm g i contrib (A, rhs) = Ok (A', rhs').
  Proof using ok Hi Hc Hg Hadd2 Hev.
    intros EA ER. unfold enter_bc.
    set (row := fun (j : nat) (st : nat * (M * list Qc)) => _).
    set (step := fun j k (v : Qc) (st : M * list Qc) => let '(A, rhs) := st in
       A' <- for_list (ev i j k) do_add A ;; rhs' <- for_list (events_rhs (dm_dofs dm) loc g i j k) sub_at rhs ;; Ok (A', rhs')).
    destruct (tri_loop n (loc i) contrib rest step row (A, rhs) Hc) as (s & E).
    - intros j s st t Hj Hs. unfold row. rewrite (dof_get nc nb dm ok i j Hi Hj), bind_Ok. fold n. fold (d j).
      rewrite for_range_list. apply (tri_inner n (loc i) contrib rest step j) with (t := t); auto; [|lia].
      intros k s1 [A1 r1] Hk Hjk Hr. rewrite (dof_get nc nb dm ok i k Hi Hk), bind_Ok. fold (d k).
      unfold step, events_rhs. fold d. fold (d j) (d k).
      pose proof (dof_range nc nb dm ok i j Hi Hj) as Rj. pose proof (dof_range nc nb dm ok i k Hi Hk) as Rk. fold d in Rj, Rk. fold (d j) in Rj. fold (d k) in Rk.
      destruct (Z.leb_spec 0 (d j)) as [Lj|Lj], (Z.leb_spec 0 (d k)) as [Lk|Lk]; rewrite ?Hr, ?bind_Ok.
      + destruct (Z.ltb_spec (d k) 0), (Z.ltb_spec (d j) 0); try lia. cbn [andb for_list]. rewrite Hadd2 by auto. destruct (for_list (ev i j k) do_add A1); reflexivity.
      + destruct (Z.ltb_spec (d k) 0); try lia. cbn [andb]. rewrite (Hev j k) by auto. cbn [for_list]. rewrite lift_ok by lia. rewrite bind_Ok. destruct (sub_at _ r1); reflexivity.
      + destruct (Z.ltb_spec (d j) 0); try lia. cbn [andb]. rewrite (Hev j k) by auto. cbn [for_list]. rewrite lift_ok by lia. rewrite bind_Ok. destruct (sub_at _ r1); reflexivity.
      + destruct (Z.ltb_spec (d j) 0); try lia. cbn [andb]. rewrite (Hev j k) by auto. reflexivity.
    - fold n. rewrite E. rewrite bind_assoc.
      enough (F : for_list (seq 0 n) (fun j (st : M * list Qc) => for_list (seq j (n - j)) (fun k (st : M * list Qc) => let '(A, rhs) := st in
         A' <- for_list (ev i j k) do_add A ;; rhs' <- for_list (events_rhs (dm_dofs dm) loc g i j k) sub_at rhs ;; Ok (A', rhs')) st) (A, rhs) = Ok (A', rhs')).
      { match type of F with ?l = _ => match goal with |- bind ?l' _ = _ => change l' with l end end. rewrite F. reflexivity. }
      clear E row.
      (* two loops side by side *)
      assert (two : forall {X} (fA : X -> M -> res M) (fR : X -> list Qc -> res (list Qc)) (h : X -> M * list Qc -> res (M * list Qc)),
        (forall x A r A' r', fA x A = Ok A' -> fR x r = Ok r' -> h x (A, r) = Ok (A', r')) ->
        forall l A r A' r', for_list l fA A = Ok A' -> for_list l fR r = Ok r' -> for_list l h (A, r) = Ok (A', r')).
      { clear. intros X fA fR h Hh. induction l as [|x l IH]; intros A r A' r' EA ER; cbn [for_list] in *; [congruence|].
        destruct (fA x A) as [A1|] eqn:E1; [|discriminate]. destruct (fR x r) as [r1|] eqn:E2; [|discriminate]. rewrite (Hh x A r A1 r1 E1 E2), bind_Ok.
        apply IH; auto. }
      unfold tri_events in EA, ER. rewrite for_list_flat in EA. rewrite for_list_flat in ER.
      eapply two; [|exact EA|exact ER]. intros j A1 r1 A2 r2 EA1 ER1. cbv beta in EA1, ER1. rewrite for_list_flat in EA1. rewrite for_list_flat in ER1.
      eapply two; [|exact EA1|exact ER1]. intros k A3 r3 A4 r4 EA3 ER3. cbv beta iota. rewrite EA3, bind_Ok, ER3, bind_Ok. reflexivity.
  Qed.
End Enter.
