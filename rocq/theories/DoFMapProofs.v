(** Proofs about the numbering of degrees of freedom: the bookkeeping. *)
From Verif Require Import Util Lin MeshModel MeshProofs BoundaryProofs DoFMapModel DoFMapSpec.

Local Notation unset := (- MAX_INT)%Z.

Lemma NoDup_app_one {A} (l : list A) x : NoDup l -> ~ In x l -> NoDup (l ++ [x]).
Proof.
  intros H N. induction l as [|y l IH]; cbn; [constructor; [tauto|constructor]|]. inversion H as [|? ? H1 H2]; subst. constructor.
  - rewrite in_app_iff. cbn. intros [G|[G|[]]]; [auto|]. apply N. left. auto.
  - apply IH; auto. intros G. apply N. right. auto.
Qed.

Section Ghost.
  Variables dpv dpe dpf dpc : nat.

  Definition sz (e : entity) : nat :=
    match e with EVertex _ => dpv | EEdge _ _ => dpe | EFace _ _ _ => dpf | ECell _ => dpc end.

  (** First DoF of each entity. *)
  Fixpoint look (D : list (entity * Z)) (e : entity) : option Z :=
    match D with
    | [] => None
    | (e', b) :: D => if face_eq_dec e' e then Some b else look D e
    end.
  Definition val (D : list (entity * Z)) (p : place) : Z :=
    match look D (fst p) with
    | Some b => if (0 <=? b)%Z then (b + Z.of_nat (snd p))%Z else (b - Z.of_nat (snd p))%Z
    | None => unset
    end.
  Definition alloc1 (asg : bool) (st : list (entity * Z) * Z) (e : entity) : list (entity * Z) * Z :=
    match look (fst st) e with
    | Some _ => st
    | None => if asg then (fst st ++ [(e, snd st)], (snd st + Z.of_nat (sz e))%Z) else st
    end.

  (** Consecutive blocks upwards from s to t, downwards from s to t. *)
  Fixpoint lay (s : Z) (Il : list (entity * Z)) (t : Z) : Prop :=
    match Il with [] => s = t | (e, b) :: Il => b = s /\ 0 < sz e /\ lay (s + Z.of_nat (sz e)) Il t end.
  Fixpoint blay (s : Z) (Il : list (entity * Z)) (t : Z) : Prop :=
    match Il with [] => s = t | (e, b) :: Il => b = s /\ 0 < sz e /\ blay (s - Z.of_nat (sz e)) Il t end.

  Lemma look_in D e b : look D e = Some b -> In (e, b) D.
  Proof. induction D as [|[e' b'] D IH]; cbn; [discriminate|]. destruct (face_eq_dec e' e); [injection 1 as <-; subst; auto|auto]. Qed.
  Lemma look_none D e : look D e = None <-> ~ In e (map fst D).
  Proof.
    induction D as [|[e' b'] D IH]; cbn; [tauto|]. destruct (face_eq_dec e' e) as [->|N].
    - split; [discriminate|]. intros H. exfalso. apply H. auto.
    - rewrite IH. tauto.
  Qed.
  Lemma look_some D e b : NoDup (map fst D) -> In (e, b) D -> look D e = Some b.
  Proof.
    induction D as [|[e' b'] D IH]; cbn; [tauto|]. intros N [H|H].
    - injection H as -> ->. destruct (face_eq_dec e e); congruence.
    - inversion N as [|? ? N1 N2]; subst. destruct (face_eq_dec e' e) as [->|]; [|auto]. exfalso. apply N1. apply in_map_iff. exists (e, b). auto.
  Qed.
  Lemma look_app D D' e : look (D ++ D') e = match look D e with Some b => Some b | None => look D' e end.
  Proof. induction D as [|[e' b'] D IH]; cbn; [reflexivity|]. destruct (face_eq_dec e' e); auto. Qed.

  Lemma lay_app s Il J t : lay s (Il ++ J) t <-> exists u, lay s Il u /\ lay u J t.
  Proof.
    revert s. induction Il as [|[e b] Il IH]; intros s; cbn.
    - split; [intros H; exists s; auto|intros (u & -> & H); auto].
    - rewrite IH. split; [intros (H1 & H2 & u & H3 & H4); exists u; auto|intros (u & (H1 & H2 & H3) & H4); eauto 6].
  Qed.
  Lemma lay_le s Il t : lay s Il t -> (s <= t)%Z.
  Proof. revert s. induction Il as [|[e b] Il IH]; intros s; cbn; [lia|]. intros (_ & H & H2). apply IH in H2. lia. Qed.
  Lemma lay_in s Il t e b : lay s Il t -> In (e, b) Il -> (s <= b /\ b + Z.of_nat (sz e) <= t)%Z /\ 0 < sz e.
  Proof.
    revert s. induction Il as [|[e' b'] Il IH]; intros s; cbn; [tauto|]. intros (-> & H & HL) [E|E].
    - injection E as -> ->. apply lay_le in HL. lia.
    - destruct (IH _ HL E). lia.
  Qed.
  Lemma blay_le s Il t : blay s Il t -> (t <= s)%Z.
  Proof. revert s. induction Il as [|[e b] Il IH]; intros s; cbn; [lia|]. intros (_ & H & H2). apply IH in H2. lia. Qed.
  Lemma blay_in s Il t e b : blay s Il t -> In (e, b) Il -> (b <= s /\ t <= b - Z.of_nat (sz e))%Z /\ 0 < sz e.
  Proof.
    revert s. induction Il as [|[e' b'] Il IH]; intros s; cbn; [tauto|]. intros (-> & H & HL) [E|E].
    - injection E as -> ->. apply blay_le in HL. lia.
    - destruct (IH _ HL E). lia.
  Qed.

  (** The blocks of the boundary are fixed, the others are added at the end. *)
  Variable B : list (entity * Z).
  Variable nb : Z.
  Hypothesis HB : blay (-1) B nb.
  Definition good (D : list (entity * Z)) (num : Z) : Prop :=
    exists Il, D = B ++ Il /\ lay 0 Il num /\ NoDup (map fst D).

  Lemma good_num D num : good D num -> (0 <= num)%Z.
  Proof. intros (Il & _ & HL & _). apply lay_le in HL. exact HL. Qed.
  Lemma good_look D num e b : good D num -> look D e = Some b ->
    0 < sz e /\ ((b < 0)%Z /\ look B e = Some b \/ (0 <= b /\ b + Z.of_nat (sz e) <= num)%Z /\ look B e = None).
  Proof using HB.
    intros (Il & -> & HL & ND) H. rewrite look_app in H. destruct (look B e) as [b'|] eqn:E.
    - injection H as ->. apply look_in in E. destruct (blay_in _ _ _ _ _ HB E). split; [auto|]. left. split; [lia|reflexivity].
    - apply look_in in H. destruct (lay_in _ _ _ _ _ HL H). split; [auto|]. right. split; [auto|reflexivity].
  Qed.
  Lemma alloc1_good asg D num e : good D num -> 0 < sz e -> good (fst (alloc1 asg (D, num) e)) (snd (alloc1 asg (D, num) e)).
  Proof.
    intros (Il & -> & HL & ND) Hs. unfold alloc1. cbn [fst snd]. destruct (look (B ++ Il) e) eqn:E; [exists Il; auto|]. destruct asg; [|exists Il; auto].
    cbn [fst snd]. exists (Il ++ [(e, num)]). rewrite <- app_assoc. split; [reflexivity|]. split.
    - apply lay_app. exists num. split; [exact HL|]. cbn. auto.
    - rewrite app_assoc, map_app. cbn [map fst]. apply NoDup_app_one; [exact ND|]. apply look_none. exact E.
  Qed.
  Lemma alloc1_num asg D num e : (num <= snd (alloc1 asg (D, num) e) <= num + Z.of_nat (sz e))%Z.
  Proof. unfold alloc1. cbn [fst snd]. destruct (look D e); cbn; [lia|]. destruct asg; cbn; lia. Qed.
  Lemma alloc1_look asg D num e e' b : look D e' = Some b -> look (fst (alloc1 asg (D, num) e)) e' = Some b.
  Proof. intros H. unfold alloc1. cbn [fst snd]. destruct (look D e); [exact H|]. destruct asg; [|exact H]. cbn [fst]. rewrite look_app, H. reflexivity. Qed.
  Lemma alloc1_look_other asg D num e e' : e' <> e -> look (fst (alloc1 asg (D, num) e)) e' = look D e'.
  Proof.
    intros H. unfold alloc1. cbn [fst snd]. destruct (look D e); [reflexivity|]. destruct asg; [|reflexivity]. cbn [fst]. rewrite look_app. destruct (look D e') ; [reflexivity|].
    cbn. destruct (face_eq_dec e e'); congruence.
  Qed.
  Lemma alloc1_look_new D num e : look (fst (alloc1 true (D, num) e)) e <> None.
  Proof.
    unfold alloc1. cbn [fst snd]. destruct (look D e) eqn:E; [cbn; congruence|]. cbn [fst]. rewrite look_app, E. cbn. destruct (face_eq_dec e e); congruence.
  Qed.

  (** Writing runs *)
  Lemma write_run_ok (pre mid rest : list Z) n dof step j0 : length mid = n -> j0 = length pre ->
    write_run (pre ++ mid ++ rest) j0 n dof step = Ok (pre ++ map (fun k => (dof + step * Z.of_nat k)%Z) (seq 0 n) ++ rest).
  Proof.
    intros Hm ->. unfold write_run.
    loop_inv (fun j (st : list Z * Z) => exists k, j = length pre + k /\ fst st = pre ++ map (fun k => (dof + step * Z.of_nat k)%Z) (seq 0 k) ++ skipn k mid ++ rest /\ snd st = (dof + step * Z.of_nat k)%Z) st E HI.
    - lia.
    - exists 0. cbn. split; [lia|]. split; [reflexivity|lia].
    - intros j [row d] Hj (k & -> & Hr & Hd). cbn [fst snd] in *. subst row d.
      destruct (nth_error_lt mid k) as (y & Hy); [lia|].
      assert (Es : skipn k mid = y :: skipn (S k) mid) by (clear -Hy; revert k Hy; induction mid as [|a mid IH]; intros [|k] H; cbn in *; try discriminate; [congruence|auto]).
      rewrite Es. cbn [app].
      replace (pre ++ map (fun k0 => (dof + step * Z.of_nat k0)%Z) (seq 0 k) ++ y :: skipn (S k) mid ++ rest) with ((pre ++ map (fun k0 => (dof + step * Z.of_nat k0)%Z) (seq 0 k)) ++ y :: skipn (S k) mid ++ rest) by (rewrite <- app_assoc; reflexivity).
      rewrite aset_ok by (rewrite app_length, app_length, map_length, seq_length; cbn [length]; lia). cbn [bind].
      rewrite upd_at by (rewrite app_length, map_length, seq_length; reflexivity).
      eexists. split; [reflexivity|]. exists (S k). split; [lia|]. cbn [fst snd]. split.
      + rewrite seq_S, map_app, <- !app_assoc. cbn [map app]. rewrite Nat.add_0_l. reflexivity.
      + lia.
    - rewrite E. destruct st as [row d]. destruct HI as (k & Hk & Hr & Hd). cbn [bind fst snd] in *. replace k with n in * by lia.
      rewrite Hr. rewrite <- Hm at 2. rewrite skipn_all. reflexivity.
  Qed.

  Lemma dofs_on_length e n bw : length (dofs_on e n bw) = n.
  Proof. unfold dofs_on. rewrite map_length, seq_length. reflexivity. Qed.
  Lemma dofs_on_fst e n bw p : In p (dofs_on e n bw) -> fst p = e.
  Proof. intros H. apply in_map_iff in H. destruct H as (m & <- & _). reflexivity. Qed.
  Lemma val_none D e n bw : look D e = None -> map (val D) (dofs_on e n bw) = repeat unset n.
  Proof.
    intros H. unfold dofs_on. rewrite map_map. unfold val. cbn [fst]. rewrite H. generalize 0 as s. induction n as [|n IH]; intros s; cbn [seq map repeat]; [reflexivity|]. f_equal. apply (IH (S s)).
  Qed.
  Lemma val_up D e n b : look D e = Some b -> (0 <= b)%Z -> map (val D) (dofs_on e n false) = map (fun k => (b + 1 * Z.of_nat k)%Z) (seq 0 n).
  Proof.
    intros H Hb. unfold dofs_on. rewrite map_map. apply map_ext. intros k. unfold val. cbn [fst snd]. rewrite H. apply Z.leb_le in Hb. rewrite Hb. lia.
  Qed.
  Lemma val_up_back D e n b : look D e = Some b -> (0 <= b)%Z -> map (val D) (dofs_on e n true) = map (fun k => (b + (Z.of_nat n - 1) + -1 * Z.of_nat k)%Z) (seq 0 n).
  Proof.
    intros H Hb. unfold dofs_on. rewrite map_map. apply map_ext_in. intros k Hk. apply in_seq in Hk. unfold val. cbn [fst snd]. rewrite H. apply Z.leb_le in Hb. rewrite Hb. lia.
  Qed.
  Lemma val_down D e n b : look D e = Some b -> (b < 0)%Z -> map (val D) (dofs_on e n false) = map (fun k => (b + -1 * Z.of_nat k)%Z) (seq 0 n).
  Proof.
    intros H Hb. unfold dofs_on. rewrite map_map. apply map_ext. intros k. unfold val. cbn [fst snd]. rewrite H. replace (0 <=? b)%Z with false by (symmetry; apply Z.leb_gt; exact Hb). lia.
  Qed.

  (** ** One kind of entities of a cell *)
  Section Part.
    Context {X Cont : Type}.
    Variables (ent : X -> entity) (run : X -> list place) (s : nat) (asg : bool).
    Variable R : list (entity * Z) -> Z -> Cont -> list X -> Prop.
    Variable body : nat -> Cont * list Z * Z -> res (Cont * list Z * Z).
    Hypothesis Hs : 0 < s.
    Hypothesis Hsz : forall x, sz (ent x) = s.
    Hypothesis Hrun : forall x, length (run x) = s.
    Hypothesis Hfst : forall x p, In p (run x) -> fst p = ent x.
    Variable L : list X.
    Variable base : nat.
    Hypothesis Hstep : forall done x todo D num cont row rest, L = done ++ x :: todo -> good D num -> (num + Z.of_nat s <= MAX_INT)%Z -> R D num cont done ->
      length row = base + length done * s ->
      exists cont', body (length done) (cont, row ++ repeat unset s ++ rest, num) =
        Ok (cont', row ++ map (val (fst (alloc1 asg (D, num) (ent x)))) (run x) ++ rest, snd (alloc1 asg (D, num) (ent x))) /\
        R (fst (alloc1 asg (D, num) (ent x))) (snd (alloc1 asg (D, num) (ent x))) cont' (done ++ [x]).

    Definition assigned D (P : list place) := forall p, In p P -> look D (fst p) <> None.

    Lemma val_stable D num e P : (asg = true -> assigned D P) -> map (val (fst (alloc1 asg (D, num) e))) P = map (val D) P.
    Proof.
      intros H. apply map_ext_in. intros p Hp. unfold val. destruct (look D (fst p)) as [b|] eqn:E.
      - rewrite (alloc1_look asg D num e _ b E). reflexivity.
      - destruct asg eqn:Ea; [exfalso; apply (H eq_refl p Hp E)|]. unfold alloc1. cbn [fst snd]. destruct (look D e); cbn [fst]; rewrite E; reflexivity.
    Qed.
    Lemma assigned_stable D num e P : assigned D P -> assigned (fst (alloc1 asg (D, num) e)) P.
    Proof. intros H p Hp. specialize (H p Hp). destruct (look D (fst p)) as [b|] eqn:E; [|congruence]. rewrite (alloc1_look asg D num e _ b E). discriminate. Qed.

    Lemma part_ok D num cont P0 rest : good D num -> (num + Z.of_nat (length L * s) <= MAX_INT)%Z -> R D num cont [] ->
      length P0 = base -> (asg = true -> assigned D P0) ->
      let st' := fold_left (alloc1 asg) (map ent L) (D, num) in
      exists cont', for_range 0 (length L) body (cont, map (val D) P0 ++ repeat unset (length L * s) ++ rest, num) =
        Ok (cont', map (val (fst st')) (P0 ++ flat_map run L) ++ rest, snd st') /\
        R (fst st') (snd st') cont' L /\ good (fst st') (snd st') /\ (snd st' <= num + Z.of_nat (length L * s))%Z /\
        (asg = true -> assigned (fst st') (P0 ++ flat_map run L)).
    Proof using All.
      intros HG HN HR HP HA st'.
      loop_inv (fun i (st : Cont * list Z * Z) => let '(c, row, n) := st in
         let g := fold_left (alloc1 asg) (map ent (firstn i L)) (D, num) in
         n = snd g /\ row = map (val (fst g)) (P0 ++ flat_map run (firstn i L)) ++ repeat unset ((length L - i) * s) ++ rest /\
         R (fst g) (snd g) c (firstn i L) /\ good (fst g) (snd g) /\ (snd g <= num + Z.of_nat (i * s))%Z /\
         (asg = true -> assigned (fst g) (P0 ++ flat_map run (firstn i L)))) st E HI.
      3: { intros i [[c row] n] Hi (Hn & Hrow & HRi & HGi & Hle & HAi). destruct (nth_error_lt L i) as (x & Hx); [lia|].
        pose proof (nth_error_split L i Hx) as (done & todo & EL & Hd). assert (Ef : firstn i L = done) by (rewrite EL; rewrite <- Hd at 1; apply firstn_at).
        assert (EfS : firstn (S i) L = done ++ [x]) by (rewrite EL; replace (S i) with (length (done ++ [x])) by (rewrite app_length; cbn; lia); change (done ++ x :: todo) with (done ++ [x] ++ todo); rewrite app_assoc; apply firstn_at).
        rewrite Ef in *. set (g := fold_left (alloc1 asg) (map ent done) (D, num)) in *.
        destruct (Hstep done x todo (fst g) (snd g) c (map (val (fst g)) (P0 ++ flat_map run done)) (repeat unset ((length L - S i) * s) ++ rest) EL HGi) as (c' & E' & HR').
        - assert (i * s + s <= length L * s) by (replace (i * s + s) with (S i * s) by lia; apply Nat.mul_le_mono_r; lia). lia.
        - exact HRi.
        - rewrite map_length, app_length, HP, Hd. f_equal. rewrite <- Hd. clear -Hrun. induction done as [|y done IH]; cbn [flat_map length]; [reflexivity|]. rewrite app_length, Hrun, IH. lia.
        - exists (c', map (val (fst (alloc1 asg g (ent x)))) (P0 ++ flat_map run (done ++ [x])) ++ repeat unset ((length L - S i) * s) ++ rest, snd (alloc1 asg g (ent x))).
          assert (Eg : (fst g, snd g) = g) by (destruct g; reflexivity). rewrite Eg in *.
          assert (Est : map (val (fst (alloc1 asg g (ent x)))) (P0 ++ flat_map run done) = map (val (fst g)) (P0 ++ flat_map run done)) by (rewrite <- Eg at 1; apply val_stable; exact HAi).
          split.
          + rewrite Hn, Hrow. rewrite <- Hd. replace ((length L - length done) * s) with (s + (length L - S i) * s) by (rewrite Hd; replace (length L - i) with (S (length L - S i)) by lia; reflexivity).
            rewrite repeat_app, <- (app_assoc (repeat unset s)). rewrite E'. do 2 f_equal. f_equal.
            assert (Eq : P0 ++ flat_map run (done ++ [x]) = (P0 ++ flat_map run done) ++ run x) by (rewrite flat_map_app; cbn [flat_map]; rewrite app_nil_r, app_assoc; reflexivity).
            rewrite Eq, (map_app _ (P0 ++ flat_map run done) (run x)), Est, <- app_assoc, Hd. reflexivity.
          + rewrite EfS, map_app, fold_left_app. cbn [map fold_left]. fold g. split; [reflexivity|]. split; [reflexivity|]. split; [exact HR'|]. split.
            * rewrite <- Eg. apply alloc1_good; [exact HGi|]. rewrite Hsz. exact Hs.
            * split; [|].
              -- pose proof (alloc1_num asg (fst g) (snd g) (ent x)) as Q. rewrite Eg, Hsz in Q. lia.
              -- intros Ha. specialize (HAi Ha). rewrite flat_map_app. cbn [flat_map]. rewrite app_nil_r, app_assoc. intros p Hp. apply in_app_iff in Hp as [Hp|Hp].
                 ++ rewrite <- Eg. apply (assigned_stable _ _ _ _ HAi p Hp).
                 ++ rewrite (Hfst x p Hp), Ha, <- Eg. apply alloc1_look_new. }
      - lia.
      - cbn [firstn map fold_left fst snd flat_map]. rewrite app_nil_r, Nat.sub_0_r. repeat split; auto. lia.
      - rewrite E. destruct st as [[c row] n]. destruct HI as (Hn & Hrow & H1 & H2 & H3 & H4). rewrite firstn_all in *. rewrite Nat.sub_diag in Hrow. cbn [Nat.mul repeat app] in Hrow. fold st' in Hn, Hrow, H1, H2, H3, H4.
        exists c. rewrite Hrow, Hn. auto.
    Qed.
  End Part.
End Ghost.
