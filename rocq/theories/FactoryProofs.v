(** The factory resolves names as the history says. *)
From Coq Require Import String Ascii.
From Verif Require Import Util FactoryModel FactorySpec.
Set Default Proof Using "Type".

Lemma name_eq_spec a b : name_eq a b = true <-> a = b.
Proof.
  destruct a as [s|k], b as [t|l]; cbn; try (split; discriminate).
  - rewrite String.eqb_eq. split; congruence.
  - rewrite Nat.eqb_eq. split; congruence.
Qed.
Lemma name_eq_refl a : name_eq a a = true. Proof. apply name_eq_spec. reflexivity. Qed.
Lemma same_string_lower s : forall t, same_string s t = String.eqb (lower s) (lower t).
Proof. induction s as [|c s IH]; intros [|d t]; try reflexivity. cbn [same_string lower String.eqb]. rewrite IH. destruct (Ascii.eqb _ _); reflexivity. Qed.
Lemma same_canon a b : same a b = name_eq (getCanonicalName a) (getCanonicalName b).
Proof. destruct a as [s|k], b as [t|l]; try reflexivity. cbn. apply same_string_lower. Qed.
Lemma same_refl a : same a a = true. Proof. rewrite same_canon. apply name_eq_refl. Qed.
Lemma same_eq a b : same a b = true <-> getCanonicalName a = getCanonicalName b.
Proof. rewrite same_canon. apply name_eq_spec. Qed.
Lemma same_l a b c : same a b = true -> same a c = same b c.
Proof. rewrite same_eq, !same_canon. intros ->. reflexivity. Qed.
Lemma same_sym a b : same a b = same b a.
Proof.
  destruct (same a b) eqn:E.
  - symmetry. apply same_eq. apply same_eq in E. auto.
  - destruct (same b a) eqn:E'; [|reflexivity]. apply same_eq in E'. symmetry in E'. apply same_eq in E'. congruence.
Qed.

Lemma dget_dset {K V} (eqb : K -> K -> bool) (H : forall a b, eqb a b = true <-> a = b) (d : list (K * V)) k v k' :
  dget eqb (dset eqb d k v) k' = if eqb k k' then Some v else dget eqb d k'.
Proof.
  induction d as [|(a, w) d IH]; cbn [dset dget]; [reflexivity|]. destruct (eqb a k) eqn:E.
  - apply H in E. subst a. cbn [dget]. destruct (eqb k k'); reflexivity.
  - cbn [dget]. rewrite IH. destruct (eqb a k') eqn:E1; [|reflexivity]. apply H in E1. subst a. destruct (eqb k k') eqn:E2; [|reflexivity]. apply H in E2. subst k. rewrite (proj2 (H k' k') eq_refl) in E. discriminate.
Qed.
Lemma length_dset {V} (d : list (name * V)) k v : length (dset name_eq d k v) = length d + (if has d k then 0 else 1).
Proof.
  unfold has. induction d as [|(a, w) d IH]; cbn [dset dget length]; [reflexivity|]. destruct (name_eq a k); cbn [length]; [lia|]. rewrite IH. destruct (dget name_eq d k); lia.
Qed.

Lemma latest_app p l r : latest p (l ++ [r]) = if p r then Some r else latest p l.
Proof. unfold latest. rewrite rev_unit. reflexivity. Qed.
Lemma after_app l r : after (l ++ [r]) = register (after l) (r_name r) (r_class r) (r_params r) (r_aliases r).
Proof. unfold after. rewrite fold_left_app. reflexivity. Qed.
Lemma find_ext' {A} (p q : A -> bool) l : (forall x, p x = q x) -> find p l = find q l.
Proof. intros H. induction l as [|x l IH]; [reflexivity|]. cbn. rewrite H, IH. reflexivity. Qed.

Lemma classes_after l n : dget name_eq (f_classes (after l)) (getCanonicalName n) = option_map (fun r => (r_name r, r_class r, r_params r)) (latest (by_name n) l).
Proof.
  induction l as [|r l IH] using rev_ind; [reflexivity|]. rewrite after_app, latest_app. cbn [register f_classes]. rewrite (dget_dset _ name_eq_spec), IH. unfold by_name at 2. rewrite same_canon.
  destruct (name_eq _ _); reflexivity.
Qed.
Lemma alias_fold al c : forall (d : list (name * (name * name))) n,
  option_map snd (dget name_eq (fold_left (fun d a => dset name_eq d (getCanonicalName a) (a, c)) al d) (getCanonicalName n)) =
  if existsb (fun a => same a n) al then Some c else option_map snd (dget name_eq d (getCanonicalName n)).
Proof.
  induction al as [|a al IH]; intros d n; [reflexivity|]. cbn [fold_left existsb]. rewrite IH, (dget_dset _ name_eq_spec), <- same_canon. destruct (same a n), (existsb _ _); reflexivity.
Qed.
Lemma aliases_after l n : option_map snd (dget name_eq (f_aliases (after l)) (getCanonicalName n)) = option_map (fun r => getCanonicalName (r_name r)) (latest (by_alias n) l).
Proof.
  induction l as [|r l IH] using rev_ind; [reflexivity|]. rewrite after_app, latest_app. cbn [register f_aliases]. rewrite alias_fold, IH. unfold by_alias at 2. destruct (existsb _ _); reflexivity.
Qed.

Lemma build_ok l n args kwargs : build (after l) n args kwargs =
  match resolve l n with Some r => Ok (r_class r, args, dupdate String.eqb (r_params r) kwargs) | None => Err EKey end.
Proof.
  unfold build, resolve. pose proof (aliases_after l n) as A. destruct (dget name_eq (f_aliases (after l)) (getCanonicalName n)) as [a|] eqn:Ea; cbn [option_map] in A.
  - destruct (latest (by_alias n) l) as [r|]; [|discriminate]. cbn [option_map] in A. injection A as A. rewrite A, classes_after. destruct (latest _ l); reflexivity.
  - destruct (latest (by_alias n) l) as [r|]; [discriminate|]. rewrite classes_after. destruct (latest _ l); reflexivity.
Qed.
Lemma dget_value (d : params) k : dget String.eqb d k = value d k.
Proof. induction d as [|(a, v) d IH]; [reflexivity|]. cbn. rewrite IH. reflexivity. Qed.
Lemma value_dset (d : params) k v key : value (dset String.eqb d k v) key = if String.eqb k key then Some v else value d key.
Proof. pose proof (dget_dset _ String.eqb_eq d k v key) as H. rewrite !dget_value in H. exact H. Qed.
Lemma value_update (kwargs : params) : NoDup (map fst kwargs) -> forall p key,
  value (dupdate String.eqb p kwargs) key = match value kwargs key with Some v => Some v | None => value p key end.
Proof.
  unfold dupdate. induction kwargs as [|(k, v) r IH]; intros N p key; [reflexivity|]. cbn [fold_left fst snd map] in *. inversion N as [|x y Hx Hy]; subst. rewrite IH by auto. cbn [value].
  rewrite value_dset. destruct (String.eqb_spec k key) as [-> |Hne]; [|reflexivity].
  assert (G : value r key = None); [|rewrite G; reflexivity]. clear - Hx. induction r as [|(a, w) r IH]; [reflexivity|]. cbn in *. destruct (String.eqb_spec a key) as [-> |]; [exfalso; apply Hx; auto|]. apply IH. intros H. apply Hx. auto.
Qed.
Lemma latest_same p q l : (forall r, p r = q r) -> latest p l = latest q l.
Proof. apply find_ext'. Qed.
Lemma resolve_case l a b : same a b = true -> resolve l a = resolve l b.
Proof.
  intros E. unfold resolve. assert (G : forall c, same c a = same c b) by (intros c; rewrite !(same_sym c), (same_l a b c E); reflexivity).
  rewrite (latest_same (by_alias a) (by_alias b)).
  - destruct (latest _ l); [reflexivity|]. apply latest_same. intros r. apply G.
  - intros r. unfold by_alias. induction (r_aliases r) as [|c al IH]; [reflexivity|]. cbn. rewrite G, IH. reflexivity.
Qed.
Lemma latest_some p l : (exists r, latest p l = Some r) <-> exists r, In r l /\ p r = true.
Proof.
  unfold latest. split.
  - intros (r & E). apply find_some in E. exists r. rewrite <- in_rev in E. exact E.
  - intros (r & Hr & Hp). destruct (find p (rev l)) as [q|] eqn:E; [eauto|]. apply find_none with (x := r) in E; [congruence|]. rewrite <- in_rev. exact Hr.
Qed.
Lemma latest_p p l r : latest p l = Some r -> In r l /\ p r = true.
Proof. intros E. apply find_some in E. rewrite <- in_rev in E. exact E. Qed.
(** A name resolves iff it was registered, as a name or as an alias. *)
Lemma resolve_some l n : (exists r, resolve l n = Some r) <-> exists r, In r l /\ (by_name n r = true \/ by_alias n r = true).
Proof.
  unfold resolve. split.
  - intros (r & E). destruct (latest (by_alias n) l) as [q|] eqn:A.
    + apply latest_p in A. exists q. tauto.
    + apply latest_p in E. exists r. tauto.
  - intros (r & Hr & H). destruct (latest (by_alias n) l) as [q|] eqn:A.
    + apply latest_p in A. apply latest_some. exists q. split; [apply A|]. unfold by_name. apply same_refl.
    + destruct H as [H|H]; [apply latest_some; eauto|]. exfalso. assert (G : exists q, latest (by_alias n) l = Some q) by (apply latest_some; eauto). destruct G as (q & G). congruence.
Qed.
Lemma isRegistered_lower l n : getCanonicalName n = n -> isRegistered (after l) n = match resolve l n with Some _ => true | None => false end.
Proof.
  intros C. unfold isRegistered, has. pose proof (aliases_after l n) as A. rewrite C in A. rewrite classes_after.
  destruct (latest (by_name n) l) as [r|] eqn:E.
  - cbn [option_map orb]. destruct (resolve l n) as [q|] eqn:R; [reflexivity|]. exfalso. assert (G : exists q, resolve l n = Some q); [|destruct G; congruence]. apply resolve_some. apply latest_p in E. exists r. tauto.
  - cbn [option_map orb]. destruct (dget name_eq (f_aliases (after l)) n) as [a|]; cbn [option_map] in A.
    + destruct (latest (by_alias n) l) as [q|] eqn:B; [|discriminate]. destruct (resolve l n) as [q'|] eqn:R; [reflexivity|]. exfalso. assert (G : exists q, resolve l n = Some q); [|destruct G; congruence]. apply resolve_some. apply latest_p in B. exists q. tauto.
    + destruct (latest (by_alias n) l) as [q|] eqn:B; [discriminate|]. unfold resolve. rewrite B, E. reflexivity.
Qed.

Lemma distinct_app l n : distinct (l ++ [n]) = distinct l + (if existsb (fun m => same m n) l then 0 else 1).
Proof.
  induction l as [|x l IH]; [reflexivity|]. cbn [app distinct existsb]. rewrite IH, existsb_app. cbn [existsb]. rewrite orb_false_r. rewrite (same_sym x n).
  destruct (same n x) eqn:E.
  - assert (G : existsb (fun m => same m n) l = existsb (fun m => same m x) l).
    { clear IH. induction l as [|y l IH]; [reflexivity|]. cbn. rewrite IH, !(same_sym y), (same_l n x y E). reflexivity. }
    rewrite G. destruct (existsb (fun m => same m x) l); cbn. all: lia.
  - rewrite orb_false_r. cbn [orb]. lia.
Qed.
Lemma has_classes l n : has (f_classes (after l)) (getCanonicalName n) = existsb (fun m => same m n) (map r_name l).
Proof.
  unfold has. rewrite classes_after. destruct (latest (by_name n) l) as [r|] eqn:E; cbn [option_map].
  - apply latest_p in E. symmetry. apply existsb_exists. exists (r_name r). split; [apply in_map; tauto|]. apply E.
  - destruct (existsb _ _) eqn:X; [|reflexivity]. apply existsb_exists in X. destruct X as (m & Hm & S). apply in_map_iff in Hm. destruct Hm as (r & <- & Hr).
    assert (G : exists q, latest (by_name n) l = Some q) by (apply latest_some; eauto). destruct G; congruence.
Qed.
Lemma has_aliases l n : has (f_aliases (after l)) (getCanonicalName n) = existsb (fun m => same m n) (concat (map r_aliases l)).
Proof.
  unfold has. pose proof (aliases_after l n) as A. destruct (dget _ _ _) as [a|]; cbn [option_map] in A.
  - destruct (latest (by_alias n) l) as [r|] eqn:E; [|discriminate]. apply latest_p in E. destruct E as (Hr & E). symmetry. apply existsb_exists. apply existsb_exists in E. destruct E as (m & Hm & S).
    exists m. split; [|exact S]. apply in_concat. exists (r_aliases r). split; [apply in_map, Hr|exact Hm].
  - destruct (latest (by_alias n) l) as [r|] eqn:E; [discriminate|]. destruct (existsb _ _) eqn:X; [|reflexivity]. apply existsb_exists in X. destruct X as (m & Hm & S). apply in_concat in Hm. destruct Hm as (al & H1 & H2).
    apply in_map_iff in H1. destruct H1 as (r & <- & Hr). assert (G : exists q, latest (by_alias n) l = Some q) by (apply latest_some; exists r; split; [auto|]; apply existsb_exists; eauto). destruct G; congruence.
Qed.
Lemma alias_length al c : forall (d : list (name * (name * name))) seen, length d = distinct seen -> (forall n, has d (getCanonicalName n) = existsb (fun m => same m n) seen) ->
  length (fold_left (fun d a => dset name_eq d (getCanonicalName a) (a, c)) al d) = distinct (seen ++ al).
Proof.
  induction al as [|a al IH]; intros d seen Hl Hh; [rewrite app_nil_r; exact Hl|]. cbn [fold_left]. replace (seen ++ a :: al) with ((seen ++ [a]) ++ al) by (rewrite <- app_assoc; reflexivity). apply IH.
  - rewrite length_dset, distinct_app, Hl, Hh. reflexivity.
  - intros n. rewrite existsb_app. cbn [existsb]. rewrite orb_false_r, <- Hh. unfold has. rewrite (dget_dset _ name_eq_spec), <- same_canon. destruct (same a n); [rewrite orb_true_r; reflexivity|rewrite orb_false_r; reflexivity].
Qed.
Lemma number_ok l : numRegistered (after l) false = distinct (map r_name l) /\ numRegistered (after l) true = distinct (map r_name l) + distinct (concat (map r_aliases l)).
Proof.
  assert (H : length (f_classes (after l)) = distinct (map r_name l) /\ length (f_aliases (after l)) = distinct (concat (map r_aliases l))).
  { induction l as [|r l IH] using rev_ind; [split; reflexivity|]. destruct IH as (H1 & H2). rewrite after_app, !map_app, concat_app. cbn [register f_classes f_aliases map concat]. rewrite app_nil_r. split.
    - rewrite length_dset, distinct_app, H1, has_classes. reflexivity.
    - apply alias_length; [exact H2|apply has_aliases]. }
  unfold numRegistered. destruct H as (-> & ->). auto.
Qed.

Lemma build_thm l n args kwargs : NoDup (map fst kwargs) ->
  match resolve l n with
  | None => build (after l) n args kwargs = Err EKey
  | Some r => exists kw, build (after l) n args kwargs = Ok (r_class r, args, kw) /\
      forall key, value kw key = match value kwargs key with Some v => Some v | None => value (r_params r) key end
  end.
Proof. intros N. pose proof (build_ok l n args kwargs) as B. destruct (resolve l n) as [r|]; [|exact B]. eexists. split; [exact B|]. intros key. apply value_update, N. Qed.
Lemma known_thm l n args kwargs : (exists c, build (after l) n args kwargs = Ok c) <-> exists r, In r l /\ (by_name n r = true \/ by_alias n r = true).
Proof.
  rewrite <- resolve_some, build_ok. destruct (resolve l n) as [r|]; split; intros (c & H); eauto; discriminate.
Qed.
Lemma case_thm l a b args kwargs : same a b = true -> build (after l) a args kwargs = build (after l) b args kwargs.
Proof. intros H. rewrite !build_ok, (resolve_case l a b H). reflexivity. Qed.
Lemma fresh_thm l r args kwargs n : same (r_name r) n = true -> (forall q, In q (l ++ [r]) -> by_alias n q = false) ->
  build (after (l ++ [r])) n args kwargs = Ok (r_class r, args, dupdate String.eqb (r_params r) kwargs).
Proof.
  intros S A. rewrite build_ok. unfold resolve. destruct (latest (by_alias n) (l ++ [r])) as [q|] eqn:E.
  - apply latest_p in E. destruct E as (H1 & H2). rewrite (A q H1) in H2. discriminate.
  - rewrite latest_app. unfold by_name. rewrite S. reflexivity.
Qed.
Lemma alias_thm l r args kwargs n : by_alias n r = true ->
  build (after (l ++ [r])) n args kwargs = Ok (r_class r, args, dupdate String.eqb (r_params r) kwargs).
Proof.
  intros A. rewrite build_ok. unfold resolve. rewrite !latest_app, A, latest_app. unfold by_name. rewrite same_refl. reflexivity.
Qed.
Lemma isRegistered_thm l n : getCanonicalName n = n -> isRegistered (after l) n = true <-> exists r, In r l /\ (by_name n r = true \/ by_alias n r = true).
Proof.
  intros C. rewrite <- resolve_some, (isRegistered_lower l n C). destruct (resolve l n) as [r|]; split; intros H; eauto; try discriminate. destruct H; discriminate.
Qed.
Lemma isRegistered_false : exists l n, build (after l) n [] [] = Ok (3, [], []) /\ (exists r, In r l /\ In n (r_aliases r)) /\ isRegistered (after l) n = false.
Proof. exists [Reg (Key 7) 3 [] [Str "MG"%string]], (Str "MG"%string). split; [reflexivity|]. split; [eexists; split; [left; reflexivity|left; reflexivity]|reflexivity]. Qed.
Lemma shadowed : exists l r, build (after (l ++ [r])) (r_name r) [] [] <> Ok (r_class r, [], r_params r) /\
  build (after (l ++ [r])) (r_name r) [] [] = build (after l) (r_name r) [] [].
Proof. exists [Reg (Str "a"%string) 1 [] [Str "b"%string]], (Reg (Str "b"%string) 2 [] []). split; [discriminate|reflexivity]. Qed.
