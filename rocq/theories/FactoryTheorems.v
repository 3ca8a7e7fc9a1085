(** Property theorems C33 (the factory).  Proofs are in FactoryProofs.v. *)
From Coq Require Import String Ascii.
From Verif Require Import Util FactoryModel FactorySpec FactoryProofs.
Local Open Scope string_scope.

(** C33, building. After any history of registrations build calls the class the name resolves
    to, with the arguments it was given; a name nobody registered gives KeyError. *)
Theorem C33_build :
  forall l n args kwargs, NoDup (map fst kwargs) ->
  match resolve l n with
  | None => build (after l) n args kwargs = Err EKey
  | Some r => exists kw, build (after l) n args kwargs = Ok (r_class r, args, kw) /\
      forall key, value kw key = match value kwargs key with Some v => Some v | None => value (r_params r) key end
  end.
Proof. exact build_thm. Qed.
Print Assumptions C33_build.

(** C33, a name can be built iff some registration has it as its name or as an alias, up to case. *)
Theorem C33_known :
  forall l n args kwargs,
  (exists c, build (after l) n args kwargs = Ok c) <-> exists r, In r l /\ (by_name n r = true \/ by_alias n r = true).
Proof. exact known_thm. Qed.
Print Assumptions C33_known.

(** C33, case does not matter. *)
Theorem C33_case :
  forall l a b args kwargs, same a b = true -> build (after l) a args kwargs = build (after l) b args kwargs.
Proof. exact case_thm. Qed.
Print Assumptions C33_case.

(** C33, a name that was just registered builds its class unless it is an alias already. *)
Theorem C33_fresh :
  forall l r args kwargs n, same (r_name r) n = true -> (forall q, In q (l ++ [r]) -> by_alias n q = false) ->
  build (after (l ++ [r])) n args kwargs = Ok (r_class r, args, dupdate String.eqb (r_params r) kwargs).
Proof. exact fresh_thm. Qed.
Print Assumptions C33_fresh.

(** C33, an alias that was just registered builds its class, whatever was registered before. *)
Theorem C33_alias :
  forall l r args kwargs n, by_alias n r = true ->
  build (after (l ++ [r])) n args kwargs = Ok (r_class r, args, dupdate String.eqb (r_params r) kwargs).
Proof. exact alias_thm. Qed.
Print Assumptions C33_alias.

(** C33, isRegistered is right for names without upper case letters. Missing: all other names,
    for which it is false, see below. *)
Theorem C33_isRegistered_partial :
  forall l n, getCanonicalName n = n ->
  isRegistered (after l) n = true <-> exists r, In r l /\ (by_name n r = true \/ by_alias n r = true).
Proof. exact isRegistered_thm. Qed.
Print Assumptions C33_isRegistered_partial.

(** C33, counting: numRegistered counts the names that differ by more than case, and the aliases
    on request. *)
Theorem C33_numRegistered :
  forall l, numRegistered (after l) false = distinct (map r_name l) /\
  numRegistered (after l) true = (distinct (map r_name l) + distinct (concat (map r_aliases l)))%nat.
Proof. exact number_ok. Qed.
Print Assumptions C33_numRegistered.

(** The solvers of solver_factory: registrations with aliases, one of them in upper case. *)
Definition some_history : list reg :=
  [Reg (Str "cg") 1 [("maxIter", 50); ("tol", 6)] [Str "pcg"];
   Reg (Str "GMRES") 2 [] [];
   Reg (Key 7) 3 [] [Str "MG"];
   Reg (Str "gmres") 4 [("restarts", 3)] []].
Example C33_example :
  build (after some_history) (Str "PCG") [8] [("tol", 9); ("x", 0)] = Ok (1, [8], [("maxIter", 50); ("tol", 9); ("x", 0)]) /\
  build (after some_history) (Str "Gmres") [] [] = Ok (4, [], [("restarts", 3)]) /\
  build (after some_history) (Str "mg") [] [] = Ok (3, [], []) /\
  build (after some_history) (Key 7) [] [] = Ok (3, [], []) /\
  build (after some_history) (Str "lu") [] [] = Err EKey /\
  numRegistered (after some_history) false = 3 /\ numRegistered (after some_history) true = 5.
Proof. vm_compute. repeat split. Qed.
Example C33_case_example : same (Str "PCG") (Str "pCg") = true /\ same (Str "PCG") (Str "pcgs") = false /\ NoDup (map fst [("tol", 9); ("x", 0)]).
Proof. split; [reflexivity|]. split; [reflexivity|]. repeat constructor; cbn; intuition discriminate. Qed.
Example C33_fresh_example :
  same (Str "gmres") (Str "GMRES") = true /\ (forall q, In q (firstn 3 some_history ++ [Reg (Str "gmres") 4 [("restarts", 3)] []]) -> by_alias (Str "GMRES") q = false).
Proof. split; [reflexivity|]. intros q H. cbn in H. repeat (destruct H as [<- |H]; [reflexivity|]). destruct H. Qed.
Example C33_isRegistered_example : isRegistered (after some_history) (Str "pcg") = true /\ getCanonicalName (Str "pcg") = Str "pcg" /\ isRegistered (after some_history) (Str "CG") = true /\ isRegistered (after some_history) (Str "lu") = false.
Proof. repeat split. Qed.

(** C33 is false of isRegistered: aliases are looked up without making them lower case
    (factory.py:30), so an alias written in upper case, which build accepts, is reported missing. *)
Theorem C33_isRegistered_refuted :
  exists l n, build (after l) n [] [] = Ok (3, [], []) /\ (exists r, In r l /\ In n (r_aliases r)) /\ isRegistered (after l) n = false.
Proof. exact isRegistered_false. Qed.
Print Assumptions C33_isRegistered_refuted.

(** C33 is false of a name that is an alias already: registering it builds the old class. *)
Theorem C33_shadowed_refuted :
  exists l r, build (after (l ++ [r])) (r_name r) [] [] <> Ok (r_class r, [], r_params r) /\
  build (after (l ++ [r])) (r_name r) [] [] = build (after l) (r_name r) [] [].
Proof. exact shadowed. Qed.
Print Assumptions C33_shadowed_refuted.
