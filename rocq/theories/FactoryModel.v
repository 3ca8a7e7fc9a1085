(** Model of base/PyNucleus_base/factory.py.

    A name is a string or some other hashable key. A class is a number; calling it is recorded as
    the class with its arguments. Simplifications: strings are ASCII; values of parameters are
    numbers, so that deepcopy is the identity; dictionaries are lists of keys and values in the
    order of insertion. *)
From Coq Require Import String Ascii.
From Verif Require Import Util.

Inductive name := Str (s : string) | Key (k : nat).
Definition name_eq (a b : name) : bool :=
  match a, b with Str s, Str t => String.eqb s t | Key k, Key l => k =? l | _, _ => false end.

(** str.lower for ASCII *)
Definition lower_char (c : ascii) : ascii :=
  let n := nat_of_ascii c in if (65 <=? n) && (n <=? 90) then ascii_of_nat (n + 32) else c.
Fixpoint lower (s : string) : string :=
  match s with EmptyString => EmptyString | String c r => String (lower_char c) (lower r) end.

(** * Dictionaries *)
Section dict.
  Context {K V : Type} (eqb : K -> K -> bool).
  Fixpoint dget (d : list (K * V)) (k : K) : option V :=
    match d with [] => None | (k', v) :: r => if eqb k' k then Some v else dget r k end.
  (** overwriting keeps the place of the key *)
  Fixpoint dset (d : list (K * V)) (k : K) (v : V) : list (K * V) :=
    match d with [] => [(k, v)] | (k', v') :: r => if eqb k' k then (k', v) :: r else (k', v') :: dset r k v end.
  Definition dupdate (d e : list (K * V)) : list (K * V) := fold_left (fun d p => dset d (fst p) (snd p)) e d.
End dict.
Definition params := list (string * nat).

Record factory := Factory {
  f_classes : list (name * (name * nat * params));
  f_aliases : list (name * (name * name)) }.
(** factory.py:12-14 *)
Definition new_factory : factory := Factory [] [].
(** factory.py:16-20 *)
Definition getCanonicalName (n : name) : name := match n with Str s => Str (lower s) | Key k => Key k end.
(** factory.py:22-27 *)
Definition register (f : factory) (n : name) (classType : nat) (p : params) (aliases : list name) : factory :=
  let c := getCanonicalName n in
  Factory (dset name_eq (f_classes f) c (n, classType, p))
          (fold_left (fun d a => dset name_eq d (getCanonicalName a) (a, c)) aliases (f_aliases f)).
Definition has {V} (d : list (name * V)) (n : name) : bool := match dget name_eq d n with Some _ => true | None => false end.
(** factory.py:29-30 *)
Definition isRegistered (f : factory) (n : name) : bool := has (f_classes f) (getCanonicalName n) || has (f_aliases f) n.
(** factory.py:35-45: the class that is called, its positional arguments and its keyword arguments *)
Definition build (f : factory) (n : name) (args : list nat) (kwargs : params) : res (nat * list nat * params) :=
  let c := getCanonicalName n in
  let c := match dget name_eq (f_aliases f) c with Some a => snd a | None => c end in
  match dget name_eq (f_classes f) c with
  | None => Err EKey
  | Some (_, classType, p) => Ok (classType, args, dupdate String.eqb p kwargs)
  end.
(** factory.py:47-51 *)
Definition numRegistered (f : factory) (countAliases : bool) : nat :=
  if countAliases then length (f_classes f) + length (f_aliases f) else length (f_classes f).

(** A history of registrations *)
Record reg := Reg { r_name : name; r_class : nat; r_params : params; r_aliases : list name }.
Definition after (l : list reg) : factory := fold_left (fun f r => register f (r_name r) (r_class r) (r_params r) (r_aliases r)) l new_factory.
