(** What a name stands for after a history of registrations, in terms of the history. *)
From Coq Require Import String Ascii.
From Verif Require Import Util FactoryModel.

(** Equality of names up to case. *)
Fixpoint same_string (s t : string) : bool :=
  match s, t with
  | EmptyString, EmptyString => true
  | String c s, String d t => Ascii.eqb (lower_char c) (lower_char d) && same_string s t
  | _, _ => false
  end.
Definition same (a b : name) : bool :=
  match a, b with Str s, Str t => same_string s t | Key k, Key l => k =? l | _, _ => false end.
(** The last registration with a property. *)
Definition latest (p : reg -> bool) (l : list reg) : option reg := find p (rev l).
Definition by_name (n : name) (r : reg) : bool := same (r_name r) n.
Definition by_alias (n : name) (r : reg) : bool := existsb (fun a => same a n) (r_aliases r).
(** An alias stands for the name it was given for last, and every name for its last registration. *)
Definition resolve (l : list reg) (n : name) : option reg :=
  match latest (by_alias n) l with
  | Some r => latest (by_name (r_name r)) l
  | None => latest (by_name n) l
  end.
(** keyword arguments win over registered parameters *)
Fixpoint value (p : params) (key : string) : option nat :=
  match p with [] => None | (k, v) :: r => if String.eqb k key then Some v else value r key end.
(** The number of names of a list that differ by more than case. *)
Fixpoint distinct (l : list name) : nat :=
  match l with [] => 0 | n :: r => (if existsb (fun m => same m n) r then 0 else 1) + distinct r end.
