(** Specification of an edge dictionary: a finite map from pairs to values. *)
From Verif Require Import Util TupleDictModel.

Section Spec.
  Variable V : Type.

  Definition amap := nat -> Z -> option V.
  Definition amap_empty : amap := fun _ _ => None.
  Definition put (m : amap) (I : nat) (J : Z) (o : option V) : amap :=
    fun i j => if (i =? I) && (j =? J)%Z then o else m i j.

  (** The three behaviours when a key is entered that is already present. *)
  Inductive mode := Toggle | OrHits | KeepFirst.

  Variable bor : V -> V -> V.
  Variable invalid : V.

  Definition spec_enter (md : mode) (m : amap) (I : nat) (J : Z) (v : V) : amap * V :=
    match m I J with
    | None => (put m I J (Some v), v)
    | Some w =>
        match md with
        | Toggle => (put m I J None, w)
        | OrHits => (put m I J (Some (bor w v)), bor w v)
        | KeepFirst => (m, w)
        end
    end.

  Definition spec_get (m : amap) (I : nat) (J : Z) : V :=
    match m I J with Some w => w | None => invalid end.

  Definition spec_step (md : mode) (m : amap) (o : op V) : amap * V :=
    match o with
    | Enter i j v => spec_enter md m i j v
    | Remove i j => (put m i j None, spec_get m i j)
    | Get i j => (m, spec_get m i j)
    end.

  Fixpoint spec_run (md : mode) (m : amap) (ops : list (op V)) : amap * list V :=
    match ops with
    | [] => (m, [])
    | o :: t =>
        let '(m', v) := spec_step md m o in
        let '(m'', vs) := spec_run md m' t in
        (m'', v :: vs)
    end.

  (** At most [n] keys with first index [I]. *)
  Definition row_card_le (m : amap) (I n : nat) : Prop :=
    forall js : list Z, NoDup js -> (forall j, In j js -> m I j <> None) -> length js <= n.

  (** Exactly [n] keys. *)
  Definition card_eq (m : amap) (n : nat) : Prop :=
    exists ks : list (nat * Z), NoDup ks /\ length ks = n /\
      forall i j, In (i, j) ks <-> m i j <> None.

  Definition op_row (o : op V) : nat :=
    match o with Enter i _ _ => i | Remove i _ => i | Get i _ => i end.

  (** Strictly increasing lexicographic order on keys. *)
  Definition key_lt (a b : nat * Z) : Prop :=
    fst a < fst b \/ (fst a = fst b /\ (snd a < snd b)%Z).
End Spec.

(** Largest allocation a row can reach without wrapping the length field. *)
Definition max_row (W init inc : nat) : nat := init + inc * ((W - 1 - init) / inc).

Definition mode_of (del orh : bool) : mode := if del then Toggle else if orh then OrHits else KeepFirst.

Arguments amap_empty {V}.
Arguments put {V}.
Arguments spec_enter {V}.
Arguments spec_get {V}.
Arguments spec_step {V}.
Arguments spec_run {V}.
Arguments row_card_le {V}.
Arguments card_eq {V}.
Arguments op_row {V}.

(** What it means to use a dictionary within its limits: positive increment,
    row indices in range, and no prefix of the history makes a row exceed the
    representable allocation. *)
Definition within_limits {V} (bor : V -> V -> V) (invalid : V) (W nd i0 inc : nat) (md : mode)
    (ops : list (op V)) : Prop :=
  0 < inc /\ i0 < W /\ (forall o, In o ops -> op_row o < nd) /\
  forall p q, ops = p ++ q -> forall I,
    row_card_le (fst (spec_run bor invalid md amap_empty p)) I (max_row W i0 inc).

(** Sequences of enterValue calls given as triples (I, J, value). *)
Definition enter_of {V} (e : nat * Z * V) : op V := Enter (fst (fst e)) (snd (fst e)) (snd e).

(** The values entered for key (I, J), in order. *)
Definition values_of {V} (I : nat) (J : Z) (es : list (nat * Z * V)) : list V :=
  map snd (filter (fun e => (fst (fst e) =? I) && (snd (fst e) =? J)%Z) es).

(** The number of different second indices entered for first index I. *)
Definition distinct_in_row {V} (I : nat) (es : list (nat * Z * V)) : nat :=
  length (nodup Z.eq_dec (map (fun e => snd (fst e)) (filter (fun e => fst (fst e) =? I) es))).

(** Exactly [n] keys with first index [I]. *)
Definition row_card_eq {V} (m : amap V) (I n : nat) : Prop :=
  exists js : list Z, NoDup js /\ length js = n /\ forall j, In j js <-> m I j <> None.
