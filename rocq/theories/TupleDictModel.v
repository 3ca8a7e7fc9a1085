(** Model of the edge dictionaries tupleDict{VALUE}
    (base/PyNucleus_base/tupleDict_{VALUE}.pxi, instantiated as tupleDictINDEX
    with 8-bit and tupleDictMASK with 16-bit length fields).

    Simplifications: the two C arrays [indexL[I]], [vals[I]] are lists of
    optional cells whose length is the allocated size; first indices [I] are
    natural numbers (an index outside 0..num_dofs-1 is [EOob]); second indices
    [J] are unbounded integers (they are only compared); [self.index], the
    output slot of findIndex, is returned instead of stored; allocation never
    fails. *)
From Verif Require Import Util.

Section TupleDict.
  Variable V : Type.
  Variable bor : V -> V -> V.      (* the value type's operator | *)
  Variable invalid : V.            (* {INVALID} *)
  Variable W : nat.                (* number of values of LENGTH_t: 256 or 65536 *)

  (** tupleDict_decl_{VALUE}.pxi:8-22 *)
  Record tdict := TD {
    num_dofs : nat;
    length_inc : nat;
    deleteHits : bool;
    logicalAndHits : bool;
    nnz : Z;
    counts : list nat;
    lengths : list nat;
    indexL : list (buf Z);
    vals : list (buf V);
    it_i : nat;
    it_jj : nat }.

  Definition wrap (n : nat) : nat := n mod W.

  (** tupleDict_{VALUE}.pxi:9-33 *)
  Definition td_init (nd initial_length linc : nat) (del orh : bool) : tdict :=
    TD nd linc del orh 0%Z (repeat 0 nd) (repeat initial_length nd)
       (repeat (alloc initial_length) nd) (repeat (alloc initial_length) nd) 0 0.

  (** tupleDict_{VALUE}.pxi:50-61, the linear search *)
  Fixpoint find_linear (row : buf Z) (n m cnt : nat) (J : Z) : res (bool * nat) :=
    match n with
    | O => Ok (false, wrap cnt)
    | S n' =>
        K <- rd row m ;;
        if Z.eqb K J then Ok (true, m)
        else if Z.ltb J K then Ok (false, m)
        else find_linear row n' (S m) cnt J
    end.

  (** tupleDict_{VALUE}.pxi:63-78, the bisection; fuel bounds the while loop *)
  Fixpoint find_bisect (fuel : nat) (row : buf Z) (low high : nat) (J : Z) : res (bool * nat) :=
    match fuel with
    | O => Err EFuel
    | S f =>
        K <- rd row low ;;
        if Z.eqb K J then Ok (true, low)
        else if (high - low) <=? 1 then
          if Z.ltb J K then Ok (false, low) else Ok (false, wrap (low + 1))
        else
          let mid := (low + high) / 2 in
          M <- rd row mid ;;
          if Z.leb M J then find_bisect f row mid high J
          else find_bisect f row low mid J
    end.

  (** tupleDict_{VALUE}.pxi:45-78 *)
  Definition findIndex (d : tdict) (I : nat) (J : Z) : res (bool * nat) :=
    c <- aget (counts d) I ;;
    row <- aget (indexL d) I ;;
    if c <? 20 then find_linear row c 0 c J
    else find_bisect (S c) row 0 c J.

  (** tupleDict_{VALUE}.pxi:80-83 *)
  Definition increaseSize (d : tdict) (I : nat) (increment : nat) : res tdict :=
    l <- aget (lengths d) I ;;
    let l' := wrap (l + increment) in
    lens <- aset (lengths d) I l' ;;
    r <- aget (indexL d) I ;;
    v <- aget (vals d) I ;;
    iL <- aset (indexL d) I (realloc r l') ;;
    vs <- aset (vals d) I (realloc v l') ;;
    Ok (TD (num_dofs d) (length_inc d) (deleteHits d) (logicalAndHits d) (nnz d)
           (counts d) lens iL vs (it_i d) (it_jj d)).

  (** The shift loops move both arrays in lockstep. *)
  Definition shift_left (m c : nat) (rv : buf Z * buf V) : res (buf Z * buf V) :=
    for_range (m + 1) c (fun n rv =>
      x <- rd (fst rv) n ;; r <- wr (fst rv) (n - 1) x ;;
      y <- rd (snd rv) n ;; v <- wr (snd rv) (n - 1) y ;;
      Ok (r, v)) rv.

  Definition shift_right (c m : nat) (rv : buf Z * buf V) : res (buf Z * buf V) :=
    for_range_down c m (fun n rv =>
      x <- rd (fst rv) (n - 1) ;; r <- wr (fst rv) n x ;;
      y <- rd (snd rv) (n - 1) ;; v <- wr (snd rv) n y ;;
      Ok (r, v)) rv.

  (** Common code of enterValue (lines 91-98) and removeValue (lines 126-134):
      delete position m of row I *)
  Definition delete_at (d : tdict) (I m : nat) : res (tdict * V) :=
    r <- aget (indexL d) I ;;
    v <- aget (vals d) I ;;
    c <- aget (counts d) I ;;
    val <- rd v m ;;
    '(r', v') <- shift_left m c (r, v) ;;
    iL <- aset (indexL d) I r' ;;
    vs <- aset (vals d) I v' ;;
    cs <- aset (counts d) I (c - 1) ;;
    Ok (TD (num_dofs d) (length_inc d) (deleteHits d) (logicalAndHits d) (nnz d - 1)
           cs (lengths d) iL vs (it_i d) (it_jj d), val).

  (** tupleDict_{VALUE}.pxi:85-119 *)
  Definition enterValue (d : tdict) (I : nat) (J : Z) (val : V) : res (tdict * V) :=
    '(found, m) <- findIndex d I J ;;
    if found then
      if deleteHits d then delete_at d I m
      else
        v <- aget (vals d) I ;;
        old <- rd v m ;;
        if logicalAndHits d then
          v' <- wr v m (bor old val) ;;
          vs <- aset (vals d) I v' ;;
          Ok (TD (num_dofs d) (length_inc d) (deleteHits d) (logicalAndHits d) (nnz d)
                 (counts d) (lengths d) (indexL d) vs (it_i d) (it_jj d), bor old val)
        else Ok (d, old)
    else
      c <- aget (counts d) I ;;
      l <- aget (lengths d) I ;;
      d1 <- (if c =? l then increaseSize d I (length_inc d) else Ok d) ;;
      r <- aget (indexL d1) I ;;
      v <- aget (vals d1) I ;;
      '(r', v') <- shift_right c m (r, v) ;;
      r'' <- wr r' m J ;;
      v'' <- wr v' m val ;;
      iL <- aset (indexL d1) I r'' ;;
      vs <- aset (vals d1) I v'' ;;
      cs <- aset (counts d1) I (wrap (c + 1)) ;;
      Ok (TD (num_dofs d1) (length_inc d1) (deleteHits d1) (logicalAndHits d1) (nnz d1 + 1)
             cs (lengths d1) iL vs (it_i d1) (it_jj d1), val).

  (** tupleDict_{VALUE}.pxi:121-135; an absent key yields [invalid] *)
  Definition removeValue (d : tdict) (I : nat) (J : Z) : res (tdict * V) :=
    '(found, m) <- findIndex d I J ;;
    if found then delete_at d I m else Ok (d, invalid).

  (** tupleDict_{VALUE}.pxi:143-149 *)
  Definition getValue (d : tdict) (I : nat) (J : Z) : res V :=
    '(found, m) <- findIndex d I J ;;
    if found then v <- aget (vals d) I ;; rd v m else Ok invalid.

  (** tupleDict_{VALUE}.pxi:164-168 and 184-186: skip empty rows from i on *)
  Fixpoint skip_empty (fuel : nat) (d : tdict) (i : nat) : res nat :=
    if i <? num_dofs d then
      match fuel with
      | O => Err EFuel
      | S f => c <- aget (counts d) i ;;
               if c =? 0 then skip_empty f d (S i) else Ok i
      end
    else Ok i.

  Definition set_iter (d : tdict) (i jj : nat) : tdict :=
    TD (num_dofs d) (length_inc d) (deleteHits d) (logicalAndHits d) (nnz d)
       (counts d) (lengths d) (indexL d) (vals d) i jj.

  (** tupleDict_{VALUE}.pxi:164-168 *)
  Definition startIter (d : tdict) : res tdict :=
    i <- skip_empty (num_dofs d) d 0 ;;
    Ok (set_iter d i 0).

  (** tupleDict_{VALUE}.pxi:170-188; None means "return False" *)
  Definition next (d : tdict) : res (tdict * option (nat * Z * V)) :=
    let i := it_i d in let jj := it_jj d in
    if i <? num_dofs d then
      r <- aget (indexL d) i ;;
      j <- rd r jj ;;
      v <- aget (vals d) i ;;
      val <- rd v jj ;;
      c <- aget (counts d) i ;;
      if S jj <? c then Ok (set_iter d i (S jj), Some (i, j, val))
      else
        i' <- skip_empty (num_dofs d) d (S i) ;;
        Ok (set_iter d i' 0, Some (i, j, val))
    else Ok (d, None).

  (** The loop [while d.next(e, &val): ...] of merge and toDict, collecting the
      visited entries. *)
  Fixpoint iter_all (fuel : nat) (d : tdict) (acc : list (nat * Z * V)) : res (tdict * list (nat * Z * V)) :=
    match fuel with
    | O => Err EFuel
    | S f =>
        '(d', o) <- next d ;;
        match o with
        | None => Ok (d', acc)
        | Some e => iter_all f d' (acc ++ [e])
        end
    end.

  (** tupleDict_{VALUE}.pxi:190-203 *)
  Definition getData (d : tdict) : res (buf Z * buf V) :=
    '(_, (iL, vs)) <-
      for_range 0 (num_dofs d) (fun i st =>
        c <- aget (counts d) i ;;
        for_range 0 c (fun j st =>
          let '(k, (iL, vs)) := st in
          r <- aget (indexL d) i ;; x <- rd r j ;; iL' <- wr iL k x ;;
          v <- aget (vals d) i ;; y <- rd v j ;; vs' <- wr vs k y ;;
          Ok (S k, (iL', vs'))) st)
        (0, (alloc (Z.to_nat (nnz d)), alloc (Z.to_nat (nnz d)))) ;;
    Ok (iL, vs).

  (** tupleDict_{VALUE}.pxi:205-207: (num_dofs, length_inc, deleteHits,
      logicalAndHits, counts, indexL, vals) *)
  Definition state_t := (nat * nat * bool * bool * list nat * buf Z * buf V)%type.
  Definition getstate (d : tdict) : res state_t :=
    '(iL, vs) <- getData d ;;
    Ok (num_dofs d, length_inc d, deleteHits d, logicalAndHits d, counts d, iL, vs).

  (** tupleDict_{VALUE}.pxi:209-225 *)
  Definition setstate (st : state_t) : res tdict :=
    let '(nd, linc, del, orh, cs0, iL, vs) := st in
    let d0 := td_init nd 0 linc del orh in
    '(k, (cs, (rows, vrows))) <-
      for_range 0 nd (fun i s =>
        let '(k, (cs, (rows, vrows))) := s in
        l <- aget cs0 i ;;
        cs' <- aset cs i l ;;
        '(k', (r, v)) <- for_range 0 l (fun j s =>
             let '(k, (r, v)) := s in
             x <- rd iL k ;; r' <- wr r j x ;;
             y <- rd vs k ;; v' <- wr v j y ;;
             Ok (S k, (r', v'))) (k, (alloc l, alloc l)) ;;
        rows' <- aset rows i r ;;
        vrows' <- aset vrows i v ;;
        Ok (k', (cs', (rows', vrows'))))
        (0, (counts d0, (indexL d0, vals d0))) ;;
    Ok (TD nd linc del orh (Z.of_nat k) cs cs0 rows vrows 0 0).

  (** tupleDict_{VALUE}.pxi:227-235 *)
  Fixpoint merge_loop (fuel : nat) (d other : tdict) : res tdict :=
    match fuel with
    | O => Err EFuel
    | S f =>
        '(other', o) <- next other ;;
        match o with
        | None => Ok d
        | Some (i, j, val) => '(d', _) <- enterValue d i j val ;; merge_loop f d' other'
        end
    end.
  Definition merge (d other : tdict) : res tdict :=
    _ <- guard (num_dofs d =? num_dofs other) EAssert ;;
    other0 <- startIter other ;;
    merge_loop (S (Z.to_nat (nnz other))) d other0.

  (** tupleDict_{VALUE}.pxi:237-248 *)
  Definition mergeData (d : tdict) (cs : list nat) (iL : buf Z) (vs : buf V) : res tdict :=
    _ <- guard (num_dofs d =? length cs) EAssert ;;
    '(_, d') <-
      for_range 0 (num_dofs d) (fun i st =>
        c <- aget cs i ;;
        for_range 0 c (fun _ st =>
          let '(k, d) := st in
          J <- rd iL k ;;
          val <- rd vs k ;;
          '(d', _) <- enterValue d i J val ;;
          Ok (S k, d')) st) (0, d) ;;
    Ok d'.

  (** tupleDict_{VALUE}.pxi:260-268: the association list in visiting order *)
  Definition toDict (d : tdict) : res (list (nat * Z * V)) :=
    d0 <- startIter d ;;
    '(_, l) <- iter_all (S (Z.to_nat (nnz d))) d0 [] ;;
    Ok l.

  (** Histories. *)
  Inductive op := Enter (I : nat) (J : Z) (v : V) | Remove (I : nat) (J : Z) | Get (I : nat) (J : Z).

  Definition step (d : tdict) (o : op) : res (tdict * V) :=
    match o with
    | Enter i j v => enterValue d i j v
    | Remove i j => removeValue d i j
    | Get i j => v <- getValue d i j ;; Ok (d, v)
    end.

  Fixpoint run (d : tdict) (ops : list op) : res (tdict * list V) :=
    match ops with
    | [] => Ok (d, [])
    | o :: t =>
        '(d', v) <- step d o ;;
        '(d'', vs) <- run d' t ;;
        Ok (d'', v :: vs)
    end.
End TupleDict.

Arguments TD {V}.
Arguments num_dofs {V}.
Arguments length_inc {V}.
Arguments deleteHits {V}.
Arguments logicalAndHits {V}.
Arguments nnz {V}.
Arguments counts {V}.
Arguments lengths {V}.
Arguments indexL {V}.
Arguments vals {V}.
Arguments it_i {V}.
Arguments it_jj {V}.
Arguments Enter {V}.
Arguments Remove {V}.
Arguments Get {V}.
