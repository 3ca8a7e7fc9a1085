(** Model of the exchange of vector entries between MPI ranks
    (fem/PyNucleus_fem/algebraicOverlaps.pyx) with overlaps of type 'standard', that is
    [algebraicOverlap], and of its callers in base/PyNucleus_base/ip_norm.pyx.

    The ranks run at the same time. The world has the state of each rank and, for each pair
    of ranks, the messages on the way. MPI may copy a buffer that is being sent at any time
    after Isend, and may fill the buffer of a posted receive at any time after that; messages
    from one rank to another with the same tag do not overtake each other. A request is
    complete when it is no longer listed as pending; it is named by its tag (the tags of an
    overlap are never used twice).

    Simplifications: exact rationals; the vectors of a rank are a list, and what it computes
    between the calls is any function on it; tags are not bounded; MPI copies a message in one
    step; only vecNo=0; MPI reports no errors. Allreduce and scan are given as the exchange of
    contributions, from which each rank computes the result. *)
From Verif Require Import Util Lin.
Local Open Scope nat_scope.

(** algebraicOverlaps.pyx:31-60; [myExchangeIn] and [myExchangeOut] are parts of the arrays of the
    manager that do not meet (meshOverlaps.pyx:855-890 with one manager) and have num_shared_dofs entries *)
Record overlap := Ov { o_other : nat; o_shared : list nat }.
(** overlaps, in the order of the dictionary *)
Definition manager := list overlap.
Definition neighbours (m : manager) : list nat := map o_other m.
Definition find_overlap (m : manager) (q : nat) : res overlap :=
  match find (fun o => o_other o =? q) m with Some o => Ok o | None => Err EKey end.

Definition mem := list (list Qc).

(** [for j in range(num_shared_dofs): exchangeOut[j] = vec[shared_dofs[j]]], lines 87-88 *)
Fixpoint gather (v : list Qc) (shared : list nat) : res (list Qc) :=
  match shared with [] => Ok [] | i :: r => x <- aget v i ;; l <- gather v r ;; Ok (x :: l) end.
(** lines 103-110 *)
Definition accumulateProcess (shared : list nat) (exchangeIn v : list Qc) : res (list Qc) :=
  for_range 0 (length shared) (fun j v => i <- aget shared j ;; x <- aget exchangeIn j ;; y <- aget v i ;; aset v i (y + x)%Qc) v.
(** lines 154-162 *)
Definition uniqueProcess (shared : list nat) (exchangeIn v : list Qc) : res (list Qc) :=
  for_range 0 (length shared) (fun j v => i <- aget shared j ;; x <- aget exchangeIn j ;; aset v i x) v.
(** lines 916-917: [for j in range(vec.shape[0]): return_vec[j] = vec[j]] *)
Definition copy_into (v w : list Qc) : res (list Qc) :=
  for_range 0 (length v) (fun j w => x <- aget v j ;; aset w j x) w.

(** What a rank does next *)
Inductive op :=
| OCompute (f : mem -> mem)
| OWaitall                       (** lines 887-888, 1084-1085 *)
| OSend (q v : nat)              (** lines 80-92, the request goes to self.requestsSend *)
| OSendU (q v : nat)             (** the same, the request goes to the list of [unique], lines 1052-1053 *)
| ORecv (q : nat)                (** lines 94-101 *)
| OCopy (s d : nat)              (** lines 913-917 *)
| ODrain (d : nat)               (** lines 927-934, 1199-1206 *)
| OWait (q v : nat)              (** lines 1062-1065 *)
| OWaitallU                      (** line 1066 *)
| OContribute (h : mem -> list Qc)
| OResult (g : list (list Qc) -> mem -> mem)
| OReturn.

Record rank := Rank {
  r_ops : list op; r_mem : mem;
  r_out : nat -> list Qc; r_in : nat -> list Qc;
  r_tagS : nat -> nat; r_tagR : nat -> nat;
  r_reqS : list (nat * nat); r_reqU : list (nat * nat); r_reqR : list (nat * nat);
  r_coll : nat }.
(** [w_send p q]: the tags of the messages from p to q that are not copied yet; [w_net p q]: the
    copied messages; [w_recv p q]: the tags of the receives from p posted by q that are not
    filled yet; [w_coll c p]: the contribution of p to the collective operation number c *)
Record world := World {
  w_rank : nat -> rank;
  w_send : nat -> nat -> list nat;
  w_net : nat -> nat -> list (nat * list Qc);
  w_recv : nat -> nat -> list nat;
  w_coll : nat -> nat -> option (list Qc) }.

Definition put {X} (f : nat -> X) (k : nat) (v : X) : nat -> X := fun j => if j =? k then v else f j.
Definition put2 {X} (f : nat -> nat -> X) (i k : nat) (v : X) : nat -> nat -> X := fun a b => if (a =? i) && (b =? k) then v else f a b.
Definition pending (t : nat) (l : list nat) : bool := existsb (Nat.eqb t) l.
Definition complete (w : world) (p : nat) (reqs : list (nat * nat)) : bool := forallb (fun r => negb (pending (snd r) (w_send w p (fst r)))) reqs.

(** lines 80-92 *)
Definition send (p q v : nat) (m : manager) (r : rank) : res (rank * nat) :=
  o <- find_overlap m q ;;
  vec <- aget (r_mem r) v ;;
  data <- gather vec (o_shared o) ;;
  let t := S (r_tagS r q) in
  Ok (Rank (r_ops r) (r_mem r) (put (r_out r) q data) (r_in r) (put (r_tagS r) q t) (r_tagR r) (r_reqS r) (r_reqU r) (r_reqR r) (r_coll r), t).
Definition set_rank (w : world) (p : nat) (r : rank) : world := World (put (w_rank w) p r) (w_send w) (w_net w) (w_recv w) (w_coll w).
Definition set_ops (r : rank) (ops : list op) : rank :=
  Rank ops (r_mem r) (r_out r) (r_in r) (r_tagS r) (r_tagR r) (r_reqS r) (r_reqU r) (r_reqR r) (r_coll r).
Definition set_mem (r : rank) (ops : list op) (m : mem) : rank :=
  Rank ops m (r_out r) (r_in r) (r_tagS r) (r_tagR r) (r_reqS r) (r_reqU r) (r_reqR r) (r_coll r).
Definition set_reqs (r : rank) (ops : list op) (S U R : list (nat * nat)) : rank :=
  Rank ops (r_mem r) (r_out r) (r_in r) (r_tagS r) (r_tagR r) S U R (r_coll r).

(** A list without its entry number i *)
Definition pop {X} (i : nat) (l : list X) : list X := firstn i l ++ skipn (S i) l.
(** The contributions of the ranks first, ..., first + n - 1 if all of them are there *)
Fixpoint contributions (f : nat -> option (list Qc)) (first n : nat) : option (list (list Qc)) :=
  match n with
  | O => Some []
  | S n => match f first, contributions f (S first) n with Some x, Some l => Some (x :: l) | _, _ => None end
  end.

(** Processing the message of rank q: lines 927-934 and 1062-1065 *)
Definition process (proc : list nat -> list Qc -> list Qc -> res (list Qc)) (m : manager) (q d : nat) (r : rank) : res mem :=
  o <- find_overlap m q ;;
  v <- aget (r_mem r) d ;;
  v <- proc (o_shared o) (r_in r q) v ;;
  aset (r_mem r) d v.

Section World.
  Variables (P : nat) (mgr : nat -> manager).

  (** The next states of rank p: none if it waits *)
  Definition run_op (p : nat) (o : op) (ops : list op) (r : rank) (w : world) : res (list world) :=
    match o with
    | OCompute f => Ok [set_rank w p (set_mem r ops (f (r_mem r)))]
    | OWaitall => Ok (if complete w p (r_reqS r) then [set_rank w p (set_reqs r ops [] (r_reqU r) (r_reqR r))] else [])
    | OSend q v =>
        ' (r, t) <- send p q v (mgr p) r ;;
        let w := set_rank w p (set_reqs r ops (r_reqS r ++ [(q, t)]) (r_reqU r) (r_reqR r)) in
        Ok [World (w_rank w) (put2 (w_send w) p q (w_send w p q ++ [t])) (w_net w) (w_recv w) (w_coll w)]
    | OSendU q v =>
        ' (r, t) <- send p q v (mgr p) r ;;
        let w := set_rank w p (set_reqs r ops (r_reqS r) (r_reqU r ++ [(q, t)]) (r_reqR r)) in
        Ok [World (w_rank w) (put2 (w_send w) p q (w_send w p q ++ [t])) (w_net w) (w_recv w) (w_coll w)]
    | ORecv q =>
        let t := S (r_tagR r q) in
        let r := Rank ops (r_mem r) (r_out r) (r_in r) (r_tagS r) (put (r_tagR r) q t) (r_reqS r) (r_reqU r) (r_reqR r ++ [(q, t)]) (r_coll r) in
        let w := set_rank w p r in
        Ok [World (w_rank w) (w_send w) (w_net w) (put2 (w_recv w) q p (w_recv w q p ++ [t])) (w_coll w)]
    | OCopy s d =>
        v <- aget (r_mem r) s ;; u <- aget (r_mem r) d ;;
        u <- copy_into v u ;; m <- aset (r_mem r) d u ;;
        Ok [set_rank w p (set_mem r ops m)]
    | ODrain d =>
        match r_reqR r with
        | [] => Ok [set_rank w p (set_ops r ops)]
        | _ =>
            for_range 0 (length (r_reqR r)) (fun i acc =>
              ' (q, t) <- aget (r_reqR r) i ;;
              if pending t (w_recv w q p) then Ok acc
              else
                m <- process accumulateProcess (mgr p) q d r ;;
                Ok (acc ++ [set_rank w p (set_reqs (set_mem r (r_ops r) m) (ODrain d :: ops) (r_reqS r) (r_reqU r) (pop i (r_reqR r)))])) []
        end
    | OWait q v =>
        match find (fun x => fst x =? q) (r_reqR r) with
        | None => Err EKey
        | Some (_, t) =>
            if pending t (w_recv w q p) then Ok []
            else
              m <- process uniqueProcess (mgr p) q v r ;;
              Ok [set_rank w p (set_reqs (set_mem r (r_ops r) m) ops (r_reqS r) (r_reqU r) (filter (fun x => negb (fst x =? q)) (r_reqR r)))]
        end
    | OWaitallU => Ok (if complete w p (r_reqU r) then [set_rank w p (set_reqs r ops (r_reqS r) [] (r_reqR r))] else [])
    | OContribute h =>
        Ok [World (put (w_rank w) p (set_ops r ops)) (w_send w) (w_net w) (w_recv w) (put2 (w_coll w) (r_coll r) p (Some (h (r_mem r))))]
    | OResult g =>
        Ok (match contributions (w_coll w (r_coll r)) 0 P with
            | Some l => [set_rank w p (Rank ops (g l (r_mem r)) (r_out r) (r_in r) (r_tagS r) (r_tagR r) (r_reqS r) (r_reqU r) (r_reqR r) (S (r_coll r)))]
            | None => []
            end)
    | OReturn => Ok [set_rank w p (set_ops r ops)]
    end.
  Definition rank_next (p : nat) (w : world) : res (list world) :=
    match r_ops (w_rank w p) with [] => Ok [] | o :: ops => run_op p o ops (w_rank w p) w end.

  (** MPI copies message number i of those from p to q that are not copied yet. If it does not
      buffer, the matching receive must have been posted. *)
  Definition copy_next (buffered : bool) (p q i : nat) (w : world) : option world :=
    match nth_error (w_send w p q) i with
    | Some t =>
        if buffered || pending t (w_recv w p q) then
          Some (World (w_rank w) (put2 (w_send w) p q (pop i (w_send w p q)))
                      (put2 (w_net w) p q (w_net w p q ++ [(t, r_out (w_rank w p) q)])) (w_recv w) (w_coll w))
        else None
    | None => None
    end.
  (** MPI fills the buffer of a posted receive with the first message that has its tag. A
      message that is too long is an error. *)
  Definition deliver_next (p q i : nat) (w : world) : res (option world) :=
    match nth_error (w_recv w p q) i with
    | None => Ok None
    | Some t =>
        match find (fun x => fst (snd x) =? t) (combine (seq 0 (length (w_net w p q))) (w_net w p q)) with
        | None => Ok None
        | Some (k, (_, data)) =>
            let r := w_rank w q in
            let b := r_in r p in
            _ <- guard (length data <=? length b) EValue ;;
            let b := data ++ skipn (length data) b in
            let r := Rank (r_ops r) (r_mem r) (r_out r) (put (r_in r) p b) (r_tagS r) (r_tagR r) (r_reqS r) (r_reqU r) (r_reqR r) (r_coll r) in
            Ok (Some (World (put (w_rank w) q r) (w_send w) (put2 (w_net w) p q (pop k (w_net w p q))) (put2 (w_recv w) p q (pop i (w_recv w p q))) (w_coll w)))
        end
    end.

  Inductive step (buffered : bool) (w w' : world) : Prop :=
  | StepRank p l : p < P -> rank_next p w = Ok l -> In w' l -> step buffered w w'
  | StepCopy p q i : p < P -> q < P -> copy_next buffered p q i w = Some w' -> step buffered w w'
  | StepDeliver p q i : p < P -> q < P -> deliver_next p q i w = Ok (Some w') -> step buffered w w'.
  (** A rank raises an exception or accesses memory out of bounds, or MPI reports an error *)
  Inductive fails (w : world) : Prop :=
  | FailRank p e : p < P -> rank_next p w = Err e -> fails w
  | FailDeliver p q i e : p < P -> q < P -> deliver_next p q i w = Err e -> fails w.
  Inductive runs (buffered : bool) : nat -> world -> world -> Prop :=
  | runs_O w : runs buffered 0 w w
  | runs_S n w w' w'' : runs buffered n w w' -> step buffered w' w'' -> runs buffered (S n) w w''.
  Definition finished (w : world) : Prop := forall p, p < P -> r_ops (w_rank w p) = [].
End World.

(** * What the functions do. All ranks make the same calls, with any computations in between. *)
Inductive call :=
| Acc (s : nat) (d : option nat)                                   (** accumulate(s, d) *)
| Exch (s : nat) (f : nat -> mem -> mem) (d : nat)                 (** send(s), a computation, receive(d) *)
| Uni (v : nat)                                                    (** unique(v) *)
| Coll (h : nat -> mem -> list Qc) (g : nat -> list (list Qc) -> mem -> mem). (** Allreduce, scan *)
Record round := Round { pre : nat -> mem -> mem; what : call }.

Definition call_ops (m : manager) (p : nat) (c : call) : list op :=
  match c with
  (** lines 869-948 *)
  | Acc s d => OWaitall :: flat_map (fun q => [OSend q s; ORecv q]) (neighbours m)
               ++ match d with None => [] | Some d => [OCopy s d] end
               ++ [ODrain (match d with None => s | Some d => d end); OReturn]
  (** lines 1068-1109 and 1157-1220 *)
  | Exch s f d => OWaitall :: map (fun q => OSend q s) (neighbours m) ++ [OCompute (f p)] ++ map ORecv (neighbours m) ++ [ODrain d; OReturn]
  (** lines 1037-1066 *)
  | Uni v => map (fun q => if q <? p then OSendU q v else ORecv q) (neighbours m)
             ++ flat_map (fun q => if q <? p then [] else [OWait q v]) (neighbours m) ++ [OWaitallU; OReturn]
  | Coll h g => [OContribute (h p); OResult (g p); OReturn]
  end.
Definition program_ops (m : manager) (p : nat) (prog : list round) : list op :=
  flat_map (fun r => OCompute (pre r p) :: call_ops m p (what r)) prog.

(** lines 31-60: tags start at 50; np.zeros in meshOverlaps.pyx:872-873 *)
Definition new_rank (m : manager) (ops : list op) (x : mem) : rank :=
  let z q := match find_overlap m q with Ok o => repeat 0%Qc (length (o_shared o)) | Err _ => [] end in
  Rank ops x z z (fun _ => 50) (fun _ => 50) [] [] [] 0.
Definition start (mgr : nat -> manager) (prog : list round) (x : nat -> mem) : world :=
  World (fun p => new_rank (mgr p) (program_ops (mgr p) p prog) (x p)) (fun _ _ => []) (fun _ _ => []) (fun _ _ => []) (fun _ _ => None).

(** Schedules, to run the model *)
Inductive choice := CRank (p i : nat) | CCopy (p q i : nat) | CDeliver (p q i : nat).
Definition take (P : nat) (mgr : nat -> manager) (c : choice) (w : world) : option world :=
  match c with
  | CRank p i => match rank_next P mgr p w with Ok l => nth_error l i | Err _ => None end
  | CCopy p q i => copy_next true p q i w
  | CDeliver p q i => match deliver_next p q i w with Ok o => o | Err _ => None end
  end.
Fixpoint take_all (P : nat) (mgr : nat -> manager) (l : list choice) (w : world) : option world :=
  match l with [] => Some w | c :: l => match take P mgr c w with Some w => take_all P mgr l w | None => None end end.
