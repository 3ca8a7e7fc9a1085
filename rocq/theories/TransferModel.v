(** Model of the interpolation of kernels in clusters,
    nl/PyNucleus_nl/clusterMethodCy.pyx: the iterator over multi-indices, transfer
    matrices, the values of leaves and the kernel at pairs of points.

    Simplifications, used throughout this file.
    - Floating point numbers are exact rationals.  The values of the cosine are
      any numbers: [cheb m] is the array eta of order m.
    - The quadrature rule of an order is given by its number of nodes, its
      weights and the values of the shape functions at its nodes; for each
      cell its volume and the nodes in global coordinates are given (both
      computed as in QuadModel.v, property C19).
    - Arrays that have been filled are read as a whole, which fails if an entry
      has not been written.
    - Only kernels with one value, bemMode = False, local = False. *)
From Verif Require Import Util Lin CSRModel DenseModel H2Model.
Local Open Scope nat_scope.

Definition absq (a : Qc) : Qc := if Qle_bool 0 a then a else (- a)%Qc.
Definition half : Qc := Q2Qc (1 # 2).
Definition tol8 : Qc := Q2Qc (1 # 100000000).
Definition tol9 : Qc := Q2Qc (1 # 1000000000).
(** abs(a-b) > tol *)
Definition apart_by (tol a b : Qc) : bool := negb (Qle_bool (absq (a - b)) tol).

(** ** The iterator over multi-indices *)
(** clusterMethodCy.pyx 2127-2136 reset *)
Definition pit_reset (m : nat) (idx : list Z) : res (list Z) :=
  let dim := length idx in
  if m =? 0 then for_range 0 dim (fun i idx => aset idx i (-1)%Z) idx
  else idx1 <- for_range 0 (dim - 1) (fun i idx => aset idx i 0%Z) idx ;; aset idx1 (dim - 1) (-1)%Z.
(** clusterMethodCy.pyx 2143-2149: the loop of step *)
Fixpoint pit_carry (m i : nat) (idx : list Z) : res (bool * list Z) :=
  v <- aget idx i ;;
  if (v =? Z.of_nat m)%Z then
    idx1 <- aset idx i 0%Z ;;
    match i with
    | S i' => w <- aget idx1 i' ;; idx2 <- aset idx1 i' (w + 1)%Z ;; pit_carry m i' idx2
    | O => Ok (false, idx1)
    end
  else Ok (true, idx).
(** clusterMethodCy.pyx 2138-2150 step *)
Definition pit_step (m : nat) (idx : list Z) : res (bool * list Z) :=
  let i := length idx - 1 in
  v <- aget idx i ;; idx1 <- aset idx i (v + 1)%Z ;; pit_carry m i idx1.
(** [r = 0; while pit.step(): body; r += 1] *)
Section PitLoop.
  Context {St : Type} (m : nat) (body : list nat -> nat -> St -> res St).
  Fixpoint pit_while (fuel : nat) (idx : list Z) (r : nat) (s : St) : res (list Z * St) :=
    match fuel with
    | O => Err EFuel
    | S fuel' =>
      '(more, idx') <- pit_step m idx ;;
      if more then s' <- body (map Z.to_nat idx') r s ;; pit_while fuel' idx' (S r) s' else Ok (idx', s)
    end.
  (** reset, then the loop; the iterator is left for its next use *)
  Definition pit_loop (idx : list Z) (s : St) : res (list Z * St) :=
    idx0 <- pit_reset m idx ;; pit_while (S (m ^ length idx)) idx0 0 s.
End PitLoop.

(** ** Clusters with their geometry *)
Record ginfo := GI { gid : nat; gbox : list (Qc * Qc); order : nat; gdofs : list nat; gcells : list nat }.
Inductive gnode := GNode (x : ginfo) (cs : list gnode).
Definition ginf (t : gnode) : ginfo := let 'GNode x _ := t in x.

(** The mesh, the DoFMap and the quadrature rules (see above). *)
Record geo := Geo {
  dim : nat;
  cheb : nat -> list Qc;
  dofs_per_element : nat;
  cell2dof : nat -> nat -> Z;
  num_nodes : nat -> nat;
  weights : nat -> list Qc;
  PHI : nat -> dense;
  vol : nat -> Qc;
  qnodes : nat -> nat -> dense }.

(** clusterMethodCy.pyx 2023-2027 and 2029-2033 *)
Definition points (G : geo) (b : list (Qc * Qc)) (m : nat) (xi : buf Qc) : res (buf Qc) :=
  for_range 0 m (fun i xi => for_range 0 (dim G) (fun j xi =>
    bj <- aget b j ;; e <- aget (cheb G m) i ;;
    wr xi (i * dim G + j) ((snd bj - fst bj) * half * (e + 1) + fst bj)%Qc) xi) xi.
Definition as_dense (n m : nat) (b : buf Qc) : res dense := l <- all_init b ;; Ok (Dense n m l).

(** [y[p] *= v] *)
Definition multo (y : buf Qc) (p : nat) (v : Qc) : res (buf Qc) := o <- rd y p ;; wr y p (o * v)%Qc.

(** clusterMethodCy.pyx 2009-2072 build *)
Definition build_omega (G : geo) (mC mP : nat) (xiC xiP : dense) : res (buf Qc) :=
  for_range 0 mC (fun j om => for_range 0 mP (fun k om => for_range 0 (dim G) (fun l om =>
    a <- dget xiC j l ;; b <- dget xiP k l ;; p <- ix mC (dim G) j l ;; multo om p (a - b)%Qc) om) om)
    (repeat (Some 1%Qc) (mC * dim G)).
Definition build_beta (G : geo) (mP : nat) (xiP : dense) : res (buf Qc) :=
  for_range 0 mP (fun j be => for_range 0 mP (fun k be =>
    if k =? j then Ok be else for_range 0 (dim G) (fun l be =>
      a <- dget xiP j l ;; b <- dget xiP k l ;; p <- ix mP (dim G) j l ;; multo be p (a - b)%Qc) be) be)
    (repeat (Some 1%Qc) (mP * dim G)).
Definition build_entry (G : geo) (xiC xiP omega beta : dense) (idx idx2 : list nat) (p : nat) (T : buf Qc) : res (buf Qc) :=
  for_range 0 (dim G) (fun l T =>
    i <- aget idx l ;; j <- aget idx2 l ;;
    a <- dget xiP i l ;; b <- dget xiC j l ;;
    if apart_by tol8 a b then
      om <- dget omega j l ;; be <- dget beta i l ;; multo T p (om / (b - a) / be)%Qc
    else Ok T) T.
Definition build (G : geo) (parent child : ginfo) (pits : list Z * list Z) : res (dense * (list Z * list Z)) :=
  let mC := order child in let mP := order parent in
  xiC <- (b <- points G (gbox child) mC (alloc (mC * dim G)) ;; as_dense mC (dim G) b) ;;
  xiP <- (b <- points G (gbox parent) mP (alloc (mP * dim G)) ;; as_dense mP (dim G) b) ;;
  omega <- (b <- build_omega G mC mP xiC xiP ;; as_dense mC (dim G) b) ;;
  beta <- (b <- build_beta G mP xiP ;; as_dense mP (dim G) b) ;;
  let n := mP ^ dim G in let m := mC ^ dim G in
  '(pit, (pit2, T)) <- pit_loop mP (fun idx I '(pit2, T) =>
    pit_loop mC (fun idx2 J T => p <- ix n m I J ;; build_entry G xiC xiP omega beta idx idx2 p T) pit2 T)
    (fst pits) (snd pits, repeat (Some 1%Qc) (n * m)) ;;
  T' <- as_dense n m T ;;
  Ok (T', (pit, pit2)).

(** ** Values of leaves *)
(** What enterLeafValues keeps from one leaf to the next: oldOrder, the order the
    quadrature rule was made for, the arrays xi, beta, omega, the iterator *)
Record lstate := LS { oldOrder : nat; s_xi : buf Qc; s_beta : buf Qc; s_omega : buf Qc; s_pit : list Z }.

(** arrayIndexSet.position: the position of a degree of freedom, or -1 *)
Fixpoint position (l : list nat) (d : Z) : option nat :=
  match l with [] => None | a :: r => if (Z.of_nat a =? d)%Z then Some 0 else option_map S (position r d) end.

(** clusterMethodCy.pyx 1266-1273 *)
Definition leaf_beta (G : geo) (m : nat) (xi : dense) (be : buf Qc) : res (buf Qc) :=
  for_range 0 m (fun l be => for_range 0 (dim G) (fun q be =>
    temp <- for_range 0 m (fun k temp => if k =? l then Ok temp else a <- dget xi l q ;; b <- dget xi k q ;; Ok (temp * (a - b))%Qc) 1%Qc ;;
    wr be (l * dim G + q) temp) be) be.
(** clusterMethodCy.pyx 1299-1308 *)
Definition leaf_omega (G : geo) (m : nat) (xi beta x : dense) (j : nat) (om : buf Qc) : res (buf Qc) :=
  for_range 0 m (fun l om => for_range 0 (dim G) (fun q om =>
    xj <- dget x j q ;; xl <- dget xi l q ;;
    v <- (if apart_by tol9 xj xl then
            for_range 0 m (fun k temp => if k =? l then Ok temp else b <- dget xi k q ;; Ok (temp * (xj - b))%Qc) 1%Qc
          else dget beta l q) ;;
    wr om (l * dim G + q) v) om) om.
(** clusterMethodCy.pyx 1297-1325: one node of the quadrature rule *)
Definition leaf_node (G : geo) (m old nd lcl cell k : nat) (xi beta x : dense) (j : nat) (st : list Z * buf Qc * buf Qc) : res (list Z * buf Qc * buf Qc) :=
  let '(pit, om, val) := st in
  om' <- leaf_omega G m xi beta x j om ;;
  omega <- as_dense m (dim G) om' ;;
  w <- aget (weights G old) j ;; ph <- dget (PHI G old) k j ;;
  '(pit', val') <- pit_loop m (fun idx r val =>
    '(betaSC, omegaSC) <- for_range 0 (dim G) (fun q '(bSC, oSC) =>
      i <- aget idx q ;; o <- dget omega i q ;; b <- dget beta i q ;; Ok (bSC * b, oSC * o)%Qc) (1, 1)%Qc ;;
    p <- ix nd (m ^ dim G) lcl r ;;
    addto val p (vol G cell * (omegaSC / betaSC) * ph * w)%Qc) pit val ;;
  Ok (pit', om', val').
(** clusterMethodCy.pyx 1223-1325: one leaf *)
Definition leaf_value (G : geo) (n : ginfo) (s : lstate) : res (dense * lstate) :=
  let m := order n in let nd := length (gdofs n) in
  let s0 := if m =? oldOrder s then s else LS m (alloc (m * dim G)) (alloc (m * dim G)) (alloc (m * dim G)) (s_pit s) in
  xb <- points G (gbox n) m (s_xi s0) ;; xi <- as_dense m (dim G) xb ;;
  bb <- leaf_beta G m xi (s_beta s0) ;; beta <- as_dense m (dim G) bb ;;
  '(pit, om, val) <- for_list (gcells n) (fun cell st =>
    for_range 0 (dofs_per_element G) (fun k st =>
      let dof := cell2dof G cell k in
      if (dof <? 0)%Z then Ok st else
      match position (gdofs n) dof with
      | None => Ok st
      | Some lcl => for_range 0 (num_nodes G (oldOrder s0)) (fun j st =>
          leaf_node G m (oldOrder s0) nd lcl cell k xi beta (qnodes G (oldOrder s0) cell) j st) st
      end) st) (s_pit s0, s_omega s0, repeat (Some 0%Qc) (nd * m ^ dim G)) ;;
  V <- as_dense nd (m ^ dim G) val ;;
  Ok (V, LS (oldOrder s0) xb bb om pit).

(** clusterMethodCy.pyx 1205-1325 enterLeafValues, 1071-1088
    prepareTransferOperators: the tree with transfer matrices and values, made
    in one traversal.  The two functions of the code do not depend on each other. *)
Fixpoint prepare (G : geo) (parent : option ginfo) (t : gnode) (st : (list Z * list Z) * lstate) : res (hnode * ((list Z * list Z) * lstate)) :=
  let 'GNode n cs := t in
  '(V, st1) <- (match cs with [] => '(V, ls) <- leaf_value G n (snd st) ;; Ok ([V], (fst st, ls)) | _ => Ok ([], st) end) ;;
  '(hs, st2) <- for_each (fun c '(hs, st) => '(h, st') <- prepare G (Some n) c st ;; Ok (hs ++ [h], st')) cs ([], st1) ;;
  '(T, pits) <- (match parent with None => Ok (None, fst st2) | Some p => '(T, pits) <- build G p n (fst st2) ;; Ok (Some T, pits) end) ;;
  Ok (HNode (NI (gid n) (order n ^ dim G) T (match cs with [] => gdofs n | _ => [] end) V) hs, (pits, snd st2)).

(** clusterMethodCy.pyx 2172-2197: the points of a box *)
Definition grid_points (G : geo) (n : ginfo) (pit : list Z) : res (dense * list Z) :=
  let m := order n in
  '(pit', x) <- pit_loop m (fun idx k x =>
    for_range 0 (dim G) (fun j x =>
      p <- aget idx j ;; e <- aget (cheb G m) p ;; b <- aget (gbox n) j ;;
      q <- ix (m ^ dim G) (dim G) k j ;;
      wr x q ((snd b - fst b) * half * (e + 1) + fst b)%Qc) x) pit (alloc (m ^ dim G * dim G)) ;;
  X <- as_dense (m ^ dim G) (dim G) x ;;
  Ok (X, pit').
(** Row [i] of an array. *)
Definition drow (A : dense) (i : nat) : list Qc := firstn (d_m A) (skipn (i * d_m A) (d_data A)).
(** clusterMethodCy.pyx 2153-2238 assembleFarFieldInteractions: one pair *)
Definition kernel_interpolant (G : geo) (kernel : list Qc -> list Qc -> Qc) (n1 n2 : ginfo) (pit : list Z) : res (dense * list Z) :=
  '(x, pit1) <- grid_points G n1 pit ;;
  '(y, pit2) <- grid_points G n2 pit1 ;;
  let k1 := order n1 ^ dim G in let k2 := order n2 ^ dim G in
  K <- for_range 0 k1 (fun i K => for_range 0 k2 (fun j K =>
    p <- ix k1 k2 i j ;;
    K1 <- wr K p (kernel (drow x i) (drow y j)) ;;
    multo K1 p (- (1 + 1))%Qc) K) (alloc (k1 * k2)) ;;
  K' <- as_dense k1 k2 K ;;
  Ok (K', pit2).
