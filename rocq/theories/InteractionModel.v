(** Interaction domains of nonlocal kernels: relative position of two simplices,
    and the sub-simplices over which the integrals are taken when the boundary of
    the interaction domain cuts a simplex.
    Models /repo/nl/PyNucleus_nl/interactionDomains.pyx (cited below as iD).

    Points are lists of real numbers, simplices lists of points.  The square root
    of a negative number is NaN in the code, and every comparison with it is
    false; here that is a test on the sign.  The parameters fKDIM and fHORIZON2
    of the kernel are the arguments [dim] and [h2]. *)
From Coq Require Import R_sqrt.
From Verif Require Import LinR.
Open Scope R_scope.
Set Default Proof Using "Type".

Definition point := list R.
Definition simplex := list point.
Definition rle (a b : R) : bool := if Rle_dec a b then true else false.
Definition rlt (a b : R) : bool := if Rlt_dec a b then true else false.
(** Matrices A[i, j]; [mset] is A[i, j] = v, [mzero] is A[:, :] = 0. *)
Definition mat := nat -> nat -> R.
Definition mzero : mat := fun _ _ => 0.
Definition mset (i j : nat) (v : R) (A : mat) : mat := fun p q => if (p =? i)%nat && (q =? j)%nat then v else A p q.
(** simplex[v, k] *)
Definition coord (T : simplex) (v k : nat) : res R := p <- aget T v ;; aget p k.
(** REAL_t intersections[2], uninitialised at first *)
Definition ibuf := list (option R).

(** iD:900-909 (and the same loop at 887-890, 1015-1024) *)
Definition dist2 (n : nat) (x y : point) : res R :=
  for_range 0 n (fun j d => a <- aget x j ;; b <- aget y j ;; Ok (d + (a - b) * (a - b))) 0.
Definition ball2_isInside (h2 : R) (x y : point) : res bool := d <- dist2 (length x) x y ;; Ok (rle d h2).

(** if (c >= 0) and (c <= 1): intersections[numIntersections] = c; numIntersections += 1   (iD:930-937) *)
Definition record (c : R) (nb : nat * ibuf) : res (nat * ibuf) :=
  let '(n, b) := nb in
  if rle 0 c && rle c 1 then b' <- wr b n c ;; Ok (S n, b') else Ok (n, b).
(** ball2_retriangulation.findIntersections, iD:911-938 *)
Definition ball2_findIntersections (dim : nat) (h2 : R) (x : point) (T : simplex) (s e : nat) (b : ibuf) : res (nat * ibuf) :=
  '(nn, p, q) <- for_range 0 dim (fun k '(nn, p, q) =>
     te <- coord T e k ;; ts <- coord T s k ;; xk <- aget x k ;;
     let A := te - ts in let B := ts - xk in
     Ok (nn + A * A, p + A * B, q + B * B)) (0, 0, 0) ;;
  let nn := 1 / nn in
  let p := p * (2 * nn) in
  let q := (q - h2) * nn in
  let A := - p * (1 / 2) in
  let D := A * A - q in
  if rlt D 0 then Ok (O, b) else
  let B := sqrt D in
  nb <- record (A - B) (O, b) ;;
  record (A + B) nb.

(** The arrays A_Node, vol_Node hold at most three sub-simplices (iD:31-37);
    the loop variables iter_Node, iterEnd_Node run through them. *)
Definition slots := list (mat * R).
Definition push (A : mat) (vol : R) (s : slots) : res slots :=
  if (length s <? 3)%nat then Ok (s ++ [(A, vol)]) else Err EOob.

(** meshCy.pyx:2417-2427 *)
Definition bary2D (T : simplex) (x : point) : res (list R) :=
  x0 <- coord T 0 0 ;; y0 <- coord T 0 1 ;; x1 <- coord T 1 0 ;; y1 <- coord T 1 1 ;; x2 <- coord T 2 0 ;; y2 <- coord T 2 1 ;;
  px <- aget x 0 ;; py <- aget x 1 ;;
  let vol := (x0 - x1) * (y2 - y1) - (y0 - y1) * (x2 - x1) in
  let b0 := ((px - x1) * (y2 - y1) - (py - y1) * (x2 - x1)) / vol in
  let b1 := ((px - x2) * (y0 - y2) - (py - y2) * (x0 - x2)) / vol in
  Ok [b0; b1; 1 - b0 - b1].

(** while not ind[inside]: inside += 1 *)
Fixpoint first_true (l : list bool) : nat := match l with [] => O | true :: _ => O | false :: t => S (first_true t) end.
Definition count_true (l : list bool) : nat := length (filter (fun b => b) l).

(** A domain: the methods isInside, findIntersections, and the rows of
    specialOffsets after computeSpecialPoints. *)
Record domain := Domain { isInside : point -> point -> res bool;
                          findIntersections : point -> simplex -> nat -> nat -> ibuf -> res (nat * ibuf);
                          specialOffsets : list point }.
Definition ball2 (dim : nat) (h2 : R) : domain := Domain (ball2_isInside h2) (ball2_findIntersections dim h2) [].

Definition identity : mat := mset 2 2 1 (mset 1 1 1 (mset 0 0 1 mzero)).

Section Retriangulation.
  Variable D : domain.

  (** [inside_at T x]: ind[j] = self.isInside(node1, simplex2[j, :])   (iD:594-597) *)
  Definition inside_at (n : nat) (x : point) (T : simplex) : res (list bool) :=
    for_range 0 n (fun j l => v <- aget T j ;; b <- isInside D x v ;; Ok (l ++ [b])) [].

  (** retriangulationDomain.startLoopSubSimplices_Node in 1D, iD:599-632 *)
  Definition node_1D (x : point) (T : simplex) : res slots :=
    ind <- inside_at 2 x T ;;
    match count_true ind with
    | O => '(n, b) <- findIntersections D x T 0 1 (alloc 2) ;;
           if (n =? 2)%nat then
             c <- rd b 0 ;; d <- rd b 1 ;;
             push (mset 0 1 (1 - d) (mset 1 1 d (mset 1 0 c (mset 0 0 (1 - c) mzero)))) (d - c) []
           else Ok []
    | S O => let i := first_true ind in let o := ((i + 1) mod 2)%nat in
           '(_, b) <- findIntersections D x T i o (alloc 2) ;;
           c <- rd b 0 ;;
           push (mset i o (1 - c) (mset o o c (mset i i 1 mzero))) c []
    | _ => push (mset 1 1 1 (mset 0 0 1 mzero)) 1 []
    end.

  (** haveSpecialPoint and the coordinates bary of that point, iD:636-645 *)
  Fixpoint special (x : point) (T : simplex) (offs : list point) : res (option (list R)) :=
    match offs with
    | [] => Ok None
    | o :: offs => x0 <- aget x 0 ;; x1 <- aget x 1 ;; o0 <- aget o 0 ;; o1 <- aget o 1 ;;
        b <- bary2D T [x0 + o0; x1 + o1] ;;
        if forallb (rle 0) b then Ok (Some b) else special x T offs
    end.

  (** numInside == 0 in 2D, iD:647-666 *)
  Fixpoint special_edges (x : point) (T : simplex) (bary : list R) (js : list nat) (buf : ibuf) : res slots :=
    match js with
    | [] => Ok []
    | j :: js =>
        let v0 := j in let v1 := ((j + 1) mod 3)%nat in let v2 := ((j + 2) mod 3)%nat in
        '(n, buf) <- findIntersections D x T v0 v1 buf ;;
        if (0 <? n)%nat then
          c <- rd buf 0 ;; d <- rd buf 1 ;; b0 <- aget bary v0 ;; b1 <- aget bary v1 ;; b2 <- aget bary v2 ;;
          push (mset v2 v2 b2 (mset v1 v2 b1 (mset v0 v2 b0 (mset v1 v1 d (mset v0 v1 (1 - d) (mset v1 v0 c (mset v0 v0 (1 - c) mzero)))))))
               (b2 * (d - c)) []
        else special_edges x T bary js buf
    end.

  (** numInside == 1 in 2D, iD:668-748 *)
  Definition one_inside (x : point) (T : simplex) (sp : option (list R)) (i : nat) : res slots :=
    let o1 := ((i + 1) mod 3)%nat in let o2 := ((i + 2) mod 3)%nat in
    '(_, b) <- findIntersections D x T i o1 (alloc 2) ;; c1 <- rd b 0 ;;
    '(_, b) <- findIntersections D x T i o2 b ;; c2 <- rd b 0 ;;
    '(n, b) <- findIntersections D x T o1 o2 b ;;
    if (n =? 0)%nat then
      s <- push (mset i o2 (1 - c2) (mset o2 o2 c2 (mset o1 o1 c1 (mset i o1 (1 - c1) (mset i i 1 mzero))))) (c1 * c2) [] ;;
      match sp with
      | None => Ok s
      | Some bary => bi <- aget bary i ;; b1 <- aget bary o1 ;; b2 <- aget bary o2 ;;
          push (mset o2 o2 c2 (mset o1 o1 c1 (mset i o2 (1 - c2) (mset i o1 (1 - c1) (mset o2 i b2 (mset o1 i b1 (mset i i bi mzero)))))))
               (b1 * c2 + b2 * c1 - c1 * c2) s
      end
    else if (n =? 2)%nat then
      c <- rd b 0 ;; d <- rd b 1 ;;
      s <- push (mset o1 o2 (1 - c) (mset o2 o2 c (mset i o1 (1 - c1) (mset o1 o1 c1 (mset i i 1 mzero))))) (c1 * c) [] ;;
      s <- push (mset o2 o2 d (mset o1 o2 (1 - d) (mset o2 o1 c (mset o1 o1 (1 - c) (mset i i 1 mzero))))) (d - c) s ;;
      push (mset i o2 (1 - c2) (mset o2 o2 c2 (mset o2 o1 d (mset o1 o1 (1 - d) (mset i i 1 mzero))))) (c2 * (1 - d)) s
    else
      c <- rd b 0 ;;
      s <- push (mset o1 o2 (1 - c) (mset o2 o2 c (mset i o1 (1 - c1) (mset o1 o1 c1 (mset i i 1 mzero))))) (c1 * c) [] ;;
      push (mset i o2 (1 - c2) (mset o2 o2 c2 (mset o2 o1 c (mset o1 o1 (1 - c) (mset i i 1 mzero))))) (c2 * (1 - c)) s.

  (** Determinant, np.linalg.det *)
  Definition det3 (A : mat) : R :=
    A 0%nat 0%nat * (A 1%nat 1%nat * A 2%nat 2%nat - A 1%nat 2%nat * A 2%nat 1%nat)
    - A 0%nat 1%nat * (A 1%nat 0%nat * A 2%nat 2%nat - A 1%nat 2%nat * A 2%nat 0%nat)
    + A 0%nat 2%nat * (A 1%nat 0%nat * A 2%nat 1%nat - A 1%nat 1%nat * A 2%nat 0%nat).

  (** numInside == 2 in 2D, iD:750-815 *)
  Definition two_inside (x : point) (T : simplex) (sp : option (list R)) (o : nat) : res slots :=
    let i1 := ((o + 1) mod 3)%nat in let i2 := ((o + 2) mod 3)%nat in
    '(_, b) <- findIntersections D x T o i1 (alloc 2) ;; c1 <- rd b 0 ;;
    '(_, b) <- findIntersections D x T o i2 b ;; c2 <- rd b 0 ;;
    '(d1, d2) <- for_range 0 2 (fun k '(d1, d2) =>
       t1 <- coord T i1 k ;; t2 <- coord T i2 k ;; t0 <- coord T o k ;;
       let a := t2 - (c1 * t1 + (1 - c1) * t0) in let b := t1 - (c2 * t2 + (1 - c2) * t0) in
       Ok (d1 + a * a, d2 + b * b)) (0, 0) ;;
    s <- (if rlt d1 d2 then
            s <- push (mset o i1 (1 - c1) (mset i1 i1 c1 (mset i2 o c2 (mset o o (1 - c2) (mset i2 i2 1 mzero))))) (c1 * (1 - c2)) [] ;;
            push (mset i1 o c1 (mset o o (1 - c1) (mset i2 i2 1 (mset i1 i1 1 mzero)))) (1 - c1) s
          else
            s <- push (mset i1 o c1 (mset o o (1 - c1) (mset o i2 (1 - c2) (mset i2 i2 c2 (mset i1 i1 1 mzero))))) (c2 * (1 - c1)) [] ;;
            push (mset i2 o c2 (mset o o (1 - c2) (mset i2 i2 1 (mset i1 i1 1 mzero)))) (1 - c2) s) ;;
    match sp with
    | None => Ok s
    | Some bary => b0 <- aget bary o ;; b1 <- aget bary i1 ;; b2 <- aget bary i2 ;;
        let A := mset o i2 (1 - c2) (mset i2 i2 c2 (mset i2 o b2 (mset i1 o b1 (mset o o b0 (mset i1 i1 c1 (mset o i1 (1 - c1) mzero)))))) in
        push A (det3 A) s
    end.

  (** retriangulationDomain.startLoopSubSimplices_Node in 2D, iD:594-597 and 634-823 *)
  Definition node_2D (x : point) (T : simplex) : res slots :=
    ind <- inside_at 3 x T ;;
    sp <- (if (count_true ind <? 3)%nat then special x T (specialOffsets D) else Ok None) ;;
    match count_true ind with
    | O => match sp with None => Ok [] | Some bary => special_edges x T bary [0; 1; 2]%nat (alloc 2) end
    | S O => one_inside x T sp (first_true ind)
    | S (S O) => two_inside x T sp (first_true (map negb ind))
    | _ => push identity 1 []
    end.

  Definition startLoop_Node (dim : nat) (x : point) (T : simplex) : res slots :=
    match dim with 1%nat => node_1D x T | 2%nat => node_2D x T | _ => Err ENotImpl end.

  (** outer loop, 2D, numInside == 1: c1 = max(c1, intersections[0]) etc., iD:463-491 *)
  Definition outer_one (T1 T2 : simplex) (ind : list (list bool)) (i : nat) : res (list (mat * (nat -> R) * R)) :=
    let o1 := ((i + 1) mod 3)%nat in let o2 := ((i + 2) mod 3)%nat in
    '(c1, c2, _) <- for_range 0 3 (fun j '(c1, c2, b) =>
       row <- aget ind i ;; h <- aget row j ;;
       if (h : bool) then
         w <- aget T2 j ;;
         '(_, b) <- findIntersections D w T1 i o1 b ;; v1 <- rd b 0 ;;
         '(_, b) <- findIntersections D w T1 i o2 b ;; v2 <- rd b 0 ;;
         Ok (Rmax c1 v1, Rmax c2 v2, b)
       else Ok (c1, c2, b)) (0, 0, alloc 2) ;;
    if rlt 0 (c1 * c2) then
      Ok [(mset o2 o2 c2 (mset o1 o1 c1 (mset i o2 c1 (mset i o1 c2 (mset i i (c1 + c2) mzero)))),
           (fun p => if (p =? i)%nat then 1 - c1 - c2 else 0), c1 * c2)]
    else Ok [].
  (** outer loop, 2D, numInside == 2, iD:492-557; d2 is summed up without the
      square and both d1 and d2 are taken from simplex2, which only affects the
      choice of the diagonal. *)
  Definition outer_two (T1 T2 : simplex) (ind : list (list bool)) (o : nat) : res (list (mat * (nat -> R) * R)) :=
    let i1 := ((o + 1) mod 3)%nat in let i2 := ((o + 2) mod 3)%nat in
    '(c1, c2, _) <- for_range 0 3 (fun j '(c1, c2, b) =>
       row1 <- aget ind i1 ;; h1 <- aget row1 j ;; row2 <- aget ind i2 ;; h2 <- aget row2 j ;; w <- aget T2 j ;;
       '(c1, b) <- (if (h1 : bool) then '(_, b) <- findIntersections D w T1 o i1 b ;; v <- rd b 0 ;; Ok (Rmin c1 v, b) else Ok (c1, b)) ;;
       '(c2, b) <- (if (h2 : bool) then '(_, b) <- findIntersections D w T1 o i2 b ;; v <- rd b 0 ;; Ok (Rmin c2 v, b) else Ok (c2, b)) ;;
       Ok (c1, c2, b)) (1, 1, alloc 2) ;;
    '(d1, d2) <- for_range 0 2 (fun k '(d1, d2) =>
       t0 <- coord T2 o k ;; t1 <- coord T2 i1 k ;; t2 <- coord T2 i2 k ;;
       let a := t0 + c1 * (t1 - t0) - t2 in
       Ok (d1 + a * a, d2 + (t0 + c2 * (t2 - t0) - t1))) (0, 0) ;;
    let on_two (c1 c2 : R) (i1 i2 : nat) :=
      (if rlt 0 (1 - c1) then [(mset i2 i2 1 (mset i1 i2 (- c1) (mset i1 i1 (1 - c1) (mset o o (1 - c1) mzero))),
                                (fun p => if (p =? i1)%nat then c1 else 0), 1 - c1)] else []) ++
      (if rlt 0 (c1 * (1 - c2)) then [(mset i1 i1 c1 (mset o i1 (1 - c1) (mset i2 o c2 (mset i2 i2 1 (mset o o (1 - c2) mzero)))),
                                (fun _ => 0), c1 * (1 - c2))] else []) in
    Ok (if rlt d1 d2 then on_two c1 c2 i1 i2 else on_two c2 c1 i2 i1).
  (** retriangulationDomain.startLoopSubSimplices_Simplex in 2D, iD:449-567 *)
  Definition simplex_2D (T1 T2 : simplex) : res (list (mat * (nat -> R) * R)) :=
    ind <- for_range 0 3 (fun i l => v <- aget T1 i ;; r <- inside_at 3 v T2 ;; Ok (l ++ [r])) [] ;;
    let insideI := map (existsb (fun b => b)) ind in
    match count_true insideI with
    | O => Err ENotImpl
    | S O => outer_one T1 T2 ind (first_true insideI)
    | S (S O) => outer_two T1 T2 ind (first_true (map negb insideI))
    | _ => Ok [(identity, (fun _ => 0), 1)]
    end.
End Retriangulation.

(** retriangulationDomain.startLoopSubSimplices_Simplex in 1D, iD:427-447:
    intervals1, iter_Simplex, iterEnd_Simplex *)
Definition intervals1 (h2 : R) (T1 T2 : simplex) : res (list R * nat * nat) :=
  let h := sqrt h2 in
  a1 <- coord T1 0 0 ;; b1 <- coord T1 1 0 ;; a2 <- coord T2 0 0 ;; b2 <- coord T2 1 0 ;;
  let inv := 1 / Rabs (a1 - b1) in
  if rlt a1 a2 then Ok ([a1 * inv; Rmax a1 (a2 - h) * inv; Rmin b1 (b2 - h) * inv; b1 * inv], 1%nat, 3%nat)
  else Ok ([a1 * inv; Rmax a1 (a2 + h) * inv; Rmin b1 (b2 + h) * inv; b1 * inv], 0%nat, 2%nat).
(** interactionDomain.nextSubSimplex_Simplex in 1D, iD:71-88: the recursive call
    skips empty intervals; [simplex_1D] is the list of what the calls return
    until the first False. *)
Fixpoint next_1D (iv : list R) (iters : list nat) : res (list (mat * (nat -> R) * R)) :=
  match iters with
  | [] => Ok []
  | it :: iters =>
      l <- aget iv it ;; r <- aget iv (S it) ;; v0 <- aget iv 0 ;; v1 <- aget iv 3 ;;
      rest <- next_1D iv iters ;;
      if rle (r - l) 0 then Ok rest
      else Ok ((mset 1 1 (r - l) (mset 0 0 (r - l) mzero), (fun p => if (p =? 0)%nat then v1 - r else l - v0), r - l) :: rest)
  end.
Definition simplex_1D (h2 : R) (T1 T2 : simplex) : res (list (mat * (nat -> R) * R)) :=
  '(iv, lo, hi) <- intervals1 h2 T1 T2 ;;
  next_1D iv (seq lo (hi - lo)).
(** nextSubSimplex_Node (iD:100-112) called until it returns False gives the slots
    in order; nextSubSimplex_Simplex in 2D (iD:89-95) likewise. *)

(** getRelativePosition of ball2_retriangulation and ball2_barycenter, iD:875-898, 990-1013.
    dmin2 starts at infinity: None. *)
Inductive relative_position := INTERACT | REMOTE | CUT.
Definition omin (o : option R) (d : R) : option R := match o with None => Some d | Some m => Some (Rmin m d) end.
Definition ball2_getRelativePosition (dim : nat) (h2 : R) (T1 T2 : simplex) : res relative_position :=
  '(dmin, dmax) <- for_list T1 (fun v s =>
     for_list T2 (fun w '(dmin, dmax) => d <- dist2 dim v w ;; Ok (omin dmin d, Rmax dmax d)) s) (None, 0) ;;
  Ok (if match dmin with None => true | Some m => rle h2 m end then REMOTE
      else if rle dmax h2 then INTERACT else CUT).

(** barycenterDomain, iD:340-392: the barycenter of simplex2 decides. *)
Definition barycenter (T : simplex) (n : nat) : res point :=
  s <- for_list T (fun v s => for_range 0 n (fun j s => a <- aget s j ;; c <- aget v j ;; aset s j (a + c)) s) (repeat 0 n) ;;
  Ok (map (fun a => a / INR (length T)) s).
Definition barycenter_node (inside : point -> point -> res bool) (n : nat) (x : point) (T : simplex) : res slots :=
  b <- barycenter T n ;; h <- inside x b ;; Ok (if (h : bool) then [(identity, 1)] else []).
Definition barycenter_simplex (inside : point -> point -> res bool) (n : nat) (T1 T2 : simplex) : res (list (mat * (nat -> R) * R)) :=
  b <- barycenter T2 n ;;
  h <- (fix go (vs : simplex) := match vs with [] => Ok false | v :: vs => h <- inside v b ;; if (h : bool) then Ok true else go vs end) T1 ;;
  Ok (if (h : bool) then [(identity, (fun _ => 0), 1)] else []).

(** ballInf_retriangulation, iD:1069-1165; [h] is sqrt(horizon2), 1e-12 is [tol].
    The inner loop runs over two coordinates, whatever the dimension. *)
Definition ballInf_isInside (h2 : R) (x y : point) : res bool :=
  s <- for_range 0 (length x) (fun i s => a <- aget x i ;; b <- aget y i ;; Ok (Rmax s ((a - b) * (a - b)))) 0 ;; Ok (rle s h2).
Definition ballInf_try (h2 tol : R) (x : point) (T : simplex) (s e : nat) (lam : R) (nb : nat * ibuf) : res (nat * ibuf) :=
  let '(n, b) := nb in
  if rle 0 lam && rle lam 1 then
    ins <- for_range 0 2 (fun j ins => xj <- aget x j ;; ts <- coord T s j ;; te <- coord T e j ;;
       let a := xj - (lam * ts + (1 - lam) * te) in Ok (ins && rle (a * a) (h2 + tol))) true ;;
    if (ins : bool) then b' <- wr b n (1 - lam) ;; Ok (S n, b') else Ok (n, b)
  else Ok (n, b).
Definition ballInf_findIntersections (dim : nat) (h2 tol : R) (x : point) (T : simplex) (s e : nat) (b : ibuf) : res (nat * ibuf) :=
  let h := sqrt h2 in
  '(n, b) <- for_range 0 dim (fun k nb =>
     ts <- coord T s k ;; te <- coord T e k ;; xk <- aget x k ;;
     let d := ts - te in
     if rlt tol (Rabs d) then
       nb <- ballInf_try h2 tol x T s e ((h - (te - xk)) / d) nb ;;
       ballInf_try h2 tol x T s e ((- h - (te - xk)) / d) nb
     else Ok nb) (O, b) ;;
  if (n =? 2)%nat then
    c <- rd b 0 ;; d <- rd b 1 ;;
    if rlt d c then b' <- wr b 0 d ;; b'' <- wr b' 1 c ;; Ok (n, b'') else Ok (n, b)
  else Ok (n, b).
Definition ballInf (dim : nat) (h2 tol : R) : domain :=
  Domain (ballInf_isInside h2) (ballInf_findIntersections dim h2 tol)
         [[sqrt h2; sqrt h2]; [- sqrt h2; sqrt h2]; [- sqrt h2; - sqrt h2]; [sqrt h2; - sqrt h2]].
