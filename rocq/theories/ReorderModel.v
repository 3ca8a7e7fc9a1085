(** Model of the Cuthill-McKee ordering (base/PyNucleus_base/sparseGraph.pyx:156-252).

    Simplifications: indices are natural numbers; np.argsort of the degrees is an
    argument [argsort] (numpy's default sort is not stable), of which the theorems only
    use that it returns a sorting permutation. *)
From Verif Require Import Util.

(** sparseGraph.pyx:156-173 *)
Definition node_degrees (ind ptr : list nat) (num_rows : nat) : res (list nat) :=
  for_range 0 num_rows (fun ii degree =>
    lo <- aget ptr ii ;; hi <- aget ptr (S ii) ;;
    degree <- aset degree ii (hi - lo) ;;
    '(_, degree) <- for_range lo hi (fun jj '(stop, degree) =>
      if (stop : bool) then Ok (stop, degree)
      else j <- aget ind jj ;;
           if j =? ii then d <- aget degree ii ;; degree <- aset degree ii (S d) ;; Ok (true, degree)
           else Ok (false, degree)) (false, degree) ;;
    Ok degree) (repeat 0 num_rows).

(** np.max: raises ValueError if there is no entry. The function that calls it is [cpdef void]
    without an except clause, so Cython 3 hands the exception to the caller and older versions
    print it and return; the model follows Cython 3. *)
Definition np_max (l : list nat) : res nat := match l with [] => Err EValue | x :: l => Ok (fold_left Nat.max l x) end.

(** sparseGraph.pyx:214-220: the unvisited neighbours of a node are appended; inds holds -1 for visited nodes *)
Definition add_neighbors (ind ptr : list nat) (rev_inds : list nat) (i : nat) (st : buf nat * list Z * nat) : res (buf nat * list Z * nat) :=
  lo <- aget ptr i ;; hi <- aget ptr (S i) ;;
  for_range lo hi (fun jj '(order, inds, N) =>
    j <- aget ind jj ;;
    r <- aget rev_inds j ;;
    x <- aget inds r ;;
    if (x =? -1)%Z then Ok (order, inds, N)
    else inds <- aset inds r (-1)%Z ;; order <- wr order N j ;; Ok (order, inds, S N)) st.

(** sparseGraph.pyx:223-226 *)
Definition load_degrees (degree : list nat) (N_old N : nat) (order : buf nat) (temps : list nat) : res (nat * list nat) :=
  for_range N_old N (fun kk '(len, temps) => o <- rd order kk ;; d <- aget degree o ;; temps <- aset temps len d ;; Ok (S len, temps)) (0, temps).

(** sparseGraph.pyx:233-236: the inner loop of the insertion sort *)
Fixpoint shift (temp N_old ll : nat) (temps : list nat) (order : buf nat) : res (nat * list nat * buf nat) :=
  match ll with
  | O => Ok (O, temps, order)
  | S l =>
      x <- aget temps l ;;
      if temp <? x then
        temps <- aset temps (S l) x ;;
        y <- rd order (N_old + l) ;;
        order <- wr order (N_old + S l) y ;;
        shift temp N_old l temps order
      else Ok (S l, temps, order)
  end.
(** sparseGraph.pyx:229-238 *)
Definition insertion_sort (N_old level_len : nat) (temps : list nat) (order : buf nat) : res (list nat * buf nat) :=
  for_range 1 level_len (fun kk '(temps, order) =>
    temp <- aget temps kk ;;
    temp2 <- rd order (N_old + kk) ;;
    '(ll, temps, order) <- shift temp N_old kk temps order ;;
    temps <- aset temps ll temp ;;
    order <- wr order (N_old + ll) temp2 ;;
    Ok (temps, order)) (temps, order).

(** sparseGraph.pyx:209-238: one node of the current level *)
Definition visit (ind ptr degree rev_inds : list nat) (ii : nat) (st : buf nat * list Z * nat * list nat) : res (buf nat * list Z * nat * list nat) :=
  let '(order, inds, N, temps) := st in
  i <- rd order ii ;;
  let N_old := N in
  '(order, inds, N) <- add_neighbors ind ptr rev_inds i (order, inds, N) ;;
  '(level_len, temps) <- load_degrees degree N_old N order temps ;;
  '(temps, order) <- insertion_sort N_old level_len temps order ;;
  Ok (order, inds, N, temps).

(** sparseGraph.pyx:208-242: the levels *)
Fixpoint levels (fuel : nat) (ind ptr degree rev_inds : list nat) (level_start level_end : nat) (st : buf nat * list Z * nat * list nat)
    : res (buf nat * list Z * nat * list nat) :=
  match fuel with
  | O => Err EFuel
  | S fuel =>
      if level_start <? level_end then
        '(order, inds, N, temps) <- for_range level_start level_end (visit ind ptr degree rev_inds) st ;;
        levels fuel ind ptr degree rev_inds level_end N (order, inds, N, temps)
      else Ok st
  end.

(** sparseGraph.pyx:199-245: the loop over zz with its break *)
Fixpoint components (n : nat) (zz : nat) (num_rows : nat) (ind ptr degree rev_inds : list nat) (st : buf nat * list Z * nat * list nat)
    : res (buf nat * list Z * nat * list nat) :=
  match n with
  | O => Ok st
  | S n =>
      let '(order, inds, N, temps) := st in
      x <- aget inds zz ;;
      '(order, inds, N, temps) <- (if (x =? -1)%Z then Ok (order, inds, N, temps)
        else
          let seed := Z.to_nat x in
          order <- wr order N seed ;;
          let N := S N in
          r <- aget rev_inds seed ;;
          inds <- aset inds r (-1)%Z ;;
          levels (S num_rows) ind ptr degree rev_inds (N - 1) N (order, inds, N, temps)) ;;
      if N =? num_rows then Ok (order, inds, N, temps)
      else components n (S zz) num_rows ind ptr degree rev_inds (order, inds, N, temps)
  end.

(** sparseGraph.pyx:247-252 *)
Definition reverse_in_place (num_rows : nat) (order : buf nat) : res (buf nat) :=
  reverse_order <- for_range 0 num_rows (fun i r => x <- rd order i ;; wr r (num_rows - 1 - i) x) (alloc num_rows) ;;
  for_range 0 num_rows (fun i order => x <- rd reverse_order i ;; wr order i x) order.

(** sparseGraph.pyx:177-252 *)
Definition cuthill_mckee (argsort : list nat -> list nat) (ind ptr : list nat) (num_rows : nat) (order : buf nat) (reverse : bool) : res (buf nat) :=
  degree <- node_degrees ind ptr num_rows ;;
  let inds := argsort degree in
  let rev_inds := argsort inds in
  m <- np_max degree ;;
  '(order, _, _, _) <- components num_rows 0 num_rows ind ptr degree rev_inds (order, map Z.of_nat inds, 0, repeat 0 m) ;;
  if reverse then reverse_in_place num_rows order else Ok order.
