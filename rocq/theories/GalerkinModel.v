(** Model of the restriction of matrices to coarser spaces, Ac += R*A*R.T
    (base/PyNucleus_base/linear_operators.pyx:423-424, 485-822 and
    CSR_LinearOperator_{SCALAR}.pxi:334-338).

    Simplifications: indices are natural numbers, values are exact rationals; a
    [while] loop has fuel for as many iterations as its slots allow. The line
    numbers without a file name refer to linear_operators.pyx. *)
From Verif Require Import Util Lin CSRModel.
Local Open Scope nat_scope.

(** The sparse formats that A and Ac may have. *)
Inductive sop := SCsr (A : csr) | SSym (A : sss).
Definition o_indptr (A : sop) := match A with SCsr A => c_indptr A | SSym A => s_indptr A end.
Definition o_indices (A : sop) := match A with SCsr A => c_indices A | SSym A => s_indices A end.
Definition o_data (A : sop) := match A with SCsr A => c_data A | SSym A => s_data A end.
(** the attribute num_rows of A *)
Definition o_nrows (A : sop) : nat := length (o_indptr A) - 1.
(** writing through the view of the array [data] *)
Definition o_set_data (A : sop) (data : list Qc) : sop :=
  match A with
  | SCsr A => SCsr (CSR (c_ncols A) (c_indptr A) (c_indices A) data)
  | SSym A => SSym (SSS (s_indptr A) (s_indices A) data (s_diag A))
  end.
(** [Ac.diagonal]: the array of a symmetric operator; a new array for a CSR
    operator (CSR_LinearOperator_{SCALAR}.pxi:243) *)
Definition o_diagonal (A : sop) : res (list Qc) :=
  match A with SCsr A => csr_get_diagonal A | SSym A => Ok (s_diag A) end.
(** what remains of writing into the array that [o_diagonal] returned *)
Definition o_set_diagonal (A : sop) (diag : list Qc) : sop :=
  match A with SCsr A => SCsr A | SSym A => SSym (SSS (s_indptr A) (s_indices A) (s_data A) diag) end.

(** [while (mm1 < e1) and (mm2 < e2): ...]: 509-519, 531-541, 565-575, 674-684, 705-715 *)
Fixpoint merge_slots (fuel : nat) (ind1 : list nat) (e1 : nat) (ind2 : list nat) (e2 : nat)
    (hit : nat -> nat -> Qc -> res Qc) (mm1 mm2 : nat) (s : Qc) : res Qc :=
  match fuel with
  | 0 => Err EFuel
  | S fuel =>
    if (mm1 <? e1) && (mm2 <? e2) then
      m1 <- aget ind1 mm1 ;;
      m2 <- aget ind2 mm2 ;;
      if m1 <? m2 then merge_slots fuel ind1 e1 ind2 e2 hit (mm1 + 1) mm2 s
      else if m2 <? m1 then merge_slots fuel ind1 e1 ind2 e2 hit mm1 (mm2 + 1) s
      else s' <- hit mm1 mm2 s ;; merge_slots fuel ind1 e1 ind2 e2 hit (mm1 + 1) (mm2 + 1) s'
    else Ok s
  end.
(** the start values mm1, mm2 and the two ends of the rows *)
Definition merge_rows (ip1 ind1 : list nat) (r1 : nat) (ip2 ind2 : list nat) (r2 : nat)
    (hit : nat -> nat -> Qc -> res Qc) (s : Qc) : res Qc :=
  b1 <- aget ip1 r1 ;;
  b2 <- aget ip2 r2 ;;
  e1 <- aget ip1 (r1 + 1) ;;
  e2 <- aget ip2 (r2 + 1) ;;
  merge_slots (S (e1 - b1 + (e2 - b2))) ind1 e1 ind2 e2 hit b1 b2 s.

(** [while (mm1 < e) and (indices[mm1] < j): mm1 += 1]: 522-523, 543-544, 578-579, 584-585 *)
Fixpoint seek_slot (fuel : nat) (ind : list nat) (e j mm : nat) : res nat :=
  match fuel with
  | 0 => Err EFuel
  | S fuel =>
    if mm <? e then
      m <- aget ind mm ;;
      if m <? j then seek_slot fuel ind e j (mm + 1) else Ok mm
    else Ok mm
  end.
(** the loop and the test [if (mm1 < e) and (indices[mm1] == j)] after it *)
Definition seek_row (ip ind : list nat) (r j : nat) (hit : nat -> Qc -> res Qc) (s : Qc) : res Qc :=
  b <- aget ip r ;;
  e <- aget ip (r + 1) ;;
  mm <- seek_slot (S (e - b)) ind e j b ;;
  if mm <? e then
    m <- aget ind mm ;;
    if m =? j then hit mm s else Ok s
  else Ok s.

(** 653-686 *)
Definition getEntry (R_indptr R_indices : list nat) (R_data : list Qc)
    (A_indptr A_indices : list nat) (A_data : list Qc) (i j : nat) : res Qc :=
  for_row R_indptr i (fun kk sum =>
    k <- aget R_indices kk ;;
    sumI <- merge_rows A_indptr A_indices k R_indptr R_indices j (fun mm1 mm2 sumI =>
              a <- aget A_data mm1 ;; r <- aget R_data mm2 ;; Ok (sumI + a * r)%Qc) 0%Qc ;;
    r <- aget R_data kk ;;
    Ok (sum + r * sumI)%Qc) 0%Qc.

(** 689-716 *)
Definition getEntryFromD (R_indptr R_indices : list nat) (R_data : list Qc)
    (A_diagonal : list Qc) (i j : nat) : res Qc :=
  merge_rows R_indptr R_indices i R_indptr R_indices j (fun mm1 mm2 sum =>
    r1 <- aget R_data mm1 ;; m1 <- aget R_indices mm1 ;; d <- aget A_diagonal m1 ;; r2 <- aget R_data mm2 ;;
    Ok (sum + r1 * d * r2)%Qc) 0%Qc.

Definition half : Qc := Q2Qc (1 # 2).
Definition quarter : Qc := Q2Qc (1 # 4).

(** 489-547 *)
Definition getEntry_restr (R_indptr R_indices : list nat)
    (A_indptr A_indices : list nat) (A_data : list Qc) (i j : nat) : res Qc :=
  sum <- for_row R_indptr i (fun kk sum =>
    k <- aget R_indices kk ;;
    sumI <- merge_rows A_indptr A_indices k R_indptr R_indices j (fun mm1 _ sumI =>
              a <- aget A_data mm1 ;; Ok (sumI + a * half)%Qc) 0%Qc ;;
    sumI <- seek_row A_indptr A_indices k j (fun mm1 sumI =>
              a <- aget A_data mm1 ;; Ok (sumI + a)%Qc) sumI ;;
    Ok (sum + half * sumI)%Qc) 0%Qc ;;
  sum <- merge_rows A_indptr A_indices i R_indptr R_indices j (fun mm1 _ sum =>
           a <- aget A_data mm1 ;; Ok (sum + a * half)%Qc) sum ;;
  seek_row A_indptr A_indices i j (fun mm1 sum => a <- aget A_data mm1 ;; Ok (sum + a)%Qc) sum.

(** 550-588 *)
Definition getEntryFromD_restr (R_indptr R_indices : list nat) (A_diagonal : list Qc) (i j : nat) : res Qc :=
  sum <- merge_rows R_indptr R_indices i R_indptr R_indices j (fun mm1 _ sum =>
           m1 <- aget R_indices mm1 ;; d <- aget A_diagonal m1 ;; Ok (sum + quarter * d)%Qc) 0%Qc ;;
  sum <- seek_row R_indptr R_indices i j (fun _ sum => d <- aget A_diagonal j ;; Ok (sum + half * d)%Qc) sum ;;
  seek_row R_indptr R_indices j i (fun _ sum => d <- aget A_diagonal i ;; Ok (sum + half * d)%Qc) sum.

(** The pass over the entries of a row of Ac, [data[jj] += ...]: 604-611, 618-625, 636-643, ... *)
Definition add_row (indptr indices : list nat) (E : nat -> nat -> res Qc) (i : nat) (data : list Qc) : res (list Qc) :=
  for_row indptr i (fun jj data =>
    j <- aget indices jj ;;
    e <- E i j ;;
    d <- aget data jj ;;
    aset data jj (d + e)%Qc) data.
(** [diagonal[i] += v] *)
Definition add_diag (diag : list Qc) (i : nat) (v : Qc) : res (list Qc) :=
  d <- aget diag i ;; aset diag i (d + v)%Qc.

(** The common structure of 591-647 ([ident]: with the line
    [diagonal[i] += A_diagonal[i]]) and 764-822 (without it); E and D are the
    functions for the entries *)
Definition add_product (ident : bool) (E : nat -> nat -> res Qc) (D : list Qc -> nat -> nat -> res Qc) (A Ac : sop) : res sop :=
  let indptr := o_indptr Ac in let indices := o_indices Ac in
  let n := length indptr - 1 in
  data <- for_range 0 n (add_row indptr indices E) (o_data Ac) ;;
  match A with
  | SCsr _ => Ok (o_set_data Ac data)
  | SSym A' =>
    let A_diagonal := s_diag A' in
    diag <- o_diagonal (o_set_data Ac data) ;;
    data <- for_range 0 n (add_row indptr indices (fun i j => E j i)) data ;;
    '(data, diag) <- for_range 0 n (fun i '(data, diag) =>
      diag <- (if ident then a <- aget A_diagonal i ;; add_diag diag i a else Ok diag) ;;
      e <- E i i ;;
      diag <- add_diag diag i (qz 2 * e)%Qc ;;
      data <- add_row indptr indices (D A_diagonal) i data ;;
      e <- D A_diagonal i i ;;
      diag <- add_diag diag i e ;;
      Ok (data, diag)) (data, diag) ;;
    Ok (o_set_diagonal (o_set_data Ac data) diag)
  end.

(** 764-822 *)
Definition multiply (R : csr) (A Ac : sop) : res sop :=
  add_product false
    (getEntry (c_indptr R) (c_indices R) (c_data R) (o_indptr A) (o_indices A) (o_data A))
    (getEntryFromD (c_indptr R) (c_indices R) (c_data R)) A Ac.

(** restrictionOp (368-424): the positions of the entries 0.5; the identity is implicit *)
Record restr := Restr { r_ncols : nat; r_indptr : list nat; r_indices : list nat }.
(** 591-647, called by 423-424 *)
Definition multiply_restr (R : restr) (A Ac : sop) : res sop :=
  add_product true
    (getEntry_restr (r_indptr R) (r_indices R) (o_indptr A) (o_indices A) (o_data A))
    (getEntryFromD_restr (r_indptr R) (r_indices R)) A Ac.

(** [Ac.addToEntry] *)
Definition o_addToEntry (A : sop) (I J : nat) (v : Qc) : res sop :=
  match A with
  | SCsr A => B <- csr_addToEntry A I J v ;; Ok (SCsr B)
  | SSym A => B <- sss_addToEntry A I J v ;; Ok (SSym B)
  end.

(** 730-738, 742-750, 755-761: the contributions of one entry (k, l) of A *)
Definition add_outer (P : csr) (k l : nat) (akl : Qc) (swap : bool) (Ac : sop) : res sop :=
  for_row (c_indptr P) k (fun ii Ac =>
    i <- aget (c_indices P) ii ;;
    pki <- aget (c_data P) ii ;;
    for_row (c_indptr P) l (fun jj Ac =>
      j <- aget (c_indices P) jj ;;
      plj <- aget (c_data P) jj ;;
      if swap then o_addToEntry Ac j i (pki * akl * plj)%Qc
      else o_addToEntry Ac i j (pki * akl * plj)%Qc) Ac) Ac.

(** 728-738 and, with [swap], 740-750 *)
Definition add_entries (P : csr) (A : sop) (swap : bool) (Ac : sop) : res sop :=
  for_range 0 (length (o_indptr A) - 1) (fun k Ac =>
    for_row (o_indptr A) k (fun ll Ac =>
      l <- aget (o_indices A) ll ;;
      akl <- aget (o_data A) ll ;;
      add_outer P k l akl swap Ac) Ac) Ac.

(** 719-761 *)
Definition multiply2 (P : csr) (A Ac : sop) : res sop :=
  Ac <- add_entries P A false Ac ;;
  match A with
  | SCsr _ => Ok Ac
  | SSym A' =>
    Ac <- add_entries P A true Ac ;;
    for_range 0 (length (o_indptr A) - 1) (fun k Ac =>
      akl <- aget (s_diag A') k ;;
      add_outer P k k akl false Ac) Ac
  end.

(** CSR_LinearOperator_{SCALAR}.pxi:334-338 *)
Definition restrictMatrix (R : csr) (A Ac : sop) : res sop :=
  Ac <- (if c_nrows R =? o_nrows Ac then multiply R A Ac else Ok Ac) ;;
  if c_ncols R =? o_nrows Ac then multiply2 R A Ac else Ok Ac.
