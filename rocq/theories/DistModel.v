(** Model of what the overlaps are used for: distributing vectors, inner products, distributed operators
    and the numbering of the degrees of freedom of the whole
    (fem/PyNucleus_fem/algebraicOverlaps.pyx, base/PyNucleus_base/ip_norm.pyx,
    fem/PyNucleus_fem/distributed_operators_{SCALAR}.pxi). The functions are programs for the
    ranks and messages of OverlapModel.v.

    Simplifications: those of OverlapModel.v; asynchronous=False, nonOverlapping=False; one level;
    temporary vectors have the size of the others; the number of a degree of freedom is exact as a
    floating point number. Local numbers of a function are kept in the memory of the rank, too. A
    local computation that fails leaves an empty memory. *)
From Verif Require Import Util Lin CSRModel OverlapModel.
Local Open Scope nat_scope.

(** [dofCount[dof] += 1] or, if there is no such key, [dofCount[dof] = 2], algebraicOverlaps.pyx:566-569 *)
Fixpoint count_dof (dof : nat) (d : list (nat * nat)) : list (nat * nat) :=
  match d with [] => [(dof, 2)] | (i, c) :: r => if i =? dof then (i, c + 1) :: r else (i, c) :: count_dof dof r end.
Definition qn (n : nat) : Qc := qz (Z.of_nat n).
(** Didx and Dval, algebraicOverlaps.pyx:558-579 *)
Definition prepareDistribute (m : manager) : list nat * list Qc :=
  let dofCount := fold_left (fun d o => fold_left (fun d dof => count_dof dof d) (o_shared o) d) m [] in
  (map fst dofCount, map (fun x => (/ qn (snd x))%Qc) dofCount).
(** algebraicOverlaps.pyx:794-823; n is num_subdomain_dofs *)
Definition distribute (D : list nat * list Qc) (n : nat) (vec : list Qc) (vec2 : option (list Qc)) : res (list Qc) :=
  u <- match vec2 with
       | None => Ok vec
       | Some u => for_range 0 n (fun dof u => x <- aget vec dof ;; aset u dof x) u
       end ;;
  for_range 0 (length (fst D)) (fun i u =>
    dof <- aget (fst D) i ;; d <- aget (snd D) i ;; y <- aget u dof ;; aset u dof (y * d)%Qc) u.
(** opt_false_blas.pxi:57-67 *)
Definition mydot (v0 v1 : list Qc) : res Qc :=
  for_range 0 (length v0) (fun i s => a <- aget v0 i ;; b <- aget v1 i ;; Ok (s + a * b)%Qc) 0%Qc.

Definition attempt (f : nat -> mem -> res mem) (p : nat) (m : mem) : mem := match f p m with Ok m => m | Err _ => [] end.
Definition nothing (p : nat) (m : mem) : mem := m.
(** algebraicOverlaps.pyx:1496-1503: the sum of what the ranks have in vector k; f is what the caller
    does with it *)
Definition reduce (f : Qc -> Qc) (k : nat) : call :=
  Coll (fun _ m => nth k m []) (fun _ l m => upd m k [f (suml (map (fun v => vat v 0) l))]).

Section Local.
  (** num_subdomain_dofs, Didx and Dval of each rank *)
  Variables (size : nat -> nat) (D : nat -> list nat * list Qc).

  (** distribute(vector s, vector d) *)
  Definition dist_to (s d : nat) (p : nat) (m : mem) : res mem :=
    v <- aget m s ;; u <- aget m d ;; u <- distribute (D p) (size p) v (Some u) ;; aset m d u.
  (** result k = localIP(vector a, vector b) *)
  Definition dot_to (a b k : nat) (p : nat) (m : mem) : res mem :=
    u <- aget m a ;; v <- aget m b ;; n <- mydot u v ;; Ok (upd m k [n]).

  (** ip_norm.pyx:119-156: vectors 0 and 1, temporaryMemory is vector 2, the result goes to 3 *)
  Definition ip_distributed (acc1 acc2 : bool) : list round :=
    match acc1, acc2 with
    | true, true => [Round (attempt (fun p m => m <- dist_to 0 2 p m ;; dot_to 1 2 3 p m)) (reduce (fun n => n) 3)]
    | false, false => [Round nothing (Acc 0 (Some 2)); Round (attempt (dot_to 1 2 3)) (reduce (fun n => n) 3)]
    | false, true => [Round (attempt (dot_to 1 0 3)) (reduce (fun n => n) 3)]
    | true, false => [Round (attempt (dot_to 0 1 3)) (reduce (fun n => n) 3)]
    end.
  (** ip_norm.pyx:159-184, the same vectors but for 1; sqrt is any function *)
  Definition norm_distributed (sqrt : Qc -> Qc) (acc : bool) : list round :=
    if acc then [Round (attempt (fun p m => m <- dist_to 0 2 p m ;; dot_to 0 2 3 p m)) (reduce sqrt 3)]
    else [Round nothing (Acc 0 (Some 2)); Round (attempt (dot_to 0 2 3)) (reduce sqrt 3)].

  (** distributed_operators_{SCALAR}.pxi:13-57: x and y are vectors 0 and 1, tempMemX and tempMemY
      are 2 and 3. [A p z w] is what A.matvec(z, w) of rank p leaves in w. *)
  Section Operator.
    Variables (doDistribute keepDistributedResult : bool).
    Definition source : nat := if doDistribute then 2 else 0.
    Definition target : nat := if keepDistributedResult then 3 else 1.
    Definition prepare (p : nat) (m : mem) : res mem := if doDistribute then dist_to 0 2 p m else Ok m.
    (** [if self.keepDistributedResult: assign(y, w)] *)
    Definition keep (p : nat) (m : mem) : res mem :=
      if keepDistributedResult then w <- aget m 3 ;; y <- aget m 1 ;; y <- copy_into w y ;; aset m 1 y else Ok m.
    Definition dist_matvec (A : nat -> list Qc -> list Qc -> res (list Qc)) : list round :=
      [Round (attempt (fun p m =>
         m <- prepare p m ;; z <- aget m source ;; w <- aget m target ;; w <- A p z w ;; m <- aset m target w ;; keep p m)) (Acc 1 None)].
    (** lines 59-78: rhs is vector 4, resAcc is 1; [R p z rhs w] is what A.residual(z, rhs, w) leaves in w *)
    Definition dist_residual (R : nat -> list Qc -> list Qc -> list Qc -> res (list Qc)) : list round :=
      [Round (attempt (fun p m =>
         m <- prepare p m ;; z <- aget m source ;; rhs <- aget m 4 ;; w <- aget m target ;; w <- R p z rhs w ;; m <- aset m target w ;; keep p m)) (Acc 1 None)].

    (** Row i of the CSR operator of a rank times z: lines 121-124 and 133-136 with sign 1 and r = 0, lines
        167-170 and 179-182 with sign -1 and r = rhs[i] *)
    Definition csr_row (A : csr) (sign : Qc) (z : list Qc) (r : Qc) (i : nat) : res Qc :=
      for_row (c_indptr A) i (fun jj temp =>
        j <- aget (c_indices A) jj ;; d <- aget (c_data A) jj ;; x <- aget z j ;; Ok (temp + sign * (d * x))%Qc) r.
    (** lines 119-125 and 165-171; [idx] is overlap_indices *)
    Definition csr_shared_rows (A : csr) (sign : Qc) (idx : list nat) (z : list Qc) (rhs : nat -> res Qc) (w : list Qc) : res (list Qc) :=
      for_range 0 (length idx) (fun k w =>
        i <- aget idx k ;; r <- rhs i ;; t <- csr_row A sign z r i ;; aset w i t) w.
    (** lines 128-137 and 174-183: all rows but those found in the order of idx *)
    Definition csr_other_rows (A : csr) (sign : Qc) (idx : list nat) (z : list Qc) (rhs : nat -> res Qc) (w : list Qc) : res (list Qc) :=
      ' (w, _) <- for_range 0 (c_nrows A) (fun i s =>
          let '(w, k) := (s : list Qc * nat) in
          same <- (if k <? length idx then j <- aget idx k ;; Ok (j =? i) else Ok false) ;;
          if (same : bool) then Ok (w, k + 1)
          else r <- rhs i ;; t <- csr_row A sign z r i ;; w <- aset w i t ;; Ok (w, k)) (w, 0) ;;
      Ok w.
    (** The shared rows, send, the other rows, assign, receive *)
    Definition csr_dist (prep : nat -> mem -> res mem) (sign : Qc) (rhs : mem -> nat -> res Qc) (A : nat -> csr) (idx : nat -> list nat) : list round :=
      [Round (attempt (fun p m =>
         m <- prep p m ;;
         z <- aget m source ;; w <- aget m target ;; w <- csr_shared_rows (A p) sign (idx p) z (rhs m) w ;; aset m target w))
        (Exch target (attempt (fun p m =>
           z <- aget m source ;; w <- aget m target ;; w <- csr_other_rows (A p) sign (idx p) z (rhs m) w ;; m <- aset m target w ;; keep p m)) 1)].
    (** lines 97-142; with doDistribute the attribute tempMemory does not exist *)
    Definition csr_dist_matvec : (nat -> csr) -> (nat -> list nat) -> list round :=
      csr_dist (fun _ m => _ <- guard (negb doDistribute) EKey ;; Ok m) 1%Qc (fun _ _ => Ok 0%Qc).
    (** lines 144-186 *)
    Definition csr_dist_residual : (nat -> csr) -> (nat -> list nat) -> list round :=
      csr_dist prepare (-(1))%Qc (fun m i => rhs <- aget m 4 ;; aget rhs i).
  End Operator.

  (** distributed_operators_{SCALAR}.pxi:80-84 and 188-192 if A.diagonal is a new array, as that of a CSR
      operator is; it is vector 1 *)
  Definition dist_diagonal (diag : nat -> res (list Qc)) : list round :=
    [Round (attempt (fun p m => d <- diag p ;; aset m 1 d)) (Acc 1 None)].
  (** lines 80-84 if A.diagonal is the array that A itself uses, as that of an SSS operator
      (SSS_LinearOperator_decl_{SCALAR}.pxi:14) and of a diagonal operator is; it is vector 0 *)
  Definition dist_diagonal_own : list round := [Round nothing (Acc 0 None)].

  (** algebraicOverlaps.pyx:1290-1295: the result goes to vector 0; the set has the shared degrees of
      freedom of lower ranks *)
  Definition countDoFs (mgr : nat -> manager) : list round :=
    let lv p := nodup Nat.eq_dec (flat_map o_shared (filter (fun o => o_other o <? p) (mgr p))) in
    [Round (fun p m => upd m 0 [(qn (size p) - qn (length (lv p)))%Qc]) (reduce (fun n => n) 0)].
  (** algebraicOverlaps.pyx:1297-1317: v is vector 0, k goes to vector 1 *)
  Definition count_own (p : nat) (v : list Qc) : res Qc :=
    for_range 0 (size p) (fun i k => x <- aget v i ;; Ok (if Qc_eq_bool x (qn p) then k + 1 else k)%Qc) 0%Qc.
  Definition number_own (p : nat) (m : Qc) (v : list Qc) : res (list Qc) :=
    ' (v, _) <- for_range 0 (size p) (fun i s =>
        let '(v, m) := (s : list Qc * Qc) in
        x <- aget v i ;; if Qc_eq_bool x (qn p) then v <- aset v i m ;; Ok (v, m + 1)%Qc else Ok (v, m)) (v, m) ;;
    Ok v.
  Definition getGlobalIndices : list round :=
    [Round (attempt (fun p m => aset m 0 (repeat (qn p) (size p)))) (Uni 0);
     Round (attempt (fun p m => v <- aget m 0 ;; k <- count_own p v ;; Ok (upd m 1 [k])))
       (Coll (fun _ m => nth 1 m []) (fun p l => attempt (fun p m =>
          v <- aget m 0 ;; let k := nth 1 m [] in
          v <- number_own p (suml (map (fun c => vat c 0) (firstn (p + 1) l)) - vat k 0)%Qc v ;; aset m 0 v) p));
     Round nothing (Uni 0)].
End Local.
