(** Model of the operator that collects single entries,
    base/PyNucleus_base/IJOperator_{SCALAR}.pxi, REAL instantiation.

    Simplifications: exact rational values; row and column numbers are natural
    numbers.  A dict is the list of its items in the order of insertion, which
    is the order in which python iterates over it. *)
From Verif Require Import Util Lin CSRModel.
Local Open Scope nat_scope.

(** linear_operators.pyx:35, and ENCODE_t, an unsigned type of 64 bits *)
Definition MAX_VAL : Z := 2 ^ 31.
Definition encode (I J : nat) : Z := ((MAX_VAL * Z.of_nat I + Z.of_nat J) mod 2 ^ 64)%Z.
Definition rowOf (hv : Z) : nat := Z.to_nat (hv / MAX_VAL).
Definition colOf (hv : Z) : nat := Z.to_nat (hv mod MAX_VAL).

Definition dict := list (Z * Qc).
(** d[k] = v: a known key keeps its place, a new one goes to the end *)
Fixpoint dict_set (d : dict) (k : Z) (v : Qc) : dict :=
  match d with
  | [] => [(k, v)]
  | (k', v') :: r => if (k' =? k)%Z then (k', v) :: r else (k', v') :: dict_set r k v
  end.
(** d.get(k, 0.) *)
Fixpoint dict_get (d : dict) (k : Z) : Qc :=
  match d with
  | [] => 0%Qc
  | (k', v') :: r => if (k' =? k)%Z then v' else dict_get r k
  end.
(** d.pop(k, 0.) *)
Fixpoint dict_del (d : dict) (k : Z) : dict :=
  match d with
  | [] => []
  | (k', v') :: r => if (k' =? k)%Z then r else (k', v') :: dict_del r k
  end.
Definition dict_pop (d : dict) (k : Z) : Qc * dict := (dict_get d k, dict_del d k).

Record ij := IJ { ij_rows : nat; ij_cols : nat; entries : dict }.

(** IJOperator_{SCALAR}.pxi:9-11 *)
Definition ij_new (n m : nat) : ij := IJ n m [].

(** IJOperator_{SCALAR}.pxi:13-16 *)
Definition ij_setEntry (A : ij) (I J : nat) (v : Qc) : ij :=
  IJ (ij_rows A) (ij_cols A) (dict_set (entries A) (encode I J) v).

(** IJOperator_{SCALAR}.pxi:18-23 *)
Definition ij_addToEntry (A : ij) (I J : nat) (v : Qc) : ij :=
  let hv := encode I J in
  let '(old, d) := dict_pop (entries A) hv in
  IJ (ij_rows A) (ij_cols A) (dict_set d hv (old + v)%Qc).

(** IJOperator_{SCALAR}.pxi:25-28 *)
Definition ij_getEntry (A : ij) (I J : nat) : Qc := dict_get (entries A) (encode I J).

(** IJOperator_{SCALAR}.pxi:30-47 *)
Definition ij_getData (A : ij) : res (list nat * list nat * list Qc) :=
  let n := length (entries A) in
  '(Ib, Jb, data, _) <- for_list (map fst (entries A)) (fun hv '(Ib, Jb, data, k) =>
    Ib' <- wr Ib k (rowOf hv) ;;
    Jb' <- wr Jb k (colOf hv) ;;
    data' <- wr data k (dict_get (entries A) hv) ;;
    Ok (Ib', Jb', data', S k)) (alloc n, alloc n, alloc n, 0) ;;
  Is <- all_init Ib ;; Js <- all_init Jb ;; vals <- all_init data ;;
  Ok (Is, Js, vals).

(** IJOperator_{SCALAR}.pxi:49-72 *)
Definition ij_to_csr (A : ij) : res csr :=
  let n := ij_rows A in
  let nnz := length (entries A) in
  ip0 <- for_list (map fst (entries A)) (fun hv ip =>
    q <- aget ip (rowOf hv + 1) ;; aset ip (rowOf hv + 1) (q + 1)) (repeat 0 (n + 1)) ;;
  ip1 <- for_range 0 n (fun i ip =>
    a <- aget ip i ;; b <- aget ip (i + 1) ;; aset ip (i + 1) (b + a)) ip0 ;;
  '(ip2, ind, dat) <- for_list (map fst (entries A)) (fun hv '(ip, ind, dat) =>
    p <- aget ip (rowOf hv) ;;
    ind' <- wr ind p (colOf hv) ;;
    dat' <- wr dat p (dict_get (entries A) hv) ;;
    ip' <- aset ip (rowOf hv) (p + 1) ;;
    Ok (ip', ind', dat')) (ip1, alloc nnz, alloc nnz) ;;
  ip3 <- for_range_down (n - 1) 0 (fun i ip => p <- aget ip (i - 1) ;; aset ip i p) ip2 ;;
  ip4 <- aset ip3 0 0 ;;
  indl <- all_init ind ;;
  datl <- all_init dat ;;
  Ok (CSR (ij_cols A) ip4 indl datl).
