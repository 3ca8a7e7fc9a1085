(** Model of the sparsity pattern builder
    (base/PyNucleus_base/sparsityPattern.pyx, sparsityPattern.pxd).

    Simplifications: the rows [indexL[I]] are lists of optional cells whose
    length is the allocated size; row indices are natural numbers (outside
    0..num_dofs-1: [EOob]); column indices are unbounded integers (they are only
    compared); [self.index], the output slot of findIndex, is returned; [nnz] and
    the row counts (INDEX_t) do not wrap, the 16-bit fields [lengths], [low],
    [high], [index] do, with [W] values (65536 in the code). *)
From Verif Require Import Util.

Section Sparsity.
  Variable W : nat.

  (** sparsityPattern.pxd:12-19 *)
  Record spat := SP {
    sp_num_dofs : nat;
    sp_initial_length : nat;
    sp_nnz : nat;
    sp_counts : list nat;
    sp_lengths : list nat;
    sp_indexL : list (buf Z) }.

  Definition u16 (n : nat) : nat := n mod W.

  (** sparsityPattern.pyx:16-28 *)
  Definition sp_init (nd initial_length : nat) : spat :=
    SP nd initial_length 0 (repeat 0 nd) (repeat initial_length nd)
       (repeat (alloc initial_length) nd).

  (** sparsityPattern.pyx:35-46, the linear search *)
  Fixpoint sp_linear (row : buf Z) (n m cnt : nat) (J : Z) : res (bool * nat) :=
    match n with
    | O => Ok (false, u16 cnt)
    | S n' =>
        K <- rd row m ;;
        if Z.eqb K J then Ok (true, m)
        else if Z.ltb J K then Ok (false, m)
        else sp_linear row n' (S m) cnt J
    end.

  (** sparsityPattern.pyx:50-63, the bisection; fuel bounds the while loop.
      [high - low] is an int in the code; truncation at 0 does not change the
      comparison with 1. *)
  Fixpoint sp_bisect (fuel : nat) (row : buf Z) (low high : nat) (J : Z) : res (bool * nat) :=
    match fuel with
    | O => Err EFuel
    | S f =>
        K <- rd row low ;;
        if Z.eqb K J then Ok (true, low)
        else if (high - low) <=? 1 then
          if Z.ltb J K then Ok (false, low) else Ok (false, u16 (low + 1))
        else
          let mid := (low + high) / 2 in
          M <- rd row mid ;;
          if Z.leb M J then sp_bisect f row mid high J
          else sp_bisect f row low mid J
    end.

  (** sparsityPattern.pyx:30-63 *)
  Definition sp_findIndex (s : spat) (I : nat) (J : Z) : res (bool * nat) :=
    c <- aget (sp_counts s) I ;;
    row <- aget (sp_indexL s) I ;;
    if c <? 20 then sp_linear row c 0 c J
    else sp_bisect (S c) row 0 (u16 c) J.

  (** sparsityPattern.pyx:76-77 *)
  Definition sp_shift (c m : nat) (row : buf Z) : res (buf Z) :=
    for_range_down c m (fun n row => x <- rd row (n - 1) ;; wr row n x) row.

  (** sparsityPattern.pyx:65-81 *)
  Definition sp_add (s : spat) (I : nat) (J : Z) : res spat :=
    '(found, m) <- sp_findIndex s I J ;;
    if found then Ok s
    else
      c <- aget (sp_counts s) I ;;
      l <- aget (sp_lengths s) I ;;
      row <- aget (sp_indexL s) I ;;
      let row1 := if c =? l then realloc row (l + sp_initial_length s) else row in
      lens <- (if c =? l then aset (sp_lengths s) I (u16 (l + sp_initial_length s)) else Ok (sp_lengths s)) ;;
      row2 <- sp_shift c m row1 ;;
      row3 <- wr row2 m J ;;
      iL <- aset (sp_indexL s) I row3 ;;
      cs <- aset (sp_counts s) I (c + 1) ;;
      Ok (SP (sp_num_dofs s) (sp_initial_length s) (sp_nnz s + 1) cs lens iL).

  (** sparsityPattern.pyx:89-111 *)
  Definition sp_freeze (s : spat) : res (buf nat * buf Z) :=
    '(indices, k) <- for_range 0 (sp_num_dofs s) (fun i st =>
        c <- aget (sp_counts s) i ;;
        row <- aget (sp_indexL s) i ;;
        for_range 0 c (fun j '(indices, k) =>
          x <- rd row j ;; ind' <- wr indices k x ;; Ok (ind', k + 1)) st)
      (alloc (sp_nnz s), 0) ;;
    '(indptr, nnz) <- for_range 0 (sp_num_dofs s) (fun i '(indptr, nnz) =>
        ip <- wr indptr i nnz ;;
        c <- aget (sp_counts s) i ;;
        Ok (ip, nnz + c)) (alloc (sp_num_dofs s + 1), 0) ;;
    indptr' <- wr indptr (sp_num_dofs s) nnz ;;
    Ok (indptr', indices).

  (** Client code: a sequence of add calls, then freeze. *)
  Definition sp_build (nd initial_length : nat) (adds : list (nat * Z)) : res (buf nat * buf Z) :=
    s <- for_list adds (fun p s => sp_add s (fst p) (snd p)) (sp_init nd initial_length) ;;
    sp_freeze s.
End Sparsity.
