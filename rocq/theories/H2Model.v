(** Model of hierarchical matrices, nl/PyNucleus_nl/clusterMethodCy.pyx: the
    passes through the cluster tree, the far field, the products of an H2Matrix
    and its conversion to a dense array.

    Simplifications, used throughout this file.
    - Floating point numbers are exact rationals.
    - A node object is given by its unchanging fields; its arrays coefficientsUp
      and coefficientsDown are in two heaps, at the number [nid] of the node.
      That number is also the id used as a key by toarray.
    - The dense kernels gemv and gemvT are those of DenseModel.v (property C16),
      used when the code is built without BLAS.  The kernels read an array
      entry by entry; here the array is required to be written as a whole.
    - The near field is a CSR matrix (C08), PLogger does nothing.
    - Only local = False: the variants for distributed trees are not modelled. *)
From Verif Require Import Util Lin CSRModel DenseModel TriModel IJModel.
Local Open Scope nat_scope.

(** clusterMethodCy.pxd tree_node: interpolation_order**dim (the size of the
    coefficient arrays), transferOperator (None at the root), the degrees of
    freedom of a leaf, and value[component, k, i] of a leaf. *)
Record ninfo := NI { nid : nat; ksize : nat; transferOp : option dense; ldofs : list nat; value : list dense }.
Inductive hnode := HNode (x : ninfo) (cs : list hnode).
Definition inf (t : hnode) : ninfo := let 'HNode x _ := t in x.
Definition kids (t : hnode) : list hnode := let 'HNode _ cs := t in cs.

(** The arrays of all nodes. *)
Definition heap := nat -> buf Qc.
Definition hset (h : heap) (k : nat) (b : buf Qc) : heap := fun j => if j =? k then b else h j.

Definition getT (x : ninfo) : res dense := match transferOp x with Some T => Ok T | None => Err EType end.
Definition getV (x : ninfo) (comp k i : nat) : res Qc := V <- aget (value x) comp ;; dget V k i.

(** [for c in l], with the body as a parameter so that it may call the function
    that is being defined *)
Section ForEach.
  Context {A St : Type} (f : A -> St -> res St).
  Fixpoint for_each (l : list A) (s : St) : res St :=
    match l with
    | [] => Ok s
    | a :: r => s' <- f a s ;; for_each r s'
    end.
End ForEach.

(** clusterMethodCy.pyx 1108-1117: the sum over the degrees of freedom of a leaf *)
Definition leaf_up (n : ninfo) (x : list Qc) (comp : nat) (c : buf Qc) : res (buf Qc) :=
  c0 <- set0 c ;;
  '(c1, _) <- for_list (ldofs n) (fun dof '(c, k) =>
    temp_x <- aget x dof ;;
    c' <- for_range 0 (length c) (fun i c => v <- getV n comp k i ;; addto c i (temp_x * v)%Qc) c ;;
    Ok (c', S k)) (c0, 0) ;;
  Ok c1.

(** clusterMethodCy.pyx 1093-1122 upwardPass *)
Fixpoint upwardPass (x : list Qc) (comp : nat) (skip_leaves : bool) (t : hnode) (up : heap) : res heap :=
  let 'HNode n cs := t in
  match cs with
  | [] => if skip_leaves then Ok up else c <- leaf_up n x comp (up (nid n)) ;; Ok (hset up (nid n) c)
  | _ =>
    c0 <- set0 (up (nid n)) ;;
    for_each (fun c up =>
      up1 <- upwardPass x comp skip_leaves c up ;;
      T <- getT (inf c) ;;
      xs <- all_init (up1 (nid (inf c))) ;;
      y <- gemv T xs (up1 (nid n)) 1%Qc ;;
      Ok (hset up1 (nid n) y)) cs (hset up (nid n) c0)
  end.

(** clusterMethodCy.pyx 1127-1137 resetCoefficientsDown *)
Fixpoint resetDown (t : hnode) (down : heap) : res heap :=
  let 'HNode n cs := t in
  d <- set0 (down (nid n)) ;;
  for_each resetDown cs (hset down (nid n) d).

(** clusterMethodCy.pyx 1160-1172: the entries of a leaf *)
Definition leaf_down (n : ninfo) (comp : nat) (d : buf Qc) (y : buf Qc) : res (buf Qc) :=
  '(y1, _) <- for_list (ldofs n) (fun dof '(y, k) =>
    val <- for_range 0 (length d) (fun i val => v <- getV n comp k i ;; di <- rd d i ;; Ok (val + v * di)%Qc) 0%Qc ;;
    y' <- addto y dof val ;;
    Ok (y', S k)) (y, 0) ;;
  Ok y1.

(** clusterMethodCy.pyx 1153-1176 downwardPass *)
Fixpoint downwardPass (comp : nat) (t : hnode) (st : heap * buf Qc) : res (heap * buf Qc) :=
  let 'HNode n cs := t in
  match cs with
  | [] => y <- leaf_down n comp (fst st (nid n)) (snd st) ;; Ok (fst st, y)
  | _ =>
    for_each (fun c '(down, y) =>
      T <- getT (inf c) ;;
      xs <- all_init (down (nid n)) ;;
      d <- gemvT T xs (down (nid (inf c))) 1%Qc ;;
      downwardPass comp c (hset down (nid (inf c)) d, y)) cs st
  end.

(** clusterMethodCy.pyx 2075-2080 farFieldClusterPair; the two nodes are nodes of
    the tree *)
Record pair := Pair { p1 : hnode; p2 : hnode; interpolant : dense }.

(** clusterMethodCy.pyx 2095-2096 apply, 2098-2099 applyTrans, as called in 2287-2291
    and 2367-2371 *)
Definition pair_apply (up : heap) (p : pair) (down : heap) : res heap :=
  xs <- all_init (up (nid (inf (p2 p)))) ;;
  d <- gemv (interpolant p) xs (down (nid (inf (p1 p)))) 1%Qc ;;
  Ok (hset down (nid (inf (p1 p))) d).
Definition pair_applyTrans (up : heap) (p : pair) (down : heap) : res heap :=
  xs <- all_init (up (nid (inf (p1 p)))) ;;
  d <- gemvT (interpolant p) xs (down (nid (inf (p2 p)))) 1%Qc ;;
  Ok (hset down (nid (inf (p2 p))) d).

(** clusterMethodCy.pyx 2241-2255 H2Matrix; [Pfar] is a dict from levels to lists
    of pairs.  [basis] is set by constructBasis, which also sets
    skip_leaves_upward; the leaves then share their coefficientsUp with the
    slices of leafCoefficientsUp given here by their offsets. *)
Record h2 := H2 { tree : hnode; Pfar : list (nat * list pair); Anear : csr; basis : option (csr * list (nat * nat * nat)) }.
Definition far (M : h2) : list pair := flat_map snd (Pfar M).

(** next(self.tree.leaves()).value.shape[0], clusterMethodCy.pyx 2282 and 688-696 *)
Fixpoint first_leaf (t : hnode) : ninfo :=
  let 'HNode n cs := t in match cs with [] => n | c :: _ => first_leaf c end.
Definition components (M : h2) : nat := length (value (first_leaf (tree M))).

(** The arrays an H2Matrix works with: both heaps and leafCoefficientsUp. *)
Record work := Work { w_up : heap; w_down : heap; w_leaf : buf Qc }.

(** A write to leafCoefficientsUp is seen by all leaves that share it: (nid,
    offset, size) *)
Definition share (views : list (nat * nat * nat)) (leaf : buf Qc) (up : heap) : heap :=
  fold_left (fun up '(k, off, sz) => hset up k (firstn sz (skipn off leaf))) views up.

(** clusterMethodCy.pyx 2280-2281 / 2360-2361: basis.matvec or matvecTrans *)
Definition leaf_step (M : h2) (trans : bool) (x : list Qc) (w : work) : res work :=
  match basis M with
  | None => Ok w
  | Some (B, views) =>
    lf <- (if trans then csr_matvecTrans false B x (w_leaf w) else csr_matvec false B x (w_leaf w)) ;;
    Ok (Work (share views lf (w_up w)) (w_down w) lf)
  end.

(** clusterMethodCy.pyx 2279-2295, 2311-2323, 2359-2375, 2391-2403 *)
Definition far_part (M : h2) (trans : bool) (x : list Qc) (y : buf Qc) (w : work) : res (buf Qc * work) :=
  match Pfar M with
  | [] => Ok (y, w)
  | _ =>
    w0 <- leaf_step M trans x w ;;
    for_range 0 (components M) (fun comp '(y, w) =>
      up <- upwardPass x comp (match basis M with None => false | Some _ => true end) (tree M) (w_up w) ;;
      down0 <- resetDown (tree M) (w_down w) ;;
      down1 <- for_list (Pfar M) (fun lv => for_list (snd lv) ((if trans then pair_applyTrans else pair_apply) up)) down0 ;;
      '(down2, y') <- downwardPass comp (tree M) (down1, y) ;;
      Ok (y', Work up down2 (w_leaf w))) (y, w0)
  end.

(** clusterMethodCy.pyx 2269-2295 matvec, 2297-2316 matvec_no_overwrite,
    2349-2375 matvecTrans, 2377-2396 matvecTrans_no_overwrite.  nnz is the
    last entry of indptr (CSR_LinearOperator_{SCALAR}.pxi 245-248). *)
Definition nnz (A : csr) : res nat := aget (c_indptr A) (length (c_indptr A) - 1).
Definition h2_matvec (M : h2) (x : list Qc) (y : buf Qc) (w : work) : res (buf Qc * work) :=
  k <- nnz (Anear M) ;;
  y0 <- (if 0 <? k then csr_matvec false (Anear M) x y else set0 y) ;;
  far_part M false x y0 w.
Definition h2_matvec_no_overwrite (M : h2) (x : list Qc) (y : buf Qc) (w : work) : res (buf Qc * work) :=
  y0 <- csr_matvec_no_overwrite false (Anear M) x y ;;
  far_part M false x y0 w.
Definition h2_matvecTrans (M : h2) (x : list Qc) (y : buf Qc) (w : work) : res (buf Qc * work) :=
  k <- nnz (Anear M) ;;
  y0 <- (if 0 <? k then csr_matvecTrans false (Anear M) x y else set0 y) ;;
  far_part M true x y0 w.
Definition h2_matvecTrans_no_overwrite (M : h2) (x : list Qc) (y : buf Qc) (w : work) : res (buf Qc * work) :=
  y0 <- csr_matvecTrans_no_overwrite false (Anear M) x y ;;
  far_part M true x y0 w.

(** * constructBasis *)
(** clusterMethodCy.pyx 1834-1852 constructBasisMatrix: the calls of setEntry go to
    [fst st]; the views are collected in [snd st]. *)
Definition leaf_basis (n : ninfo) (off : nat) (B : ij) : res ij :=
  '(B1, _) <- for_list (ldofs n) (fun dof '(B, k) =>
    B' <- for_range 0 (ksize n) (fun i B => v <- getV n 0 k i ;; Ok (ij_setEntry B (off + i) dof v)) B ;;
    Ok (B', S k)) (B, 0) ;;
  Ok B1.
Fixpoint constructBasisMatrix (t : hnode) (st : ij * list (nat * nat * nat) * nat) : res (ij * list (nat * nat * nat) * nat) :=
  let 'HNode n cs := t in
  match cs with
  | [] =>
    let '(B, views, off) := st in
    B' <- leaf_basis n off B ;;
    Ok (B', views ++ [(nid n, off, ksize n)], off + ksize n)
  | _ => for_each constructBasisMatrix cs st
  end.

(** clusterMethodCy.pyx 688-696 leaves *)
Fixpoint leaves (t : hnode) : list ninfo :=
  let 'HNode n cs := t in match cs with [] => [n] | _ => flat_map leaves cs end.

(** clusterMethodCy.pyx 2257-2264 constructBasis: the new object and its work arrays *)
Definition constructBasis (M : h2) (w : work) : res (h2 * work) :=
  match kids (tree M) with
  | [] => Err EIndex
  | c :: _ =>
    T <- getT (inf c) ;;
    let rows := length (leaves (tree M)) * d_n T in
    '(B, views, _) <- constructBasisMatrix (tree M) (ij_new rows (c_ncols (Anear M)), [], 0) ;;
    Bc <- ij_to_csr B ;;
    Ok (H2 (tree M) (Pfar M) (Anear M) (Some (Bc, views)), Work (w_up w) (w_down w) (alloc rows))
  end.

(** * toarray *)
(** A block is an array with the degrees of freedom that its rows belong to. *)
Definition block := (dense * list nat)%type.
(** clusterMethodCy.pyx: a dict from ids to blocks *)
Definition bdict := nat -> option block.
Definition bset (d : bdict) (k : nat) (b : block) : bdict := fun j => if j =? k then Some b else d j.

(** clusterMethodCy.pyx 282-294 get_num_dofs *)
Fixpoint num_dofs (t : hnode) : nat :=
  let 'HNode n cs := t in match cs with [] => length (ldofs n) | _ => fold_left Nat.add (map num_dofs cs) 0 end.

(** clusterMethodCy.pyx 1812-1817: the rows of a child are appended, times the
    transposed transfer operator; [transfers] has num_dofs rows and [sz] columns *)
Definition append_rows (nd sz : nat) (T : dense) (b : block) (st : buf Qc * buf nat * nat) : res (buf Qc * buf nat * nat) :=
  for_range 0 (length (snd b)) (fun i '(transfers, dofs, k) =>
    dof <- aget (snd b) i ;;
    dofs' <- wr dofs k dof ;;
    transfers' <- for_range 0 sz (fun m tr =>
      for_range 0 (d_m T) (fun j tr =>
        p <- ix nd sz k m ;; a <- dget (fst b) i j ;; t <- dget T m j ;; addto tr p (a * t)%Qc) tr) transfers ;;
    Ok (transfers', dofs', S k)) st.

(** clusterMethodCy.pyx 1794-1818 upwardPassMatrix *)
Fixpoint upwardPassMatrix (t : hnode) (d : bdict) : res bdict :=
  let 'HNode n cs := t in
  match d (nid n) with
  | Some _ => Ok d
  | None =>
    match cs with
    | [] => V <- aget (value n) 0 ;; Ok (bset d (nid n) (V, ldofs n))
    | _ =>
      let nd := num_dofs t in
      '(d1, st) <- for_each (fun c '(d, st) =>
        d1 <- (match d (nid (inf c)) with Some _ => Ok d | None => upwardPassMatrix c d end) ;;
        b <- (match d1 (nid (inf c)) with Some b => Ok b | None => Err EKey end) ;;
        T <- getT (inf c) ;;
        st' <- append_rows nd (ksize n) T b st ;;
        Ok (d1, st')) cs (d, (repeat (Some 0%Qc) (nd * ksize n), alloc nd, 0)) ;;
      tr <- all_init (fst (fst st)) ;;
      dofs <- all_init (snd (fst st)) ;;
      Ok (bset d1 (nid n) (Dense nd (ksize n) tr, dofs))
    end
  end.

(** numpy's product and transpose: (A B^T)[i, j] and (A B)[i, j]; the shapes must agree *)
Definition dot (A B : dense) : res dense :=
  _ <- guard (d_m A =? d_n B) EValue ;;
  vals <- for_range 0 (d_n A) (fun i acc =>
    for_range 0 (d_m B) (fun j acc =>
      s <- for_range 0 (d_m A) (fun k s => a <- dget A i k ;; b <- dget B k j ;; Ok (s + a * b)%Qc) 0%Qc ;;
      Ok (acc ++ [s])) acc) [] ;;
  Ok (Dense (d_n A) (d_m B) vals).
Definition transp (A : dense) : res dense :=
  vals <- for_range 0 (d_m A) (fun i acc => for_range 0 (d_n A) (fun j acc => a <- dget A j i ;; Ok (acc ++ [a])) acc) [] ;;
  Ok (Dense (d_m A) (d_n A) vals).

(** clusterMethodCy.pyx 2584-2596: one pair *)
Definition toarray_pair (N C : nat) (p : pair) (st : bdict * list Qc) : res (bdict * list Qc) :=
  let '(d, arr) := st in
  d1 <- upwardPassMatrix (p1 p) d ;;
  d2 <- upwardPassMatrix (p2 p) d1 ;;
  '(tr1, dofs1) <- (match d2 (nid (inf (p1 p))) with Some b => Ok b | None => Err EKey end) ;;
  '(tr2, dofs2) <- (match d2 (nid (inf (p2 p))) with Some b => Ok b | None => Err EKey end) ;;
  t2 <- transp tr2 ;; kt <- dot (interpolant p) t2 ;; e <- dot tr1 kt ;;
  arr' <- for_range 0 (length dofs1) (fun i arr =>
    row <- aget dofs1 i ;;
    for_range 0 (length dofs2) (fun j arr =>
      col <- aget dofs2 j ;;
      v <- dget e i j ;; q <- ix N C row col ;; aset arr q v) arr) arr ;;
  Ok (d2, arr').

(** clusterMethodCy.pyx 1453-1459 get_max_id *)
Fixpoint max_id (t : hnode) : nat := let 'HNode n cs := t in fold_left Nat.max (map max_id cs) (nid n).

(** clusterMethodCy.pyx 2562-2577: the ids that are dropped after a level; a set is
    given by its test *)
Definition level_ids (P : list (nat * list pair)) (lvl id : nat) : bool :=
  existsb (fun lv => (fst lv =? lvl) && existsb (fun p => (nid (inf (p1 p)) =? id) || (nid (inf (p2 p)) =? id)) (snd lv)) P.
Definition lvlNodes (t : hnode) (P : list (nat * list pair)) (minLvl maxLvl lvl id : nat) : bool :=
  if lvl =? maxLvl then id <=? max_id t
  else existsb (fun l => level_ids P l id) (seq minLvl (S lvl - minLvl)).
Definition delNodes (t : hnode) (P : list (nat * list pair)) (minLvl maxLvl lvl id : nat) : bool :=
  (lvl <? maxLvl) && lvlNodes t P minLvl maxLvl (S lvl) id && negb (lvlNodes t P minLvl maxLvl lvl id).

(** min, max and sorted of the keys of Pfar *)
Definition minl (l : list nat) : nat := match l with [] => 100 | a :: r => fold_left Nat.min r a end.
Definition maxl (l : list nat) : nat := fold_left Nat.max l 0.
Definition sorted_keys (l : list nat) : list nat := filter (fun k => existsb (Nat.eqb k) l) (seq 0 (S (maxl l))).
Definition at_level (P : list (nat * list pair)) (lvl : nat) : list pair :=
  match find (fun lv => fst lv =? lvl) P with Some lv => snd lv | None => [] end.

(** clusterMethodCy.pyx 2552-2601 toarray; [dense] starts as Anear.toarray(), which
    is scipy's *)
Definition h2_toarray (M : h2) (near : list Qc) : res (list Qc) :=
  let N := c_nrows (Anear M) in let C := c_ncols (Anear M) in
  let P := Pfar M in
  let keys := map fst P in
  let lo := minl keys in let hi := maxl keys in
  '(_, arr) <- for_list (rev (sorted_keys keys)) (fun lvl '(d, arr) =>
    '(d1, arr1) <- for_list (at_level P lvl) (toarray_pair N C) (d, arr) ;;
    Ok (fun id => if delNodes (tree M) P lo hi lvl id then None else d1 id, arr1)) (fun _ => None, near) ;;
  Ok arr.
