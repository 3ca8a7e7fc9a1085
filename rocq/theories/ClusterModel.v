(** Model of the cluster tree of nl/PyNucleus_nl/clusterMethodCy.pyx: building
    the tree, the queries on it, splitting a pair of trees into near and far
    field, and trimming.

    Simplifications, used throughout this file.
    - Floating point numbers are exact rationals.
    - An index set (arrayIndexSet, property C05) is the increasing list of its
      members.  [union] below is the operation proved for it there.
    - Distances and diameters are kept as their squares, so no square root is
      needed.  The comparisons of square roots become the comparisons of
      squares [root_lt], [root_le], [le_root], [times_root_ge].
    - The arrays boxes, coords and hVector are total functions.
    - The tree is refined eagerly.  The code refines a leaf when a pair asks
      for its children (attemptRefinement), with the same function, so it
      sees the same tree. *)
From Verif Require Import Util Lin.
Local Open Scope nat_scope.

Definition qle (a b : Qc) : bool := Qle_bool a b.
Definition qlt (a b : Qc) : bool := negb (Qle_bool b a).
Definition qmin (a b : Qc) : Qc := if qle a b then a else b.
Definition qmax (a b : Qc) : Qc := if qle a b then b else a.
Definition two : Qc := (1 + 1)%Qc.
(** 1e-12 *)
Definition tiny : Qc := Q2Qc (1 # 1000000000000).

(** sqrt a < h, sqrt a <= h, h <= sqrt a, for a >= 0 *)
Definition root_lt (a h : Qc) : bool := qlt 0 h && qlt a (h * h).
Definition root_le (a h : Qc) : bool := qle 0 h && qle a (h * h).
Definition le_root (h a : Qc) : bool := qle h 0 || qle (h * h) a.
(** eta * sqrt a >= sqrt b, for a, b >= 0 *)
Definition times_root_ge (eta a b : Qc) : bool :=
  if qle 0 eta then qle b (eta * eta * a) else qle a 0 && qle b 0.

(** ** Boxes: one interval per dimension *)
Definition box := list (Qc * Qc).

(** clusterMethodCy.pyx 33-39 merge_boxes, 42-49 merge_boxes2 *)
Definition merge_boxes (b1 b2 : box) : box :=
  map (fun p => (qmin (fst (fst p)) (fst (snd p)), qmax (snd (fst p)) (snd (snd p)))) (combine b1 b2).

(** clusterMethodCy.pyx 52-59 inBox: half open *)
Definition inBox (b : box) (v : nat -> Qc) : bool :=
  forallb (fun p => qle (fst (snd p)) (v (fst p)) && qlt (v (fst p)) (snd (snd p))) (combine (seq 0 (length b)) b).

(** clusterMethodCy.pyx 121-127 diamBox, squared *)
Definition diam2 (b : box) : Qc := suml (map (fun p => ((snd p - fst p) * (snd p - fst p))%Qc) b).

(** interactionDomains.pyx 311-323 distBoxes, squared *)
Definition dist1 (p q : Qc * Qc) : Qc :=
  if qlt (fst q) (fst p) then qmax (fst p - snd q) 0 else qmax (fst q - snd p) 0.
Definition dist2 (b1 b2 : box) : Qc := suml (map (fun p => (dist1 (fst p) (snd p) * dist1 (fst p) (snd p))%Qc) (combine b1 b2)).

(** interactionDomains.pyx 325-337 maxDistBoxes, squared *)
Definition maxDist1 (p q : Qc * Qc) : Qc :=
  if qlt (fst q) (fst p) then qmax (snd p - fst q) 0 else qmax (snd q - fst p) 0.
Definition maxDist2 (b1 b2 : box) : Qc := suml (map (fun p => (maxDist1 (fst p) (snd p) * maxDist1 (fst p) (snd p))%Qc) (combine b1 b2)).

(** ** Parameters and data *)
(** clusterMethodCy.pxd refinementType, refinementParams; [farFieldInteractionSize],
    [interpolation_order], [targetOrder], [meshDiam], [maxSingularity] only enter
    through [orderOf] below. *)
Inductive refinementType := GEOMETRIC | BARYCENTER | MEDIAN.
Record refinementParams := RP {
  maxLevels : nat; maxLevelsMixed : nat; minSize : nat; minMixedSize : nat;
  refType : refinementType; splitEveryDim : bool; eta : Qc }.

(** The arrays of a DoFMap, numpy's median, and the interpolation order as a
    function of the smallest mesh size (clusterMethodCy.pyx 199-204: a constant
    or a decreasing function with a logarithm). *)
Record data := Data {
  boxes : nat -> box; coords : nat -> nat -> Qc; hVector : nat -> Qc;
  median : list Qc -> Qc; orderOf : Qc -> nat }.

(** ** Nodes, clusterMethodCy.pyx 130-175 *)
Record info := Info {
  id : Z; levelNo : nat; mixed : bool; canBeAssembled : bool;
  nbox : box; hmin : Qc; order : nat }.
Inductive tree := Tree (x : info) (own : list nat) (cs : list tree).
Definition info_of (t : tree) : info := let 'Tree x _ _ := t in x.
Definition children (t : tree) : list tree := let 'Tree _ _ cs := t in cs.
(** clusterMethodCy.pyx 680-686 *)
Definition is_leaf (t : tree) : bool := match children t with [] => true | _ => false end.

(** Union of increasing lists, indexSet.pyx arrayIndexSet.union (C05) *)
Fixpoint insert (i : nat) (l : list nat) : list nat :=
  match l with
  | [] => [i]
  | j :: r => if i <? j then i :: l else if i =? j then l else j :: insert i r
  end.
Definition union (a b : list nat) : list nat := fold_right insert b a.

(** clusterMethodCy.pyx 249-260 get_dofs *)
Fixpoint get_dofs (t : tree) : list nat :=
  match t with
  | Tree _ own [] => own
  | Tree _ _ cs => fold_left union (map get_dofs cs) []
  end.

(** clusterMethodCy.pyx 282-294 get_num_dofs *)
Fixpoint get_num_dofs (t : tree) : nat :=
  match t with
  | Tree _ own [] => length own
  | Tree _ _ cs => fold_left Nat.add (map get_num_dofs cs) 0
  end.

(** clusterMethodCy.pyx 177-197 init: the box starts at (inf, -inf), so the
    first degree of freedom determines it.  The box and mesh size of an empty
    cluster (inf in the code) are given as [] and 0; the theorems only speak
    about clusters that are not empty. *)
Definition init_box (D : data) (dofs : list nat) : box :=
  match dofs with
  | [] => []
  | d :: r => fold_left (fun b i => merge_boxes b (boxes D i)) r (boxes D d)
  end.
Definition init_hmin (D : data) (dofs : list nat) : Qc :=
  match dofs with
  | [] => 0%Qc
  | d :: r => fold_left (fun h i => qmin h (hVector D i)) r (hVector D d)
  end.

(** clusterMethodCy.pyx 131-206, parent = None *)
Definition root_info (D : data) (mx : bool) (dofs : list nat) : info :=
  Info 0 0 mx true (init_box D dofs) (init_hmin D dofs) (orderOf D (init_hmin D dofs)).

(** clusterMethodCy.pyx 131-206, with a parent; the caller sets the id
    afterwards. *)
Definition new_node (D : data) (parent : info) (dofs : list nat) (mx can : bool) : res info :=
  let o := orderOf D (init_hmin D dofs) in
  _ <- guard (negb (canBeAssembled parent) || (o <=? order parent)) EAssert ;;
  Ok (Info 0 (S (levelNo parent)) mx can (init_box D dofs) (init_hmin D dofs) o).
Definition with_id (z : Z) (x : info) : info :=
  Info z (levelNo x) (mixed x) (canBeAssembled x) (nbox x) (hmin x) (order x).

(** ** Refinement of a node, clusterMethodCy.pyx 354-663 *)
(** 434-438 and the like: the id of child k, b = maxNumChildren, R = numRootChildren *)
Definition child_id (b R : Z) (x : info) (k : nat) : Z :=
  match levelNo x with
  | O => Z.of_nat k + 1
  | S l => let lvlID := id x - (R * (b ^ Z.of_nat l - 1) / (b - 1) + 1) in
           R * (b ^ Z.of_nat (S l) - 1) / (b - 1) + 1 + b * lvlID + Z.of_nat k
  end%Z.

Definition part := (info * list nat)%type.
(** num_dofs >= minSize and num_dofs < num_initial_dofs *)
Definition enough (P : refinementParams) (num : nat) (s : list nat) : bool :=
  (minSize P <=? length s) && (length s <? num).

(** children[k].id = z *)
Definition set_child_id (ch : list part) (k : nat) (z : Z) : res (list part) :=
  match nth_error ch k with
  | Some (x, s) => Ok (upd ch k (with_id z x, s))
  | None => Err EIndex
  end.
(** 433-438: children.append(tree_node(...)); children[k].id = ... *)
Definition append_child (D : data) (b R : Z) (x : info) (ch : list part) (k : nat) (s : list nat) : res (list part) :=
  c <- new_node D x s (mixed x) true ;;
  set_child_id (ch ++ [(c, s)]) k (child_id b R x k).

(** 429-455 and 622-648: two children *)
Definition two_children (D : data) (P : refinementParams) (R : Z) (x : info) (num : nat) (s0 s1 : list nat) : res (option (list part)) :=
  if enough P num s0 then
    ch <- append_child D 2 R x [] 0 s0 ;;
    if enough P num s1 then
      ch <- append_child D 2 R x ch 1 s1 ;;
      Ok (Some ch)
    else Ok None
  else Ok None.

(** mean of the coordinates, 398-405, 466-475 *)
Definition mean (l : list Qc) : Qc := (suml l / Q2Qc (inject_Z (Z.of_nat (length l))))%Qc.
Definition middle (p : Qc * Qc) : Qc := ((fst p + snd p) / two)%Qc.
Definition side (b : box) (k : nat) : Qc * Qc := nth k b (0%Qc, 0%Qc).

(** 391-427: dimension one *)
Definition split1 (D : data) (P : refinementParams) (x : info) (dofs : list nat) : list nat * list nat :=
  let m0 := match refType P with
            | GEOMETRIC => middle (side (nbox x) 0)
            | BARYCENTER => mean (map (fun i => coords D i 0) dofs)
            | MEDIAN => median D (map (fun i => coords D i 0) dofs)
            end in
  let sub := [(fst (side (nbox x) 0), m0)] in
  (filter (fun i => inBox sub (coords D i)) dofs, filter (fun i => negb (inBox sub (coords D i))) dofs).

(** 586-591: the first longest side *)
Definition longest (b : box) : nat :=
  fst (fold_left (fun st i => let w := (snd (side b i) - fst (side b i))%Qc in
                              if qlt (snd st) w then (i, w) else st)
         (seq 1 (length b - 1)) (0, (snd (side b 0) - fst (side b 0))%Qc)).

(** 580-620: split along the longest side *)
Definition split_longest (D : data) (P : refinementParams) (x : info) (dofs : list nat) : list nat * list nat :=
  let j := longest (nbox x) in
  let wide := map (fun p => ((fst p - tiny)%Qc, (snd p + tiny)%Qc)) (nbox x) in
  let sub := match refType P with
             | GEOMETRIC => upd wide j (fst (side wide j), middle (side (nbox x) j))
             | MEDIAN => upd wide j (fst (side wide j), median D (map (fun i => coords D i j) dofs))
             | BARYCENTER => wide
             end in
  (filter (fun i => inBox sub (coords D i)) dofs, filter (fun i => negb (inBox sub (coords D i))) dofs).

(** 456-513: quadrants; [None]: the function has returned *)
Definition quadrant (D : data) (sp0 sp1 : Qc) (i : nat) : nat :=
  (if qlt sp0 (coords D i 0) then 1 else 0) + (if qlt sp1 (coords D i 1) then 2 else 0).
Definition quad_step (D : data) (P : refinementParams) (R : Z) (x : info) (num : nat) (ks : nat * list nat) (st : option (list part)) : res (option (list part)) :=
  match st with
  | None => Ok None
  | Some ch =>
      if enough P num (snd ks) then ch <- append_child D 4 R x ch (fst ks) (snd ks) ;; Ok (Some ch)
      else if length (snd ks) =? 0 then Ok (Some ch) else Ok None
  end.
Definition quadrants (D : data) (P : refinementParams) (R : Z) (x : info) (dofs : list nat) : res (option (list part)) :=
  let c0 := map (fun i => coords D i 0) dofs in
  let c1 := map (fun i => coords D i 1) dofs in
  let '(sp0, sp1) := match refType P with
                     | GEOMETRIC => (middle (side (nbox x) 0), middle (side (nbox x) 1))
                     | BARYCENTER => (mean c0, mean c1)
                     | MEDIAN => (median D c0, median D c1)
                     end in
  for_list (map (fun k => (k, filter (fun i => quadrant D sp0 sp1 i =? k) dofs)) (seq 0 4))
    (quad_step D P R x (length dofs)) (Some []).

(** 514-579: nested medians *)
Definition median_half (D : data) (P : refinementParams) (R : Z) (x : info) (num p : nat) (blob : list nat) (st : option (list part)) : res (option (list part)) :=
  let m1 := median D (map (fun i => coords D i 1) blob) in
  let s0 := filter (fun i => qlt (coords D i 1) m1) blob in
  let s1 := filter (fun i => negb (qlt (coords D i 1) m1)) blob in
  st <- quad_step D P R x num (p * 2 + 0, s0) st ;;
  match st with
  | None => Ok None
  | Some ch => if enough P num s1 then ch <- append_child D 4 R x ch (p * 2 + 1) s1 ;; Ok (Some ch) else Ok None
  end.
Definition medians (D : data) (P : refinementParams) (R : Z) (x : info) (dofs : list nat) : res (option (list part)) :=
  let m0 := median D (map (fun i => coords D i 0) dofs) in
  st <- median_half D P R x (length dofs) 0 (filter (fun i => qlt (coords D i 0) m0) dofs) (Some []) ;;
  median_half D P R x (length dofs) 1 (filter (fun i => qle m0 (coords D i 0)) dofs) st.

(** 354-663 with recursive=False: the new children, [] if the node stays a leaf *)
Definition refine (D : data) (P : refinementParams) (R : Z) (x : info) (dofs : list nat) : res (list part) :=
  let num := length dofs in
  let stop := if mixed x then (maxLevelsMixed P <=? levelNo x + 1) || (num <=? minMixedSize P)
              else (maxLevels P <=? levelNo x + 1) || (num <=? minSize P) in
  if stop then Ok [] else
  let dim := length (nbox x) in
  st <- (if dim =? 1 then let '(s0, s1) := split1 D P x dofs in two_children D P R x num s0 s1
         else if (dim =? 2) && (negb (mixed x) && splitEveryDim P) then
           match refType P with MEDIAN => medians D P R x dofs | _ => quadrants D P R x dofs end
         else let '(s0, s1) := split_longest D P x dofs in two_children D P R x num s0 s1) ;;
  match st with
  | None => Ok []
  | Some ch =>
      if length ch <=? 1 then Ok [] else
      let nD := fold_left Nat.add (map (fun c => length (snd c)) ch) 0 in
      _ <- guard ((nD =? 0) || (nD =? num)) EAssert ;;
      _ <- guard (nD =? num) EAssert ;;
      Ok ch
  end.

Section MapM.
  Context {A B : Type} (f : A -> res B).
  Fixpoint mapM (l : list A) : res (list B) :=
    match l with
    | [] => Ok []
    | a :: r => b <- f a ;; bs <- mapM r ;; Ok (b :: bs)
    end.
End MapM.

(** 354-663 with recursive=True.  [R]: 337-352 get_num_root_children, the
    number of children of the root (irregularLevelsOffset at most one). *)
Fixpoint refine_tree (fuel : nat) (D : data) (P : refinementParams) (R : Z) (x : info) (dofs : list nat) : res tree :=
  match fuel with
  | O => Err EFuel
  | S f =>
      ch <- refine D P R x dofs ;;
      match ch with
      | [] => Ok (Tree x dofs [])
      | _ => let R' := if levelNo x =? 0 then Z.of_nat (length ch) else R in
             ts <- mapM (fun c => refine_tree f D P R' (fst c) (snd c)) ch ;;
             Ok (Tree x [] ts)
      end
  end.

(** ** The root and its first level *)
(** A root that gets its children from a list of blocks (degrees of freedom
    and mixed flag), with ids 1, 2, ...: clusterMethodCy.pyx 1888-1894
    (partition between ranks) and nonlocalAssembly_{SCALAR}.pxi 2626-2642
    (jumps of a variable kernel; the blocks that meet the cluster). *)
Fixpoint block_children (D : data) (root : info) (can : bool) (k : nat) (bl : list (list nat * bool)) : res (list part) :=
  match bl with
  | [] => Ok []
  | (s, mx) :: r =>
      c <- new_node D root s mx can ;;
      cs <- block_children D root can (S k) r ;;
      Ok ((with_id (Z.of_nat k + 1) c, s) :: cs)
  end.
Definition block_tree (fuel : nat) (D : data) (P : refinementParams) (dofs : list nat) (mx can : bool) (bl : list (list nat * bool)) : res tree :=
  let root := root_info D mx dofs in
  ch <- block_children D root can 0 bl ;;
  _ <- guard (fold_left Nat.add (map (fun c => length (snd c)) ch) 0 =? length dofs) EAssert ;;
  match ch with
  | [] => Ok (Tree root dofs [])
  | _ => ts <- mapM (fun c => refine_tree fuel D P (Z.of_nat (length bl)) (fst c) (snd c)) ch ;;
         Ok (Tree root [] ts)
  end.

(** clusterMethodCy.pyx 1879-1891 partition: the tests on the vector [prt] of
    ranks and the sets of the children; np.unique as number of distinct entries *)
Definition partition_blocks (prt : list nat) (num size : nat) (mx : bool) : res (list (list nat * bool)) :=
  _ <- guard (length prt =? num) EValue ;;
  _ <- guard (existsb (Nat.eqb 0) prt) EValue ;;
  _ <- guard (fold_left Nat.max prt 0 =? size - 1) EValue ;;
  _ <- guard (length (nodup Nat.eq_dec prt) =? size) EValue ;;
  Ok (map (fun p => (filter (fun i => nth i prt 0 =? p) (seq 0 (length prt)), mx)) (seq 0 size)).

(** ** Queries *)
(** clusterMethodCy.pyx 688-696 *)
Fixpoint leaves (t : tree) : list tree :=
  match t with
  | Tree _ _ [] => [t]
  | Tree _ _ cs => flat_map leaves cs
  end.
(** 698-704 *)
Fixpoint get_tree_nodes (t : tree) : list tree :=
  match t with Tree _ _ cs => t :: flat_map get_tree_nodes cs end.
(** 706-713 *)
Fixpoint get_tree_nodes_up_to_level (l : nat) (t : tree) : list tree :=
  t :: match l with O => [] | S k => flat_map (get_tree_nodes_up_to_level k) (children t) end.
(** 715-723 *)
Definition get_tree_nodes_on_level (l : nat) (t : tree) : list tree :=
  match l with O => [t] | S k => flat_map (get_tree_nodes_up_to_level k) (children t) end.
(** 725-735 *)
Fixpoint getLevels (t : tree) : nat :=
  match t with
  | Tree _ _ [] => 1
  | Tree _ _ cs => 1 + fold_left (fun l n => Nat.max l n) (map getLevels cs) 0
  end.
(** 742-751; below level 0 nothing is counted, so the level is an integer *)
Fixpoint getNumNodesOnLevel (l : Z) (t : tree) : nat :=
  match t with Tree _ _ cs =>
    fold_left Nat.add (map (getNumNodesOnLevel (l - 1)) cs) (if Z.eqb l 0 then 1 else 0) end.
(** 753-762 *)
Fixpoint getNumLeavesOnLevel (l : Z) (t : tree) : nat :=
  match t with Tree _ _ cs =>
    fold_left Nat.add (map (getNumLeavesOnLevel (l - 1)) cs)
      (if Z.eqb l 0 && match cs with [] => true | _ => false end then 1 else 0) end.
(** 1445-1451 *)
Fixpoint set_id (maxID : Z) (t : tree) : Z * tree :=
  match t with Tree x own cs =>
    let '(m, cs') := (fix go (m : Z) (l : list tree) : Z * list tree :=
                        match l with
                        | [] => (m, [])
                        | c :: r => let '(m1, c') := set_id m c in let '(m2, r') := go m1 r in (m2, c' :: r')
                        end) (maxID + 1)%Z cs in
    (m, Tree (with_id maxID x) own cs')
  end.
(** 1453-1459 *)
Fixpoint get_max_id (t : tree) : Z :=
  match t with Tree x _ cs => fold_left Z.max (map get_max_id cs) (id x) end.
(** 665-678; the bit array (C06) is the list of the ids entered *)
Fixpoint idsAreUnique (used : list Z) (t : tree) : bool * list Z :=
  match t with Tree x _ cs =>
    let '(u, used) := fold_left (fun st c => let '(b, us) := idsAreUnique (snd st) c in (fst st && b, us)) cs (true, used) in
    if existsb (Z.eqb (id x)) used then (false, used) else (u, id x :: used)
  end.

(** ** Near and far field *)
(** The kernel: dimension, horizon (None: infinite), complement *)
Record kernel := Kernel { kdim : nat; horizon : option Qc; complement : bool }.
Inductive admissibilityType := ZERO | ADMISSIBLE | INADMISSIBLE.

(** (interpolation_order * interpolation_order)**dim *)
Definition farSize (K : kernel) (n1 n2 : tree) : nat := (order (info_of n1) * order (info_of n2)) ^ kdim K.
(** clusterMethodCy.pyx 4035-4038, 4062-4068 *)
Definition seemsAdmissible (K : kernel) (P : refinementParams) (n1 n2 : tree) : bool :=
  let b1 := nbox (info_of n1) in
  let b2 := nbox (info_of n2) in
  times_root_ge (eta P) (dist2 b1 b2) (qmax (diam2 b1) (diam2 b2))
  && negb (mixed (info_of n1)) && negb (mixed (info_of n2))
  && (farSize K n1 n2 <=? get_num_dofs n1 * get_num_dofs n2)
  && canBeAssembled (info_of n1) && canBeAssembled (info_of n2).

(** 4019-4033, 4074-4085: the pair has no interaction / the horizon cuts it *)
Definition zero_pair (K : kernel) (b1 b2 : box) : bool :=
  match horizon K with
  | None => false
  | Some h => if complement K then root_le (maxDist2 b1 b2) h else negb (root_le (dist2 b1 b2) h)
  end.
Definition cut_pair (K : kernel) (b1 b2 : box) : bool :=
  match horizon K with
  | None => false
  | Some h => root_le (dist2 b1 b2) h && le_root h (maxDist2 b1 b2)
  end.

(** 4008-4043 queryAdmissibility *)
Definition queryAdmissibility (K : kernel) (P : refinementParams) (n1 n2 : tree) : admissibilityType :=
  let b1 := nbox (info_of n1) in
  let b2 := nbox (info_of n2) in
  if zero_pair K b1 b2 then ZERO
  else if cut_pair K b1 b2 then INADMISSIBLE
  else if seemsAdmissible K P n1 n2 then ADMISSIBLE else INADMISSIBLE.

Definition cpair := (tree * tree)%type.
(** Pfar: level -> pairs, in the order of insertion; Pnear *)
Record pairs := Pairs { Pfar : list (nat * list cpair); Pnear : list cpair }.
(** 4091-4095 *)
Fixpoint far_append (level : nat) (cp : cpair) (d : list (nat * list cpair)) : list (nat * list cpair) :=
  match d with
  | [] => [(level, [cp])]
  | (l, cps) :: r => if l =? level then (l, cps ++ [cp]) :: r else (l, cps) :: far_append level cp r
  end.
(** 4086-4088 boxUnion and diamUnion < horizonValue; for an infinite horizon
    diamUnion is 0 and the horizon inf *)
Definition union_within (K : kernel) (b1 b2 : box) : bool :=
  match horizon K with None => true | Some h => root_lt (diam2 (merge_boxes b1 b2)) h end.
(** 4116-4131: the pairs of the recursion *)
Definition pairs_below (n1 n2 : tree) : list cpair :=
  if is_leaf n1 then map (fun t2 => (n1, t2)) (children n2)
  else if is_leaf n2 then map (fun t1 => (t1, n2)) (children n1)
  else flat_map (fun t1 => map (fun t2 => (t1, t2)) (children n2)) (children n1).

(** 4046-4136 getAdmissibleClusters *)
Fixpoint getAdmissibleClusters (fuel : nat) (K : kernel) (P : refinementParams) (n1 n2 : tree) (level : nat) (st : pairs) : res (bool * pairs) :=
  match fuel with
  | O => Err EFuel
  | S f =>
      let b1 := nbox (info_of n1) in
      let b2 := nbox (info_of n2) in
      if zero_pair K b1 b2 then Ok (true, st)
      else if negb (cut_pair K b1 b2) && seemsAdmissible K P n1 n2 then
        Ok (true, Pairs (far_append level (n1, n2) (Pfar st)) (Pnear st))
      else if (is_leaf n1 && is_leaf n2) || (level =? maxLevels P) then
        Ok (false, Pairs (Pfar st) (Pnear st ++ [(n1, n2)]))
      else if (get_num_dofs n1 * get_num_dofs n2 <? farSize K n1 n2) && union_within K b1 b2 then
        Ok (false, Pairs (Pfar st) (Pnear st ++ [(n1, n2)]))
      else
        r <- for_list (pairs_below n1 n2) (fun cp s =>
               q <- getAdmissibleClusters f K P (fst cp) (snd cp) (S level) (snd s) ;;
               Ok (fst s || fst q, snd q)) (false, st) ;;
        if negb (fst r) && union_within K b1 b2 then
          Ok (false, Pairs (Pfar (snd r)) (firstn (length (Pnear st)) (Pnear (snd r)) ++ [(n1, n2)]))
        else Ok r
  end.

(** 4139-4194 getCoveringClusters (the returned flag is not used by anyone);
    for an infinite horizon every pair is within it *)
Fixpoint getCoveringClusters (fuel : nat) (K : kernel) (P : refinementParams) (n1 n2 : tree) (level : nat) (near : list cpair) : res (list cpair) :=
  match fuel with
  | O => Err EFuel
  | S f =>
      let b1 := nbox (info_of n1) in
      let b2 := nbox (info_of n2) in
      let beyond := match horizon K with None => false | Some h => negb (root_le (dist2 b1 b2) h) end in
      let within := match horizon K with None => true | Some h => root_le (maxDist2 b1 b2) h end in
      if beyond || (get_num_dofs n1 =? 0) || (get_num_dofs n2 =? 0) then Ok near
      else if within then Ok (near ++ [(n1, n2)])
      else if (is_leaf n1 && is_leaf n2) || (level =? maxLevels P) then Ok (near ++ [(n1, n2)])
      else for_list (pairs_below n1 n2) (fun cp s => getCoveringClusters f K P (fst cp) (snd cp) (S level) s) near
  end.

(** ** Trimming, clusterMethodCy.pyx 1461-1490 *)
(** Result: is the node unused (delNode), and the trimmed node.  The cached
    number of degrees of freedom is that of the node before trimming. *)
Fixpoint trim (keep : Z -> bool) (t : tree) : res (bool * tree) :=
  match t with Tree x own cs =>
    rs <- mapM (trim keep) cs ;;
    let delNode := negb (keep (id x)) && forallb fst rs in
    let newChildren := filter (fun r => negb (fst r)) rs in
    let t' := Tree x own (map snd rs) in
    match cs, newChildren with
    | [], _ => Ok (delNode, t')
    | _, [] =>
        _ <- guard (get_num_dofs t =? length (get_dofs t')) EAssert ;;
        Ok (delNode, Tree x (get_dofs t') [])
    | _, _ =>
        if forallb fst rs then
          let t2 := Tree x own (flat_map children (map snd rs)) in
          _ <- guard (get_num_dofs t =? length (get_dofs t2)) EAssert ;;
          Ok (delNode, t2)
        else Ok (delNode, t')
    end
  end.

(** 4218-4239 trimTree on one process: the ids that are kept, and the trimming *)
Definition used_ids (P : pairs) (keep : list tree) (t : tree) : list Z :=
  map (fun n => id (info_of n)) keep
  ++ flat_map (fun cp => [id (info_of (fst cp)); id (info_of (snd cp))]) (Pnear P)
  ++ flat_map (fun l => flat_map (fun cp => [id (info_of (fst cp)); id (info_of (snd cp))]) (snd l)) (Pfar P)
  ++ map (fun n => id (info_of n)) (get_tree_nodes_up_to_level 1 t).
Definition trimTree (t : tree) (P : pairs) (keep : list tree) : res tree :=
  r <- trim (fun z => existsb (Z.eqb z) (used_ids P keep t)) t ;; Ok (snd r).

(** ** Symmetrizing the near field, clusterMethodCy.pyx 4197-4215 *)
(** 4203-4208: the set of pairs of ids; [lookup]: the last node with an id wins *)
Definition pair_ids (cp : cpair) : Z * Z := (id (info_of (fst cp)), id (info_of (snd cp))).
Definition same_pair (p q : Z * Z) : bool := ((fst p =? fst q) && (snd p =? snd q))%Z.
Definition set_add (c : list (Z * Z)) (p : Z * Z) : list (Z * Z) := if existsb (same_pair p) c then c else c ++ [p].
Definition pair_set (near : list cpair) : list (Z * Z) := fold_left set_add (map pair_ids near) [].
Definition lookup (near : list cpair) (z : Z) : res tree :=
  match find (fun n => (id (info_of n) =? z)%Z) (rev (flat_map (fun cp => [fst cp; snd cp]) near)) with
  | Some n => Ok n
  | None => Err EKey
  end.
(** 4209-4215: the loop; [pick] is the choice of set.pop *)
Fixpoint symmetrize_loop (fuel : nat) (pick : list (Z * Z) -> nat) (near : list cpair) (c : list (Z * Z)) (out : list cpair) : res (list cpair) :=
  match fuel with
  | O => Err EFuel
  | S f =>
      match c with
      | [] => Ok out
      | p0 :: _ =>
          let p := nth (pick c mod length c) c p0 in
          let c' := filter (fun q => negb (same_pair p q)) c in
          if (fst p =? snd p)%Z then symmetrize_loop f pick near c' out
          else
            let s := (snd p, fst p) in
            if existsb (same_pair s) c' then symmetrize_loop f pick near (filter (fun q => negb (same_pair s q)) c') out
            else n2 <- lookup near (snd p) ;; n1 <- lookup near (fst p) ;;
                 symmetrize_loop f pick near c' (out ++ [(n2, n1)])
      end
  end.
Definition symmetrizeNearFieldClusters (pick : list (Z * Z) -> nat) (near : list cpair) : res (list cpair) :=
  symmetrize_loop (S (length (pair_set near))) pick near (pair_set near) near.
