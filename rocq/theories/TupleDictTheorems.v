(** Property theorems C01-C04 (edge dictionaries). Proofs are in TupleDictProofs*.v.

    All of them are stated for an arbitrary value type [V] with combination
    [bor], an arbitrary marker [invalid] and an arbitrary range [W] of the row
    length field ([W = 256] for the INDEX dictionary, [W = 65536] for the MASK
    dictionary). *)
From Coq Require Import Sorted.
From Verif Require Import Util TupleDictModel TupleDictSpec TupleDictProofs TupleDictProofs2 TupleDictProofs3 TupleDictProofs4.

(** C01. Every history of enterValue / removeValue / getValue calls on a new
    dictionary, in any of the three modes, used within its limits, completes
    and gives call by call the answers of a finite map from pairs to values;
    afterwards every look-up gives the map's answer and the reported number of
    entries is the number of keys of the map. *)
Theorem C01_dictionary_is_a_finite_map :
  forall (V : Type) (bor : V -> V -> V) (invalid : V) (W nd i0 inc : nat) (del orh : bool) (ops : list (op V)),
    within_limits bor invalid W nd i0 inc (mode_of del orh) ops ->
    exists d,
      run V bor invalid W (td_init V nd i0 inc del orh) ops
        = Ok (d, snd (spec_run bor invalid (mode_of del orh) amap_empty ops)) /\
      (forall I J, I < nd ->
         getValue V invalid W d I J = Ok (spec_get invalid (fst (spec_run bor invalid (mode_of del orh) amap_empty ops)) I J)) /\
      (0 <= nnz d)%Z /\
      card_eq (fst (spec_run bor invalid (mode_of del orh) amap_empty ops)) (Z.to_nat (nnz d)).
Proof. exact refines_map. Qed.
Print Assumptions C01_dictionary_is_a_finite_map.

(** C02. After any sequence of enterValue calls the enumerated contents are,
    in increasing order of keys: in toggle mode, the keys entered an odd number
    of times with the value of the last call; in or-mode, the keys entered with
    the disjunction of their values; otherwise the keys entered with the value
    of the first call. *)
Theorem C02_modes_of_repeated_entry :
  forall (V : Type) (bor : V -> V -> V) (invalid : V) (W nd i0 inc : nat) (del orh : bool) (es : list (nat * Z * V)),
    0 < inc -> i0 < W ->
    (forall e, In e es -> fst (fst e) < nd) ->
    (forall I, distinct_in_row I es <= max_row W i0 inc) ->
    exists d outs l,
      run V bor invalid W (td_init V nd i0 inc del orh) (map enter_of es) = Ok (d, outs) /\
      toDict V d = Ok l /\
      StronglySorted key_lt (map fst l) /\
      (forall I J v, In (I, J, v) l <->
         if del then exists pre, values_of I J es = pre ++ [v] /\ Nat.even (length pre) = true
         else if orh then exists w t, values_of I J es = w :: t /\ v = fold_left bor t w
         else exists t, values_of I J es = v :: t).
Proof. exact enters_enumerate. Qed.
Print Assumptions C02_modes_of_repeated_entry.

(** C03 (full statement): any history of calls with row index in range on a
    dictionary created with the default options completes. It is false: the
    row length is an 8-bit field, and entering 256 keys in a row makes the
    reallocation shrink the row and the write leave the buffer. *)
Theorem C03_row_capacity_refuted :
  exists ops : list (op Z),
    (forall o, In o ops -> op_row o < 1) /\ length ops = 256 /\
    run Z Z.lor 2147483647%Z 256 (td_init Z 1 0 3 true false) ops = Err EOob.
Proof. exact row_capacity_witness. Qed.
Print Assumptions C03_row_capacity_refuted.

(** C03, what does hold: with the default options (8-bit length, initial
    length 0, increment 3) any history of calls never holding more than 255
    keys in a row completes. *)
Theorem C03_row_capacity_partial :
  forall (invalid : Z) (nd : nat) (del orh : bool) (ops : list (op Z)),
    (forall o, In o ops -> op_row o < nd) ->
    (forall p q, ops = p ++ q -> forall I,
       row_card_le (fst (spec_run Z.lor invalid (mode_of del orh) amap_empty p)) I 255) ->
    exists d outs, run Z Z.lor invalid 256 (td_init Z nd 0 3 del orh) ops = Ok (d, outs).
Proof. exact row_capacity_255. Qed.
Print Assumptions C03_row_capacity_partial.

(** C04. Enumeration lists exactly the map, each key once, in increasing order;
    getData gives the second indices and the values in the same order. *)
Theorem C04_enumeration :
  forall (V : Type) (bor : V -> V -> V) (invalid : V) (W nd i0 inc : nat) (del orh : bool) (ops : list (op V)),
    within_limits bor invalid W nd i0 inc (mode_of del orh) ops ->
    exists d outs l,
      run V bor invalid W (td_init V nd i0 inc del orh) ops = Ok (d, outs) /\
      toDict V d = Ok l /\
      StronglySorted key_lt (map fst l) /\
      (forall I J v, In (I, J, v) l <-> fst (spec_run bor invalid (mode_of del orh) amap_empty ops) I J = Some v) /\
      getData V d = Ok (map (fun e => Some (snd (fst e))) l, map (fun e => Some (snd e)) l).
Proof. exact enumerates. Qed.
Print Assumptions C04_enumeration.

(** C04. A pickled and restored dictionary enumerates the same contents and
    answers every further history as the original map does, in the same mode
    (the restored rows are allocated to their fill, so the capacity of a row
    is counted from there). *)
Theorem C04_pickling :
  forall (V : Type) (bor : V -> V -> V) (invalid : V) (W nd i0 inc : nat) (del orh : bool) (ops ops2 : list (op V)),
    within_limits bor invalid W nd i0 inc (mode_of del orh) ops ->
    (forall o, In o ops2 -> op_row o < nd) ->
    (forall p q, ops2 = p ++ q -> forall I n,
        row_card_eq (fst (spec_run bor invalid (mode_of del orh) amap_empty ops)) I n ->
        row_card_le (fst (spec_run bor invalid (mode_of del orh)
           (fst (spec_run bor invalid (mode_of del orh) amap_empty ops)) p)) I (max_row W n inc)) ->
    exists d outs st d2 d3,
      run V bor invalid W (td_init V nd i0 inc del orh) ops = Ok (d, outs) /\
      getstate V d = Ok st /\ setstate V st = Ok d2 /\
      toDict V d2 = toDict V d /\
      run V bor invalid W d2 ops2
        = Ok (d3, snd (spec_run bor invalid (mode_of del orh)
                    (fst (spec_run bor invalid (mode_of del orh) amap_empty ops)) ops2)).
Proof. exact pickles. Qed.
Print Assumptions C04_pickling.

(** C04. Merging a second dictionary, directly or from its transmitted data,
    leaves the dictionary as if every entry of the second one had been entered
    in increasing order of keys. *)
Theorem C04_merging :
  forall (V : Type) (bor : V -> V -> V) (invalid : V) (W nd i0 inc : nat) (del orh : bool) (ops : list (op V))
         (i0' inc' : nat) (del' orh' : bool) (ops' : list (op V)) (l' : list (nat * Z * V)),
    within_limits bor invalid W nd i0' inc' (mode_of del' orh') ops' ->
    StronglySorted key_lt (map fst l') ->
    (forall I J v, In (I, J, v) l' <-> fst (spec_run bor invalid (mode_of del' orh') amap_empty ops') I J = Some v) ->
    within_limits bor invalid W nd i0 inc (mode_of del orh) (ops ++ map enter_of l') ->
    exists d other dm outs outs',
      run V bor invalid W (td_init V nd i0 inc del orh) ops = Ok (d, outs) /\
      run V bor invalid W (td_init V nd i0' inc' del' orh') ops' = Ok (other, outs') /\
      merge V bor W d other = Ok dm /\
      (forall iL vs, getData V other = Ok (iL, vs) -> mergeData V bor W d (counts other) iL vs = Ok dm) /\
      forall I J, I < nd -> getValue V invalid W dm I J
        = Ok (spec_get invalid (fst (spec_run bor invalid (mode_of del orh) amap_empty (ops ++ map enter_of l'))) I J).
Proof. exact merges. Qed.
Print Assumptions C04_merging.

(** Concrete cases meeting the hypotheses. *)
Example ex_within_limits : within_limits Z.lor 2147483647%Z 256 2 0 3 (mode_of true false) ex_ops.
Proof. apply enough_capacity. vm_compute. reflexivity. Qed.
Example ex_run :
  option_map snd (match run Z Z.lor 2147483647%Z 256 (td_init Z 2 0 3 true false) ex_ops with Ok x => Some x | _ => None end)
  = Some [10; 20; 30; 40; 10; 40; 20; 60]%Z.
Proof. vm_compute. reflexivity. Qed.
Example ex_enters : forall I, distinct_in_row I [(0, 3%Z, 1%Z); (0, 4%Z, 2%Z); (0, 3%Z, 4%Z)] <= max_row 256 0 3.
Proof. intros I. apply Nat.le_trans with 3; [|vm_compute; lia]. destruct I; vm_compute; lia. Qed.
(** A history that fills a row to its capacity of 255 entries meets the
    hypotheses of C03_row_capacity_partial. *)
Example ex_full_row : exists ops : list (op Z), length ops = 255 /\
  within_limits Z.lor 2147483647%Z 256 1 0 3 (mode_of true false) ops.
Proof.
  exists (map (fun k => Enter 0 (Z.of_nat k) 0%Z) (seq 0 255)). split; [reflexivity|].
  apply enough_capacity. vm_compute. reflexivity.
Qed.
Example ex_pickling_hypothesis : forall p q, ex_ops = p ++ q -> forall I n,
   row_card_eq (fst (spec_run Z.lor 2147483647%Z (mode_of true false) amap_empty ex_ops)) I n ->
   row_card_le (fst (spec_run Z.lor 2147483647%Z (mode_of true false)
      (fst (spec_run Z.lor 2147483647%Z (mode_of true false) amap_empty ex_ops)) p)) I (max_row 256 n 3).
Proof. apply enough_capacity2; vm_compute; try reflexivity; lia. Qed.
Example ex_merging_hypotheses :
  let l := [(0, 9%Z, 30%Z); (1, 1%Z, 60%Z); (1, 2%Z, 20%Z)] in
  StronglySorted key_lt (map fst l) /\
  (forall I J v, In (I, J, v) l <-> fst (spec_run Z.lor 2147483647%Z (mode_of true false) amap_empty ex_ops) I J = Some v) /\
  within_limits Z.lor 2147483647%Z 256 2 0 3 (mode_of false true) ([Enter 1 2%Z 8%Z; Enter 0 1%Z 1%Z] ++ map enter_of l).
Proof.
  split; [|split].
  - unfold key_lt. cbn. repeat (constructor; cbn; try lia).
  - exact ex_merge_contents.
  - apply enough_capacity. vm_compute. reflexivity.
Qed.
