(** Sub-domains, prime factors, and how many intervals each dimension is split into. *)
From Verif Require Import Util Lin AssemblyProofs TransferProofs2 SubMapProofs7 PartitionModel PartitionSpec PartitionProofs.
From Coq Require Import Permutation.
Local Open Scope nat_scope.
Set Default Proof Using "Type".

Lemma fold_min l : forall x, In (fold_left Z.min l x) (x :: l) /\ forall z, In z (x :: l) -> (fold_left Z.min l x <= z)%Z.
Proof.
  induction l as [|y l IH]; intros x; cbn [fold_left]; [split; [left; reflexivity|intros z [<-|[]]; lia]|].
  destruct (IH (Z.min x y)) as (A & B). split.
  - destruct A as [A|A]; [|right; right; exact A]. rewrite <- A. destruct (Z.min_spec x y) as [(_ & ->)|(_ & ->)]; [left; reflexivity|right; left; reflexivity].
  - pose proof (B (Z.min x y) (or_introl eq_refl)). intros z [<-|[<-|Hz]]; [lia|lia|]. apply B. right. exact Hz.
Qed.
Lemma fold_max l : forall x, In (fold_left Z.max l x) (x :: l) /\ forall z, In z (x :: l) -> (z <= fold_left Z.max l x)%Z.
Proof.
  induction l as [|y l IH]; intros x; cbn [fold_left]; [split; [left; reflexivity|intros z [<-|[]]; lia]|].
  destruct (IH (Z.max x y)) as (A & B). split.
  - destruct A as [A|A]; [|right; right; exact A]. rewrite <- A. destruct (Z.max_spec x y) as [(_ & ->)|(_ & ->)]; [right; left; reflexivity|left; reflexivity].
  - pose proof (B (Z.max x y) (or_introl eq_refl)). intros z [<-|[<-|Hz]]; [lia|lia|]. apply B. right. exact Hz.
Qed.
Lemma zmin_ok l : l <> [] -> exists m, zmin l = Ok m /\ In m l /\ forall z, In z l -> (m <= z)%Z.
Proof. destruct l as [|x l]; [congruence|]. intros _. cbn [zmin]. eexists; split; [reflexivity|]. apply fold_min. Qed.
Lemma zmax_ok l : l <> [] -> exists m, zmax l = Ok m /\ In m l /\ forall z, In z l -> (z <= m)%Z.
Proof. destruct l as [|x l]; [congruence|]. intros _. cbn [zmax]. eexists; split; [reflexivity|]. apply fold_max. Qed.

Lemma subdomains_ok vals :
  (forall m, 0 < m -> (forall z, In z vals <-> (0 <= z < Z.of_nat m)%Z) ->
     exists indptr indices, createSubdomains vals = Ok (m, (indptr, indices)) /\ lists_parts (map Z.to_nat vals) m indptr indices) /\
  (~ (exists m, 0 < m /\ forall z, In z vals <-> (0 <= z < Z.of_nat m)%Z) -> exists e, createSubdomains vals = Err e).
Proof.
  assert (IN : forall z, In z (nodup Z.eq_dec vals) <-> In z vals) by (intros z; apply nodup_In).
  assert (ND : NoDup (nodup Z.eq_dec vals)) by apply NoDup_nodup. unfold createSubdomains. set (u := nodup Z.eq_dec vals) in *. split.
  - intros m Hm H. assert (Z0 : In 0%Z u) by (apply IN, H; lia). assert (NE : u <> []) by (intros E; rewrite E in Z0; exact Z0).
    destruct (zmin_ok u NE) as (lo & -> & I1 & L1). cbn [bind]. assert (lo = 0%Z) by (apply IN, H in I1; pose proof (L1 0%Z Z0); lia). subst lo. cbn [Z.eqb guard bind].
    destruct (zmax_ok u NE) as (hi & -> & I2 & L2). cbn [bind]. assert (ZM : In (Z.of_nat m - 1)%Z u) by (apply IN, H; lia). pose proof (L2 _ ZM). apply IN, H in I2.
    assert (LU : length u = m) by (apply count_all; [exact ND|intros z; rewrite IN; apply H]). rewrite LU. rewrite (proj2 (Z.eqb_eq _ _)) by lia. cbn [guard bind].
    destruct (graph_ok (map Z.to_nat vals) m) as (ip & ind & E & G).
    { intros p Hp. apply in_map_iff in Hp. destruct Hp as (z & <- & Hz). apply H in Hz. lia. }
    rewrite E. cbn [bind]. exists ip, ind. auto.
  - intros NO. destruct (zmin u) as [lo|e] eqn:E1; cbn [bind]; [|eauto]. destruct (Z.eqb_spec lo 0) as [->|]; cbn [guard bind]; [|eauto].
    destruct (zmax u) as [hi|e] eqn:E2; cbn [bind]; [|eauto]. destruct (Z.eqb_spec (Z.of_nat (length u)) (hi + 1)) as [EL|]; cbn [guard bind]; [|eauto].
    exfalso. apply NO. assert (NE : u <> []) by (intros E; rewrite E in E1; discriminate).
    destruct (zmin_ok u NE) as (lo & E1' & I1 & L1). rewrite E1 in E1'. injection E1' as <-. destruct (zmax_ok u NE) as (hi' & E2' & I2 & L2). rewrite E2 in E2'. injection E2' as <-.
    exists (length u). split; [destruct u; [congruence|cbn; lia]|]. intros z. rewrite <- IN. split; [intros Hz; pose proof (L1 z Hz); pose proof (L2 z Hz); lia|].
    intros Hz. assert (INC : incl u (map Z.of_nat (seq 0 (length u)))).
    { intros y Hy. apply in_map_iff. exists (Z.to_nat y). pose proof (L1 y Hy). pose proof (L2 y Hy). split; [lia|]. apply in_seq. lia. }
    assert (INC2 : incl (map Z.of_nat (seq 0 (length u))) u) by (apply NoDup_length_incl; [exact ND|rewrite map_length, seq_length; lia|exact INC]).
    apply INC2. apply in_map_iff. exists (Z.to_nat z). split; [lia|]. apply in_seq. lia.
Qed.

(** Prime factors. *)
Lemma prod_nil : prod [] = 1. Proof. reflexivity. Qed.
Lemma prod_cons x l : prod (x :: l) = x * prod l. Proof. reflexivity. Qed.
Lemma divide_out_ok d : 2 <= d -> forall fuel n fs, 0 < n -> n < fuel ->
  exists n' l, divide_out fuel d n fs = Ok (n', fs ++ l) /\ 0 < n' /\ ~ Nat.divide d n' /\ n = n' * prod l /\ (forall p, In p l -> p = d) /\ (l <> [] -> Nat.divide d n).
Proof.
  intros Hd. induction fuel as [|fuel IH]; intros n fs Hn Hf; [lia|]. cbn [divide_out]. destruct (Nat.eqb_spec (n mod d) 0) as [E|E].
  - apply Nat.mod_divides in E; [|lia]. destruct E as (k & Ek). assert (Hk : n / d = k) by (rewrite Ek, Nat.mul_comm; apply Nat.div_mul; lia). rewrite Hk.
    destruct (IH k (fs ++ [d])) as (n' & l & E1 & P1 & D1 & V1 & A1 & _); [nia|nia|]. exists n', (d :: l). rewrite E1, <- app_assoc. split; [reflexivity|]. split; [exact P1|]. split; [exact D1|].
    split; [rewrite prod_cons, Ek, V1; ring|]. split; [intros p [<-|Hp]; [reflexivity|apply A1; exact Hp]|]. intros _. exists k. lia.
  - exists n, []. rewrite app_nil_r. split; [reflexivity|]. split; [exact Hn|]. split; [|split; [cbn; lia|split; [intros p []|congruence]]].
    intros D. apply E. apply Nat.mod_divide; [lia|exact D].
Qed.
Lemma prod_app l l' : prod (l ++ l') = prod l * prod l'.
Proof. induction l as [|x l IH]; cbn [app]; [rewrite prod_nil; lia|]. rewrite !prod_cons, IH. ring. Qed.
Lemma primes_loop_ok : forall fuel d n fs, 2 <= d -> 0 < n -> 1 <= fuel -> n + 2 <= fuel + d -> (forall q, 2 <= q < d -> ~ Nat.divide q n) ->
  exists n' l, primes_loop fuel d n fs = Ok (n', fs ++ l) /\ 0 < n' /\ n = n' * prod l /\ (forall p, In p l -> is_prime p) /\ (1 < n' -> is_prime n').
Proof.
  induction fuel as [|fuel IH]; intros d n fs Hd Hn H1 Hf Hno; [lia|]. cbn [primes_loop]. destruct (Nat.leb_spec (d * d) n) as [Hle|Hgt].
  - destruct (divide_out_ok d Hd (S n) n fs Hn ltac:(lia)) as (n1 & l1 & E1 & P1 & D1 & V1 & A1 & S1). rewrite E1. cbn [bind].
    assert (PR : l1 <> [] -> is_prime d).
    { intros NE. pose proof (S1 NE) as DD. split; [exact Hd|]. intros q Hq. pose proof (Nat.divide_pos_le q d ltac:(lia) Hq). destruct q as [|[|q]]; [destruct Hq as (k & Hk); lia|left; reflexivity|].
      destruct (Nat.eq_dec (S (S q)) d); [right; assumption|]. exfalso. apply (Hno (S (S q))); [lia|]. apply (Nat.divide_trans _ d); assumption. }
    assert (DV : forall q, Nat.divide q n1 -> Nat.divide q n) by (intros q Hq; apply (Nat.divide_trans _ n1); [exact Hq|exists (prod l1); lia]).
    assert (LE : n1 <= n) by (apply Nat.divide_pos_le; [exact Hn|apply DV; apply Nat.divide_refl]).
    destruct (IH (d + 1) n1 (fs ++ l1)) as (n' & l & E & P & V & A & B); [lia|exact P1|nia|lia| |].
    { intros q Hq D. destruct (Nat.eq_dec q d) as [->|]; [exact (D1 D)|]. apply (Hno q); [lia|]. apply DV. exact D. }
    exists n', (l1 ++ l). rewrite E, <- app_assoc. split; [reflexivity|]. split; [exact P|]. split; [rewrite prod_app; rewrite V1, V; ring|]. split; [|exact B].
    intros p Hp. apply in_app_or in Hp. destruct Hp as [Hp|Hp]; [|apply A; exact Hp]. rewrite (A1 p Hp). apply PR. intros E0. rewrite E0 in Hp. exact Hp.
  - exists n, []. rewrite app_nil_r. split; [reflexivity|]. split; [exact Hn|]. split; [cbn; lia|]. split; [intros p []|]. intros Hn1. split; [lia|].
    intros q (k & Hk). destruct q as [|[|q]]; [lia|left; reflexivity|]. right. destruct k as [|[|k]]; [lia|lia|]. exfalso.
    destruct (lt_dec (S (S q)) d) as [L|G].
    + apply (Hno (S (S q))); [lia|]. exists (S (S k)). exact Hk.
    + destruct (lt_dec (S (S k)) d) as [L|G2]; [|nia]. apply (Hno (S (S k))); [lia|]. exists (S (S q)). lia.
Qed.
Lemma primes_ok n : 0 < n -> exists fs, primes n = Ok fs /\ prod fs = n /\ forall p, In p fs -> is_prime p.
Proof.
  intros Hn. unfold primes. destruct (primes_loop_ok (S n) 2 n []) as (n' & l & E & P & V & A & B); try lia.
  rewrite E. cbn [bind app]. eexists; split; [reflexivity|]. destruct (Nat.ltb_spec 1 n') as [H|H].
  - split; [rewrite prod_app, prod_cons, prod_nil; lia|]. intros p Hp. apply in_app_or in Hp. destruct Hp as [Hp|[<-|[]]]; [apply A; exact Hp|apply B; exact H].
  - split; [replace n' with 1 in V by lia; lia|exact A].
Qed.
Lemma insert_down_perm p l : Permutation (insert_down p l) (p :: l).
Proof. induction l as [|q l IH]; cbn [insert_down]; [reflexivity|]. destruct (q <? p); [reflexivity|]. rewrite IH. apply perm_swap. Qed.
Lemma sort_down_perm l : Permutation (sort_down l) l.
Proof. induction l as [|p l IH]; cbn [sort_down fold_right]; [reflexivity|]. fold (sort_down l). rewrite insert_down_perm, IH. reflexivity. Qed.
Lemma prod_perm l l' : Permutation l l' -> prod l = prod l'.
Proof. induction 1; rewrite ?prod_cons in *; lia. Qed.

Lemma argmin_from_lt l : forall i m q, q < i -> argmin_from l i m q < i + length l.
Proof. induction l as [|x l IH]; intros i m q H; cbn [argmin_from length]; [lia|]. destruct (rless x m); [pose proof (IH (S i) x i ltac:(lia))|pose proof (IH (S i) m q ltac:(lia))]; lia. Qed.
Lemma argmin_ok l : l <> [] -> exists q, argmin l = Ok q /\ q < length l.
Proof. destruct l as [|x l]; [congruence|]. intros _. cbn [argmin]. eexists; split; [reflexivity|]. pose proof (argmin_from_lt l 1 x 0 ltac:(lia)). cbn [length]. lia. Qed.

(** Bounding boxes. *)
Definition ext (is_ext : nat -> (nat -> Qc) -> Qc -> Prop) (k : nat) (f : nat -> Qc) (m : option Qc) : Prop :=
  match m with None => k = 0 | Some m => is_ext k f m end.
Lemma ext_min_S k f m : ext is_min k f m -> ext is_min (S k) f (qmin m (f k)).
Proof.
  destruct m as [m|]; cbn [ext qmin].
  - intros ((i & Hi & Ei) & H). destruct (Qclt_le_dec (f k) m) as [L|L].
    + split; [exists k; split; [lia|reflexivity]|]. intros j Hj. destruct (Nat.eq_dec j k) as [->|]; [apply Qcle_refl|]. apply (Qcle_trans _ m); [apply Qclt_le_weak; exact L|apply H; lia].
    + split; [exists i; split; [lia|exact Ei]|]. intros j Hj. destruct (Nat.eq_dec j k) as [->|]; [exact L|apply H; lia].
  - intros ->. split; [exists 0; split; [lia|reflexivity]|]. intros j Hj. replace j with 0 by lia. apply Qcle_refl.
Qed.
Lemma ext_max_S k f m : ext is_max k f m -> ext is_max (S k) f (qmax m (f k)).
Proof.
  destruct m as [m|]; cbn [ext qmax].
  - intros ((i & Hi & Ei) & H). destruct (Qclt_le_dec m (f k)) as [L|L].
    + split; [exists k; split; [lia|reflexivity]|]. intros j Hj. destruct (Nat.eq_dec j k) as [->|]; [apply Qcle_refl|]. apply (Qcle_trans _ m); [apply H; lia|apply Qclt_le_weak; exact L].
    + split; [exists i; split; [lia|exact Ei]|]. intros j Hj. destruct (Nat.eq_dec j k) as [->|]; [exact L|apply H; lia].
  - intros ->. split; [exists 0; split; [lia|reflexivity]|]. intros j Hj. replace j with 0 by lia. apply Qcle_refl.
Qed.
Lemma coord_ok dim vs i j : in_dim dim vs -> i < length vs -> j < dim -> coord vs i j = Ok (at_vertex vs i j).
Proof.
  intros H Hi Hj. unfold coord. rewrite (aget_nth vs i []) by exact Hi. cbn [bind]. unfold at_vertex. apply aget_nth. rewrite (H (nth i vs [])); [exact Hj|]. apply nth_In. exact Hi.
Qed.
Lemma box_ok dim vs : in_dim dim vs ->
  exists mins maxs, getBoundingBox dim vs = Ok (mins, maxs) /\ length mins = dim /\ length maxs = dim /\
    (forall j, j < dim -> ext is_min (length vs) (fun i => at_vertex vs i j) (nth j mins None) /\ ext is_max (length vs) (fun i => at_vertex vs i j) (nth j maxs None)).
Proof.
  intros HD. unfold getBoundingBox.
  set (Inv := fun k (st : list (option Qc) * list (option Qc)) => length (fst st) = dim /\ length (snd st) = dim /\
    (forall j, j < dim -> ext is_min k (fun i => at_vertex vs i j) (nth j (fst st) None) /\ ext is_max k (fun i => at_vertex vs i j) (nth j (snd st) None))).
  match goal with |- context [for_range 0 (length vs) ?f ?s] => destruct (for_range_inv Inv f 0 (length vs) s) as ([mins maxs] & E & L1 & L2 & H); [lia| | |exists mins, maxs; auto] end.
  - unfold Inv. cbn [fst snd]. rewrite repeat_length. split; [reflexivity|]. split; [reflexivity|]. intros j _. rewrite nth_repeat. split; reflexivity.
  - intros k st Hk (L1 & L2 & H).
    set (Jnv := fun t (s : list (option Qc) * list (option Qc)) => length (fst s) = dim /\ length (snd s) = dim /\
      (forall j, j < dim -> ext is_min (if j <? t then S k else k) (fun i => at_vertex vs i j) (nth j (fst s) None) /\ ext is_max (if j <? t then S k else k) (fun i => at_vertex vs i j) (nth j (snd s) None))).
    match goal with |- context [for_range 0 dim ?f ?s] => destruct (for_range_inv Jnv f 0 dim s) as (s' & E & L1' & L2' & H'); [lia| | |] end.
    + split; [exact L1|]. split; [exact L2|]. intros j Hj. destruct (Nat.ltb_spec j 0); [lia|]. apply H. exact Hj.
    + intros t [mi ma] Ht (M1 & M2 & HH). cbn [fst snd] in M1, M2, HH. rewrite (coord_ok dim) by (assumption || lia). cbn [bind].
      rewrite (aget_nth mi t None) by lia. cbn [bind]. destruct (aset_nth mi t (qmin (nth t mi None) (at_vertex vs k t)) None ltac:(lia)) as (mi' & E1 & K1 & V1). rewrite E1. cbn [bind].
      rewrite (aget_nth ma t None) by lia. cbn [bind]. destruct (aset_nth ma t (qmax (nth t ma None) (at_vertex vs k t)) None ltac:(lia)) as (ma' & E2 & K2 & V2). rewrite E2. cbn [bind].
      eexists; split; [reflexivity|]. unfold Jnv. cbn [fst snd]. split; [lia|]. split; [lia|]. intros j Hj. rewrite V1, V2. destruct (Nat.eqb_spec j t) as [->|Nj].
      * destruct (HH t Hj) as (A & B). rewrite (proj2 (Nat.ltb_ge t t)) in A, B by lia. rewrite (proj2 (Nat.ltb_lt t (S t))) by lia.
        split; [apply (ext_min_S k (fun i => at_vertex vs i t)); exact A|apply (ext_max_S k (fun i => at_vertex vs i t)); exact B].
      * replace (j <? S t) with (j <? t); [apply HH; exact Hj|]. destruct (Nat.ltb_spec j t), (Nat.ltb_spec j (S t)); try reflexivity; lia.
    + exists s'. split; [exact E|]. split; [exact L1'|]. split; [exact L2'|]. intros j Hj. pose proof (H' j Hj) as Q. rewrite (proj2 (Nat.ltb_lt j dim) Hj) in Q. exact Q.
Qed.

Lemma prod_upd l : forall q x d, q < length l -> (forall y, y = nth q l d -> prod (upd l q (y * x)) = prod l * x).
Proof.
  induction l as [|y l IH]; intros [|q] x d Hq w ->; cbn [length] in Hq; try lia; cbn [upd nth]; rewrite !prod_cons.
  - ring.
  - rewrite (IH q x d) by (reflexivity || lia). ring.
Qed.
Lemma balance_ok dim vs pd n : in_dim dim vs -> 0 < n -> (match pd with None => 0 < dim | Some k => 0 < k /\ 0 < dim end) ->
  exists per, balancePartitions dim vs pd n = Ok per /\ length per = dim /\ prod per = n /\ (forall j, j < dim -> 0 < nth j per 0) /\
    (match pd with None => True | Some k => forall j, k <= j -> j < dim -> nth j per 0 = 1 end).
Proof.
  intros HD Hn Hpd. unfold balancePartitions. destruct (box_ok dim vs HD) as (mins & maxs & E & L1 & L2 & _). rewrite E. cbn [bind].
  destruct (primes_ok n Hn) as (fs & EF & PF & PR). rewrite EF. cbn [bind]. set (k := match pd with None => dim | Some k => k end).
  assert (Hk : 0 < k /\ 0 < dim) by (unfold k; destruct pd; tauto).
  set (f := fun p per => q <- argmin (firstn k (map (fun '(n, (lo, hi)) => ratio n lo hi) (combine per (combine mins maxs)))) ;; n <- aget per q ;; aset per q (n * p)).
  assert (POS : forall p, In p (sort_down fs) -> 0 < p).
  { intros p Hp. apply (Permutation_in _ (sort_down_perm fs)) in Hp. apply PR in Hp. destruct Hp. lia. }
  assert (G : forall l per, (forall p, In p l -> 0 < p) -> length per = dim -> (forall j, j < dim -> 0 < nth j per 0) -> (forall j, k <= j -> j < dim -> nth j per 0 = 1) ->
    exists per', for_list l f per = Ok per' /\ length per' = dim /\ prod per' = prod per * prod l /\ (forall j, j < dim -> 0 < nth j per' 0) /\ (forall j, k <= j -> j < dim -> nth j per' 0 = 1)).
  { induction l as [|p l IH]; intros per Hl Lp Pp Op; cbn [for_list]; [exists per; rewrite prod_nil, Nat.mul_1_r; auto|]. unfold f at 1.
    destruct (argmin_ok (firstn k (map (fun '(n, (lo, hi)) => ratio n lo hi) (combine per (combine mins maxs))))) as (q & Eq & Hq).
    { intros E0. apply (f_equal (@length _)) in E0. rewrite firstn_length, map_length, !combine_length, Lp, L1, L2 in E0. cbn [length] in E0. lia. }
    rewrite Eq. cbn [bind]. rewrite firstn_length, map_length, !combine_length, Lp, L1, L2 in Hq. rewrite (aget_nth per q 0) by lia. cbn [bind].
    pose proof (prod_upd per q p 0 ltac:(lia) _ eq_refl) as PU. destruct (aset_nth per q (nth q per 0 * p) 0 ltac:(lia)) as (per1 & E1 & M1 & V1).
    assert (EU : per1 = upd per q (nth q per 0 * p)) by (rewrite aset_ok in E1 by lia; congruence). rewrite E1. cbn [bind].
    destruct (IH per1) as (per' & E' & L' & P' & A' & B').
    - intros x Hx. apply Hl. right. exact Hx.
    - lia.
    - intros j Hj. rewrite V1. destruct (j =? q); [|apply Pp; exact Hj]. pose proof (Hl p (or_introl eq_refl)). pose proof (Pp q ltac:(lia)). nia.
    - intros j Hj Hj'. rewrite V1. destruct (Nat.eqb_spec j q); [lia|]. apply Op; assumption.
    - exists per'. split; [exact E'|]. split; [exact L'|]. split; [|auto]. rewrite P', EU, PU. rewrite prod_cons. ring. }
  destruct (G (sort_down fs) (repeat 1 dim)) as (per & E1 & A & B & C & D).
  - exact POS.
  - apply repeat_length.
  - intros j Hj. rewrite nth_indep with (d' := 1) by (rewrite repeat_length; exact Hj). rewrite nth_repeat. lia.
  - intros j _ Hj. rewrite nth_indep with (d' := 1) by (rewrite repeat_length; exact Hj). apply nth_repeat.
  - exists per. split; [exact E1|]. split; [exact A|]. split; [|split; [exact C|]].
    + rewrite B, (prod_perm _ _ (sort_down_perm fs)), PF. assert (P1 : forall m, prod (repeat 1 m) = 1) by (induction m as [|m IHm]; cbn [repeat]; [reflexivity|rewrite prod_cons; lia]). rewrite P1. lia.
    + destruct pd; [exact D|trivial].
Qed.
