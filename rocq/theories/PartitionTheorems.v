(** C54: partitions of vertices and cells. *)
From Verif Require Import Util Lin PartitionModel PartitionSpec PartitionProofs PartitionProofs2 PartitionProofs3 PartitionProofs4 PartitionProofs5 PartitionProofs6 PartitionProofs7.
From Coq Require Import Lia Sorting.Sorted.
Local Open Scope nat_scope.

(** C54, graphs: partition2sparseGraph lists the members of every set in order. *)
Theorem C54_graph :
  forall part n, (forall p, In p part -> p < n) ->
  exists indptr indices, partition2sparseGraph part n = Ok (indptr, indices) /\ lists_parts part n indptr indices.
Proof. exact (fun part n H => graph_ok part n H). Qed.
Print Assumptions C54_graph.

Example C54_graph_ex : (forall p, In p [1; 0; 3; 1; 0] -> p < 4) /\ partition2sparseGraph [1; 0; 3; 1; 0] 4 = Ok ([0; 2; 4; 4; 5], [1; 4; 0; 3; 2]).
Proof. split; [cbn; lia|vm_compute; reflexivity]. Qed.

(** C54, sub-domains: createSubdomains succeeds exactly if the numbers of the cells
    are 0..m-1, all of them used, and then lists the cells of every sub-domain. *)
Theorem C54_subdomains :
  forall vals,
  (forall m, 0 < m -> (forall z, In z vals <-> (0 <= z < Z.of_nat m)%Z) ->
     exists indptr indices, createSubdomains vals = Ok (m, (indptr, indices)) /\ lists_parts (map Z.to_nat vals) m indptr indices) /\
  (~ (exists m, 0 < m /\ forall z, In z vals <-> (0 <= z < Z.of_nat m)%Z) -> exists e, createSubdomains vals = Err e).
Proof. exact subdomains_ok. Qed.
Print Assumptions C54_subdomains.

Example C54_subdomains_ex : (forall z, In z [2; 0; 1; 0]%Z <-> (0 <= z < Z.of_nat 3)%Z) /\ createSubdomains [2; 0; 1; 0]%Z = Ok (3, ([0; 2; 3; 4], [1; 3; 2; 0])) /\
  createSubdomains [2; 0; 0]%Z = Err EAssert /\ createSubdomains [1; 2]%Z = Err EAssert.
Proof. split; [intros z; cbn; lia|]. vm_compute. auto. Qed.

(** C54, primes: the prime factors, with their multiplicities. *)
Theorem C54_primes :
  forall n, 0 < n -> exists fs, primes n = Ok fs /\ product (fun k => nth k fs 0) (length fs) = n /\ forall p, In p fs -> is_prime p.
Proof. exact (fun n H => primes_whole n H). Qed.
Print Assumptions C54_primes.

Example C54_primes_ex : primes 60 = Ok [2; 2; 3; 5] /\ primes 7 = Ok [7].
Proof. split; vm_compute; reflexivity. Qed.

(** C54, balance: the numbers of intervals per dimension multiply to the number asked
    for, and are one in the dimensions that are not to be partitioned. *)
Theorem C54_balance :
  forall dim vertices pd n, in_dim dim vertices -> 0 < n -> 0 < dim -> (match pd with None => True | Some k => 0 < k end) ->
  exists per, balancePartitions dim vertices pd n = Ok per /\ length per = dim /\ product (fun j => nth j per 0) dim = n /\ (forall j, j < dim -> 0 < nth j per 0) /\
    (match pd with None => True | Some k => forall j, k <= j -> j < dim -> nth j per 0 = 1 end).
Proof. exact (fun dim vertices pd n HD Hn H0 Hpd => balance_whole dim vertices pd n HD Hn H0 Hpd). Qed.
Print Assumptions C54_balance.

(** Six vertices of a rectangle that is twice as wide as high. *)
Definition rect : list (list Qc) := [[qz 0; qz 0]; [qz 1; qz 0]; [qz 2; qz 0]; [qz 0; qz 1]; [qz 1; qz 1]; [qz 2; qz 1]].
Example rect_dim : in_dim 2 rect.
Proof. intros v Hv. cbn in Hv. repeat destruct Hv as [<-|Hv]; try reflexivity; contradiction. Qed.
Example C54_balance_ex : balancePartitions 2 rect None 6 = Ok [3; 2] /\ balancePartitions 2 rect (Some 1) 6 = Ok [6; 1].
Proof. split; vm_compute; reflexivity. Qed.

(** C54, balance: every prime factor, the largest first, goes to the first dimension in
    which the intervals are longest, if no dimension has extent zero. *)
Theorem C54_balance_greedy :
  forall dim vertices lo hi pd n, in_dim dim vertices -> 0 < length vertices -> 0 < dim -> (match pd with None => True | Some k => 0 < k <= dim end) ->
  (forall j, j < dim -> is_min (length vertices) (fun i => at_vertex vertices i j) (lo j)) -> (forall j, j < dim -> is_max (length vertices) (fun i => at_vertex vertices i j) (hi j)) ->
  (forall j, j < dim -> (lo j < hi j)%Qc) -> 0 < n ->
  exists fs per, balancePartitions dim vertices pd n = Ok per /\
    greedy (fun j => hi j - lo j)%Qc (match pd with None => dim | Some k => k end) fs (repeat 1 dim) per /\
    StronglySorted ge fs /\ (forall p, In p fs -> is_prime p) /\ product (fun i => nth i fs 0) (length fs) = n.
Proof. exact (fun dim vertices lo hi pd n HD HN H0 Hpd Hlo Hhi Hext Hn => balance_greedy dim vertices lo hi pd HD HN H0 Hpd Hlo Hhi Hext n Hn). Qed.
Print Assumptions C54_balance_greedy.

Example C54_balance_greedy_ex : (qz 0 < qz 2)%Qc /\ (qz 0 < qz 1)%Qc /\ balancePartitions 2 rect None 12 = Ok [6; 2] /\ balancePartitions 2 (map (@rev Qc) rect) None 12 = Ok [2; 6].
Proof. vm_compute. auto. Qed.

(** C54, regular: the bounding box, enlarged by 1/100000 at the upper ends, is cut into
    intervals of the same length per dimension, and the boxes are numbered with the first
    dimension running fastest.  Two vertices are in the same set iff they are in the same
    box.  If every box has a vertex the result is the number of its box for every vertex,
    and the number of boxes; otherwise PartitionerException is raised. *)
Theorem C54_regular :
  forall dim vertices per lo hi pd npd nparts, in_dim dim vertices -> 0 < length vertices -> length per = dim -> (forall j, j < dim -> 0 < nth j per 0) ->
  (forall j, j < dim -> is_min (length vertices) (fun i => at_vertex vertices i j) (lo j)) -> (forall j, j < dim -> is_max (length vertices) (fun i => at_vertex vertices i j) (hi j)) ->
  npd = Some per \/ npd = None /\ balancePartitions dim vertices pd nparts = Ok per ->
  let n := fun j => nth j per 0 in
  exists z, (forall i j, i < length vertices -> j < dim -> in_interval (lo j) (hi j + Q2Qc (1 # 100000) - lo j) (n j) (z i j) (at_vertex vertices i j)) /\
    ((forall p, p < product n dim -> exists i, i < length vertices /\ first_fastest n (z i) dim = p) ->
       partitionVertices dim vertices pd npd nparts = Ok (map (fun i => first_fastest n (z i) dim) (seq 0 (length vertices)), product n dim)) /\
    ((exists p, p < product n dim /\ forall i, i < length vertices -> first_fastest n (z i) dim <> p) -> partitionVertices dim vertices pd npd nparts = Err EValue) /\
    (forall i i', i < length vertices -> i' < length vertices -> (first_fastest n (z i) dim = first_fastest n (z i') dim <-> forall j, j < dim -> z i j = z i' j)).
Proof. exact regular_whole. Qed.
Print Assumptions C54_regular.

Example C54_regular_ex : (forall j, j < 2 -> is_min 6 (fun i => at_vertex rect i j) (qz 0)) /\ (forall j, j < 2 -> is_max 6 (fun i => at_vertex rect i j) (if j =? 0 then qz 2 else qz 1)) /\
  partitionVertices 2 rect None (Some [2; 2]) 0 = Ok ([0; 0; 1; 2; 2; 3], 4) /\ partitionVertices 2 rect None None 6 = Ok ([0; 1; 2; 3; 4; 5], 6) /\
  partitionVertices 2 rect None (Some [4; 1]) 0 = Err EValue.
Proof.
  split; [|split; [|vm_compute; auto]]; intros [|[|j]] Hj; try lia; (split; [first [exists 0; split; [lia|vm_compute; reflexivity]|exists 5; split; [lia|vm_compute; reflexivity]]|]);
    intros i Hi; do 6 (destruct i as [|i]; [vm_compute; discriminate|]); lia.
Qed.

(** C54, irregular: whatever the quantiles, a result has as many sets as the intervals
    per dimension multiply to; every vertex has an interval per dimension, its set is
    numbered with the last dimension running fastest, and among vertices with the same
    intervals in the dimensions before, intervals are ordered like coordinates. *)
Theorem C54_irregular :
  forall quantile vertices per dim pd npd nparts part num, 0 < dim -> (match npd with Some p => Ok p | None => balancePartitions dim vertices pd nparts end) = Ok per ->
  partitionVerticesIrregular quantile dim vertices pd npd nparts = Ok (part, num) ->
  num = product (fun d => nth d per 0) dim /\ length part = length vertices /\
  exists s, (forall i d, i < length vertices -> d < dim -> s i d < nth d per 0) /\
    (forall i, i < length vertices -> nth i part num = last_fastest (fun d => nth d per 0) (s i) dim) /\
    (forall i i' d, i < length vertices -> i' < length vertices -> d < dim -> (forall e, e < d -> s i e = s i' e) ->
       (at_vertex vertices i d <= at_vertex vertices i' d)%Qc -> s i d <= s i' d).
Proof. exact (fun quantile vertices per dim pd npd nparts part num => irregular_ok quantile vertices per dim pd npd nparts part num). Qed.
Print Assumptions C54_irregular.

Example C54_irregular_ex : partitionVerticesIrregular quantiles 2 rect None (Some [2; 2]) 0 = Ok ([0; 2; 2; 1; 3; 3], 4).
Proof. vm_compute. reflexivity. Qed.

(** C54, irregular, on a line: with distinct coordinates and no more sets than vertices
    no set is empty and the sizes differ by at most one. *)
Theorem C54_irregular_line :
  forall vertices m pd nparts, in_dim 1 vertices ->
  (forall i i', i < length vertices -> i' < length vertices -> at_vertex vertices i 0 = at_vertex vertices i' 0 -> i = i') -> 0 < m -> m <= length vertices ->
  exists part, partitionVerticesIrregular quantiles 1 vertices pd (Some [m]) nparts = Ok (part, m) /\ length part = length vertices /\
    (forall i, i < length vertices -> nth i part m < m /\ forall j, 0 < j < m -> (nth i part m < j <-> m * rank vertices i < j * (length vertices - 1))) /\
    (forall j, j < m -> (length vertices - 1) / m <= part_size part j <= (length vertices - 1) / m + 1 /\ 0 < part_size part j).
Proof. exact (fun vertices m pd nparts HD Hdist Hm HmN => line_ok vertices HD Hdist m Hm HmN pd nparts). Qed.
Print Assumptions C54_irregular_line.

Definition points : list (list Qc) := [[qz 5]; [qz 0]; [qz 9]; [qz 1]; [qz 2]].
Example C54_irregular_line_ex : in_dim 1 points /\ (forall i i', i < 5 -> i' < 5 -> at_vertex points i 0 = at_vertex points i' 0 -> i = i') /\
  partitionVerticesIrregular quantiles 1 points None (Some [2]) 0 = Ok ([1; 0; 1; 0; 1], 2).
Proof.
  split; [|split; [|vm_compute; reflexivity]].
  - intros v Hv. cbn in Hv. repeat destruct Hv as [<-|Hv]; try reflexivity; contradiction.
  - intros i i' Hi Hi'. do 5 (destruct i as [|i]; [do 5 (destruct i' as [|i']; [first [reflexivity|intros E; vm_compute in E; discriminate E]|]); lia|]). lia.
Qed.

(** C54, irregular: without distinct coordinates a set can be empty, though the number
    of sets that is returned counts it; partitionVertices raises in this case. *)
Theorem C54_irregular_nonempty_refuted :
  ~ (forall vertices m part num, in_dim 1 vertices -> 0 < m -> m <= length vertices -> partitionVerticesIrregular quantiles 1 vertices None (Some [m]) m = Ok (part, num) ->
       forall p, p < num -> 0 < part_size part p).
Proof. exact irregular_nonempty_refuted. Qed.
Print Assumptions C54_irregular_nonempty_refuted.

Example C54_irregular_nonempty_refuted_ex : partitionVerticesIrregular quantiles 1 [[qz 0]; [qz 0]; [qz 0]] None (Some [2]) 2 = Ok ([1; 1; 1], 2) /\
  partitionVertices 1 [[qz 0]; [qz 0]; [qz 0]] None (Some [2]) 2 = Err EValue.
Proof. split; vm_compute; reflexivity. Qed.
