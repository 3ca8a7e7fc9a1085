(** Theorems for property C49: interpolation in clusters. *)
From Verif Require Import Util Lin DenseModel DenseSpec H2Model H2Spec TransferModel TransferSpec TransferProofs TransferProofs2 TransferProofs5 TransferProofs6 TransferProofs7.
From Verif Require InterpSpec.
Local Open Scope nat_scope.

(** The iterator visits each multi-index once, in lexicographic order, and [r]
    counts them. *)
Theorem C49_iterator : forall St m d (body : list nat -> nat -> St -> res St) idx s, 1 <= d -> length idx = d ->
  pit_loop m body idx s = (s' <- for_range 0 (m ^ d) (fun I s => body (digits m d I) I s) s ;; Ok (repeat 0%Z d, s')).
Proof. intros St m d body idx s. exact (pit_loop_ok m d body idx s). Qed.
Print Assumptions C49_iterator.
Example tr_iterator : pit_loop 2 (fun idx r l => Ok (l ++ [(idx, r)])) [7; 7]%Z [] =
  Ok ([0; 0]%Z, [([0; 0], 0); ([0; 1], 1); ([1; 0], 2); ([1; 1], 3)]).
Proof. reflexivity. Qed.

(** Entry (I, J) of a transfer matrix is the Lagrange polynomial of point I of the
    parent at point J of the child. *)
Theorem C49_build : forall G p c pits, wf_geo G -> wf_cluster G p -> wf_cluster G c -> clear_nodes G p c ->
  length (fst pits) = dim G -> length (snd pits) = dim G ->
  exists T pits', build G p c pits = Ok (T, pits') /\ wf_dense (order p ^ dim G) (order c ^ dim G) T /\
    forall I J, I < order p ^ dim G -> J < order c ^ dim G -> dmat T I J = LT G p I (gpoint G c J).
Proof. exact build_thm. Qed.
Print Assumptions C49_build.

(** The transposed transfer matrix takes the values of a polynomial at the points of
    the parent to its values at the points of the child. *)
Theorem C49_transfer_exact : forall G p c pits f, wf_geo G -> wf_cluster G p -> wf_cluster G c -> clear_nodes G p c ->
  length (fst pits) = dim G -> length (snd pits) = dim G -> poly (order p) (dim G) f ->
  exists T pits', build G p c pits = Ok (T, pits') /\
    forall J, J < order c ^ dim G -> sumf (order p ^ dim G) (fun I => dmat T I J * f (gpoint G p I))%Qc = f (gpoint G c J).
Proof. exact transfer_exact. Qed.
Print Assumptions C49_transfer_exact.

(** Two clusters in the plane, of orders 2 and 1, and the function 3 x y + x. *)
Definition plane : geo := Geo 2 chain_cheb 0 (fun _ _ => 0%Z) (fun _ => 0) (fun _ => []) (fun _ => Dense 0 0 []) (fun _ => 1%Qc) (fun _ _ => Dense 0 2 []).
Definition big := GI 0 [(0, qz 10)%Qc; (0, qz 10)%Qc] 2 [] [].
Definition small := GI 1 [(0, qz 4)%Qc; (qz 2, qz 10)%Qc] 1 [] [].
Definition xy (x : list Qc) : Qc := (qz 3 * (vat x 0 * vat x 1) + vat x 0)%Qc.
Example tr_plane : wf_geo plane /\ wf_cluster plane big /\ wf_cluster plane small /\ clear_nodes plane big small /\ poly (order big) (dim plane) xy.
Proof.
  split; [split; cbn; auto; intros; repeat split; auto|]. split; [apply wf_clusterb_ok; [vm_compute; reflexivity|constructor]|].
  split; [apply wf_clusterb_ok; [vm_compute; reflexivity|constructor]|]. split; [apply clear_nodesb_ok; vm_compute; reflexivity|].
  intros l [|a [|b [|e x]]] Hl Hx; try discriminate. destruct l as [|[|l]]; [| |cbn in Hl; lia].
  - exists [0; qz 3 * b + 1]%Qc. split; [auto|]. intros t. unfold xy, vat. cbn [upd nth InterpSpec.evalp]. ring.
  - exists [a; qz 3 * a]%Qc. split; [auto|]. intros t. unfold xy, vat. cbn [upd nth InterpSpec.evalp]. ring.
Qed.
Example tr_plane_matrix : (r <- build plane big small (pits0 plane) ;; Ok (d_n (fst r), d_m (fst r), map this (d_data (fst r)))) =
  Ok (4, 1, [1 # 3; 2 # 3; 0; 0]%Q).
Proof. vm_compute. reflexivity. Qed.

(** enterLeafValues and prepareTransferOperators succeed, the tree has the shape that
    the products of property C47 need, and the basis of every cluster consists of the
    quadratures of its Lagrange polynomials, interpolated in the clusters below. *)
Theorem C49_prepare : forall G N t, wf_geo G -> wf_tree G t -> NoDup (map (fun s => gid (ginf s)) (gnodes t)) ->
  (forall s d, In s (gnodes t) -> In d (gdofs (ginf s)) -> d < N) ->
  exists h st, prepare G None t (pits0 G, leaf0 G) = Ok (h, st) /\ shaped N 1 h /\ Forall2 (stands_for G) (gnodes t) (nodes h).
Proof. exact prepare_thm. Qed.
Print Assumptions C49_prepare.

(** If orders do not become smaller from a cluster to its children, nothing is lost:
    the basis consists of the quadratures of the Lagrange polynomials themselves. *)
Theorem C49_basis_exact : forall G g s, wf_tree G g -> orders_grow g -> stands_for G g s ->
  forall d I, I < ksize (inf s) -> bas 0 s d I = integral G g d (LT G (ginf g) I).
Proof. exact basis_exact. Qed.
Print Assumptions C49_basis_exact.

(** Four cells in a row, linear elements, two leaves of order 3 under a root of order 2. *)
Example tr_chain : wf_geo chain /\ wf_tree chain (chain_tree 2 3) /\ NoDup (map (fun s => gid (ginf s)) (gnodes (chain_tree 2 3))) /\
  (forall s d, In s (gnodes (chain_tree 2 3)) -> In d (gdofs (ginf s)) -> d < 5) /\ orders_grow (chain_tree 2 3).
Proof.
  split; [apply chain_wf|]. split; [apply wf_treeb_ok; vm_compute; reflexivity|]. split; [apply nodupn_ok; reflexivity|]. split.
  - intros s d Hin Hd. cbn in Hin. destruct Hin as [<-|[<-|[<-|[]]]]; cbn in Hd; lia.
  - intros s c Hs Hc. cbn in Hs. destruct Hs as [<-|[<-|[<-|[]]]]; cbn in Hc; try contradiction. destruct Hc as [<-|[<-|[]]]; cbn; lia.
Qed.
Example tr_chain_basis : (r <- prepare chain None (chain_tree 2 3) (pits0 chain, leaf0 chain) ;; Ok (tab 5 (fun d => tab 2 (fun I => this (bas 0 (fst r) d I))))) =
  Ok [[113 # 192; -17 # 192]; [11 # 12; 1 # 12]; [1 # 2; 1 # 2]; [1 # 12; 11 # 12]; [-17 # 192; 113 # 192]]%Q.
Proof. vm_compute. reflexivity. Qed.

(** The block of a pair of clusters is -2 times the double quadrature of the kernel
    interpolated in both variables, and of the kernel itself if that is a polynomial
    of sufficiently low degree. *)
Theorem C49_far_block : forall G kernel g1 s1 g2 s2 pit, wf_geo G -> wf_tree G g1 -> wf_tree G g2 -> stands_for G g1 s1 -> stands_for G g2 s2 -> length pit = dim G ->
  exists K pit', kernel_interpolant G kernel (ginf g1) (ginf g2) pit = Ok (K, pit') /\ wf_dense (ksize (inf s1)) (ksize (inf s2)) K /\
    (forall r c, block_of 0 (Pair s1 s2 K) r c =
      (- (1 + 1) * nested G g1 r (interpolate G (ginf g1) (fun x => nested G g2 c (interpolate G (ginf g2) (kernel x)))))%Qc) /\
    (orders_grow g1 -> orders_grow g2 ->
     (forall y, length y = dim G -> poly (order (ginf g1)) (dim G) (fun x => kernel x y)) ->
     (forall x, length x = dim G -> poly (order (ginf g2)) (dim G) (kernel x)) ->
     forall r c, block_of 0 (Pair s1 s2 K) r c = (- (1 + 1) * integral G g1 r (fun x => integral G g2 c (kernel x)))%Qc).
Proof. exact far_block_thm. Qed.
Print Assumptions C49_far_block.

(** The kernel x y + 1 between the two leaves: the integrals of x and of 1 against the
    second and the fourth basis function are 1, 1 and 3, 1. *)
Definition bilinear (x y : list Qc) : Qc := (vat x 0 * vat y 0 + 1)%Qc.
Example tr_bilinear : (forall y, length y = dim chain -> poly 3 (dim chain) (fun x => bilinear x y)) /\
  (forall x, length x = dim chain -> poly 3 (dim chain) (bilinear x)).
Proof.
  split; intros y Hy l [|a [|b x]] Hl Hx; try discriminate; (destruct l as [|l]; [|cbn in Hl; lia]); exists [1; vat y 0]%Qc; (split; [cbn; lia|]); intros t;
    unfold bilinear, vat; cbn [upd nth InterpSpec.evalp]; ring.
Qed.
Example tr_block : (r <- prepare chain None (chain_tree 2 3) (pits0 chain, leaf0 chain) ;;
  match fst r, chain_tree 2 3 with
  | HNode _ [a; b], GNode _ [g; g'] => K <- kernel_interpolant chain bilinear (ginf g) (ginf g') [0%Z] ;; Ok (this (block_of 0 (Pair a b (fst K)) 1 3))
  | _, _ => Err EAssert
  end) = Ok (-8 # 1)%Q.
Proof. vm_compute. reflexivity. Qed.

(** False of the code: the constructor of tree_node requires the order of a parent to
    be at least that of its children, but if it is larger the basis of the parent
    does not consist of the quadratures of its Lagrange polynomials. *)
Theorem C49_smaller_order_refuted : exists G t, wf_geo G /\ wf_tree G t /\
  (forall s c, In s (gnodes t) -> In c (gkids s) -> order (ginf c) <= order (ginf s)) /\
  exists h st d I, prepare G None t (pits0 G, leaf0 G) = Ok (h, st) /\ I < ksize (inf h) /\ bas 0 h d I <> integral G t d (LT G (ginf t) I).
Proof. exact smaller_order. Qed.
Print Assumptions C49_smaller_order_refuted.

(** False of the code: in boxes no wider than the tolerance 1e-8 transfer matrices do
    not even reproduce constants. *)
Theorem C49_tiny_box_refuted : exists G p c, wf_geo G /\ wf_cluster G p /\ wf_cluster G c /\ poly (order p) (dim G) (fun _ => 1%Qc) /\
  exists T, build G p c (pits0 G) = Ok (T, pits0 G) /\ exists J, J < order c ^ dim G /\
    sumf (order p ^ dim G) (fun I => dmat T I J * 1)%Qc <> 1%Qc.
Proof. exact tiny_box. Qed.
Print Assumptions C49_tiny_box_refuted.
