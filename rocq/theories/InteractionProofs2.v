(** Polygons cut off a triangle by a circle, as unions of triangles. *)
From Coq Require Import R_sqrt Psatz.
From Verif Require Import LinR ReorderProofs InteractionModel InteractionSpec InteractionProofs.
Open Scope R_scope.
Set Default Proof Using "Type".

(** The three corners, beginning with any of them. *)
Definition rot (i j k : nat) : Prop :=
  (i = 0%nat /\ j = 1%nat /\ k = 2%nat) \/ (i = 1%nat /\ j = 2%nat /\ k = 0%nat) \/ (i = 2%nat /\ j = 0%nat /\ k = 1%nat).
Lemma rot_mod i : (i < 3)%nat -> rot i ((i + 1) mod 3) ((i + 2) mod 3).
Proof. intros H. unfold rot. destruct i as [|[|[|]]]; cbn; [auto|auto|auto|lia]. Qed.
Lemma rot_bary i j k l : rot i j k -> (bary 3 l <-> 0 <= l i /\ 0 <= l j /\ 0 <= l k /\ l i + l j + l k = 1).
Proof.
  intros [(-> & -> & ->)|[(-> & -> & ->)|(-> & -> & ->)]]; unfold bary; cbn [rsum]; (split;
    [intros [H E]; pose proof (H 0%nat ltac:(lia)); pose proof (H 1%nat ltac:(lia)); pose proof (H 2%nat ltac:(lia)); repeat split; auto; lra
    |intros (H0 & H1 & H2 & H3); split; [intros [|[|[|]]] Hn; auto; lia|lra]]).
Qed.
Lemma rot_covers i j k A b l : rot i j k ->
  (covers 3 A b l <-> exists u v w, 0 <= u /\ 0 <= v /\ 0 <= w /\ u + v + w = 1 /\
     l i = A i i * u + A i j * v + A i k * w + b i /\ l j = A j i * u + A j j * v + A j k * w + b j /\ l k = A k i * u + A k j * v + A k k * w + b k).
Proof.
  intros HR. split.
  - intros (m & Hm & Hi). apply (rot_bary i j k m HR) in Hm. exists (m i), (m j), (m k).
    destruct Hm as (H0 & H1 & H2 & H3). repeat (split; [assumption|]).
    destruct HR as [(-> & -> & ->)|[(-> & -> & ->)|(-> & -> & ->)]];
      pose proof (Hi 0%nat ltac:(lia)) as E0; pose proof (Hi 1%nat ltac:(lia)) as E1; pose proof (Hi 2%nat ltac:(lia)) as E2; cbn [rsum] in E0, E1, E2; lra.
  - intros (u & v & w & H0 & H1 & H2 & H3 & E). exists (fun p => if (p =? i)%nat then u else if (p =? j)%nat then v else w).
    destruct HR as [(-> & -> & ->)|[(-> & -> & ->)|(-> & -> & ->)]]; cbn [Nat.eqb] in *; (split;
     [split; [intros [|[|[|]]] Hn; auto; lia|cbn [rsum Nat.eqb]; lra]
     |intros [|[|[|]]] Hn; cbn [rsum Nat.eqb]; try lia; lra]).
Qed.
Lemma rot_strict i j k A b l : rot i j k -> strictly_covers 3 A b l ->
  exists u v w, 0 < u /\ 0 < v /\ 0 < w /\ u + v + w = 1 /\
     l i = A i i * u + A i j * v + A i k * w + b i /\ l j = A j i * u + A j j * v + A j k * w + b j /\ l k = A k i * u + A k j * v + A k k * w + b k.
Proof.
  intros HR (m & Hm & Hs & Hi). apply (rot_bary i j k m HR) in Hm. exists (m i), (m j), (m k).
    destruct Hm as (_ & _ & _ & H3).
    destruct HR as [(-> & -> & ->)|[(-> & -> & ->)|(-> & -> & ->)]];
      pose proof (Hi 0%nat ltac:(lia)) as E0; pose proof (Hi 1%nat ltac:(lia)) as E1; pose proof (Hi 2%nat ltac:(lia)) as E2; cbn [rsum] in E0, E1, E2;
      pose proof (Hs 0%nat ltac:(lia)); pose proof (Hs 1%nat ltac:(lia)); pose proof (Hs 2%nat ltac:(lia)); repeat (split; [assumption|]); lra.
Qed.
Lemma rot_sub i j k A b vol : rot i j k ->
  (forall q, (q = i \/ q = j \/ q = k) -> 0 <= A i q + b i /\ 0 <= A j q + b j /\ 0 <= A k q + b k /\ A i q + b i + (A j q + b j) + (A k q + b k) = 1) ->
  vol = Rabs (det 3 (fun p q => A p q + b p)) -> sub_simplex 3 A b vol.
Proof.
  intros HR H E. split; [|exact E]. intros q Hq. apply (rot_bary i j k _ HR). apply H.
  destruct HR as [(-> & -> & ->)|[(-> & -> & ->)|(-> & -> & ->)]]; lia.
Qed.
(** A linear inequality that holds for all points of K holds on the hull. *)
Lemma rot_hull i j k K a b c r l : rot i j k -> hull 3 K l -> (forall p, K p -> r <= a * p i + b * p j + c * p k) -> r <= a * l i + b * l j + c * l k.
Proof.
  intros HR HK H. pose proof (hull_linear 3 K (fun q => if (q =? i)%nat then a else if (q =? j)%nat then b else c) r l HK) as G.
  destruct HR as [(-> & -> & ->)|[(-> & -> & ->)|(-> & -> & ->)]]; cbn [rsum Nat.eqb] in G.
  - apply Rle_trans with (0 + a * l 0%nat + b * l 1%nat + c * l 2%nat); [apply G; intros p Hp; specialize (H p Hp); lra|lra].
  - apply Rle_trans with (0 + c * l 0%nat + a * l 1%nat + b * l 2%nat); [apply G; intros p Hp; specialize (H p Hp); lra|lra].
  - apply Rle_trans with (0 + b * l 0%nat + c * l 1%nat + a * l 2%nat); [apply G; intros p Hp; specialize (H p Hp); lra|lra].
Qed.
(** corner of the sub-simplex number q *)
Definition col (A : mat) (q : nat) : nat -> R := fun i => A i q + 0.
Lemma rot_cols i j k (K : (nat -> R) -> Prop) A b l : rot i j k -> covers 3 A b l ->
  K (fun p => A p i + b p) -> K (fun p => A p j + b p) -> K (fun p => A p k + b p) -> hull 3 K l.
Proof.
  intros HR HC H0 H1 H2. apply (hull_covers 3 K A b l HC). intros q Hq.
  destruct HR as [(-> & -> & ->)|[(-> & -> & ->)|(-> & -> & ->)]]; destruct q as [|[|[|]]]; auto; lia.
Qed.

Ltac rots H := destruct H as [(-> & -> & ->)|[(-> & -> & ->)|(-> & -> & ->)]].
Ltac mats := cbn [mset mzero Nat.eqb andb linear_subs map fst snd] in *; unfold mset, mzero in *; cbn [Nat.eqb andb] in *.

(** The triangle at the corner i: P1 = i + c1 (j - i), P2 = i + c2 (k - i). *)
Definition tri_at (i j k : nat) (c1 c2 : R) : mat := mset i k (1 - c2) (mset k k c2 (mset j j c1 (mset i j (1 - c1) (mset i i 1 mzero)))).
Lemma tri_sub i j k c1 c2 : rot i j k -> 0 <= c1 <= 1 -> 0 <= c2 <= 1 -> sub_simplex 3 (tri_at i j k c1 c2) (fun _ => 0) (c1 * c2).
Proof.
  intros HR H1 H2. apply (rot_sub i j k _ _ _ HR).
  - unfold tri_at. rots HR; intros q [->|[->| ->]]; mats; lra.
  - assert (0 <= c1 * c2) by (apply Rmult_le_pos; lra). unfold tri_at, det. rots HR; mats; rewrite <- (Rabs_pos_eq (c1 * c2)) by auto; f_equal; ring.
Qed.

(** One corner inside, circle does not reach the opposite edge. *)
Lemma cut_triangle i j k c1 c2 K : rot i j k -> 0 < c1 < 1 -> 0 < c2 < 1 ->
  (forall p, K p <-> bary 3 p /\ (p i = 1 \/ (p k = 0 /\ p j = c1) \/ (p j = 0 /\ p k = c2))) ->
  subdivision 3 (linear_subs [(tri_at i j k c1 c2, c1 * c2)]) (hull 3 K).
Proof.
  intros HR H1 H2 HK. split; [|split].
  - intros A b vol [E|[]]. injection E as <- <- <-. apply tri_sub; auto; lra.
  - intros l Hl. split.
    + intros (A & b & vol & [E|[]] & HC). injection E as <- <- <-.
      apply (rot_cols i j k K _ _ _ HR HC); apply HK; rewrite (rot_bary i j k _ HR); unfold tri_at; rots HR; mats; lra.
    + intros HH. exists (tri_at i j k c1 c2), (fun _ => 0), (c1 * c2). split; [left; reflexivity|].
      apply (rot_bary i j k l HR) in Hl. destruct Hl as (L0 & L1 & L2 & L3).
      assert (G : - (c1 * c2) <= 0 * l i + - c2 * l j + - c1 * l k).
      { apply (rot_hull i j k K 0 (- c2) (- c1) (- (c1 * c2)) l HR HH). intros p Hp. apply HK in Hp. destruct Hp as [Hb Hp].
        apply (rot_bary i j k p HR) in Hb. assert (0 < c1 * c2) by (apply Rmult_lt_0_compat; lra).
        destruct Hp as [E|[[E1 E2]|[E1 E2]]].
        - assert (p j = 0) by lra. assert (p k = 0) by lra. nra.
        - rewrite E1, E2. lra.
        - rewrite E1, E2. lra. }
      apply (rot_covers i j k _ _ _ HR). exists (1 - l j / c1 - l k / c2), (l j / c1), (l k / c2).
      assert (0 <= l j / c1) by (apply Rmult_le_pos; [lra|left; apply Rinv_0_lt_compat; lra]).
      assert (0 <= l k / c2) by (apply Rmult_le_pos; [lra|left; apply Rinv_0_lt_compat; lra]).
      assert (E1 : c1 * (l j / c1) = l j) by (field; lra). assert (E2 : c2 * (l k / c2) = l k) by (field; lra).
      split.
      { apply Rmult_le_reg_l with (c1 * c2); [apply Rmult_lt_0_compat; lra|].
        replace (c1 * c2 * (1 - l j / c1 - l k / c2)) with (c1 * c2 - c2 * (c1 * (l j / c1)) - c1 * (c2 * (l k / c2))) by ring. rewrite E1, E2. lra. }
      split; [auto|]. split; [auto|]. split; [lra|]. unfold tri_at. rots HR; mats; repeat split; lra.
  - intros [|p] [|[|q]] s s' Hpq E E'; try lia; discriminate.
Qed.
