(** The constructors accept only null operators on the other side of the diagonal. *)
From Verif Require Import Util Lin CSRModel DenseModel CompModel CompSpec BlockInvModel BlockInvSpec.
Local Open Scope nat_scope.

Lemma for_n_each {S} (f : nat -> S -> res S) n : forall lo s s', for_n n lo f s = Ok s' -> forall k, lo <= k < lo + n -> exists a b, f k a = Ok b.
Proof.
  induction n as [|n IH]; intros lo s s' E k Hk; [lia|]. cbn in E. apply bind_ok in E. destruct E as (a & E1 & E2).
  destruct (Nat.eq_dec k lo) as [->|N]; [eauto|]. apply (IH _ _ _ E2). lia.
Qed.
Lemma for_range_each {S} (f : nat -> S -> res S) lo hi s s' : for_range lo hi f s = Ok s' -> forall k, lo <= k < hi -> exists a b, f k a = Ok b.
Proof. intros E k Hk. apply (for_n_each f (hi - lo) lo s s' E). lia. Qed.

Lemma blockInverse_checked (lower : bool) rows inverses t f : blockInverse lower rows inverses t = Ok f ->
  forall i j, i < length rows -> j < length (hd [] rows) -> (if lower then i < j else j < i) ->
  exists row e, nth_error rows i = Some row /\ nth_error row j = Some e /\ is_null e = true.
Proof.
  intros E i j Hi Hj Hs. unfold blockInverse in E.
  apply bind_ok in E. destruct E as (ops & _ & E). apply bind_ok in E. destruct E as (invs & _ & E). apply bind_ok in E. destruct E as (base & _ & E). cbv zeta in E.
  apply bind_ok in E. destruct E as (row0 & E0 & E). apply bind_ok in E. destruct E as (u & E & _).
  assert (R0 : row0 = hd [] rows) by (apply aget_inv in E0; destruct rows; cbn in E0; [discriminate|now injection E0]). subst row0.
  destruct (for_range_each _ _ _ _ _ E i (conj (Nat.le_0_l i) Hi)) as (a & b & Ei). apply bind_ok in Ei. destruct Ei as (row & Er & Ei).
  assert (G : exists c d, (e <- aget row j ;; guard (is_null e) EAssert) = Ok d /\ c = tt).
  { destruct lower; (destruct (for_range_each _ _ _ _ _ Ei j) as (c & d & X); [lia|]; exists tt, d; auto). }
  destruct G as (_ & d & G & _). apply bind_ok in G. destruct G as (e & Ee & G). exists row, e. split; [now apply aget_inv|]. split; [now apply aget_inv|].
  unfold guard in G. destruct (is_null e); [reflexivity|discriminate].
Qed.
