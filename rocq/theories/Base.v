(* Integer facts used by every layer: mixed-radix numbers and ranges of integers. *)
From Coq Require Import ZArith Lia List Bool.
Import ListNotations.
Open Scope Z_scope.

#[global] Arguments Z.add : simpl never.
#[global] Arguments Z.sub : simpl never.
#[global] Arguments Z.mul : simpl never.
#[global] Arguments Z.div : simpl never.
#[global] Arguments Z.modulo : simpl never.
#[global] Arguments Z.opp : simpl never.

(* [zrange lo n] = lo, lo+1, ..., lo+n-1 : a C loop "for (k = lo; k < lo+n; k++)".
   (e.g. compute/pzgemm.c:41) *)
Fixpoint zrange_nat (lo : Z) (n : nat) : list Z :=
  match n with
  | O => []
  | S n' => lo :: zrange_nat (lo + 1) n'
  end.

(* C loop "for (k = lo; k < hi; k++)" (e.g. compute/pzgemm.c:41) *)
Definition zrange (lo hi : Z) : list Z := zrange_nat lo (Z.to_nat (hi - lo)).

Lemma in_zrange_nat : forall n lo x,
  In x (zrange_nat lo n) <-> lo <= x < lo + Z.of_nat n.
Proof.
  induction n as [|n IH]; intros lo x; cbn [zrange_nat In].
  - lia.
  - rewrite IH. lia.
Qed.

Lemma in_zrange : forall lo hi x, In x (zrange lo hi) <-> lo <= x < hi.
Proof. intros. unfold zrange. rewrite in_zrange_nat. lia. Qed.

Lemma NoDup_zrange_nat : forall n lo, NoDup (zrange_nat lo n).
Proof.
  induction n as [|n IH]; intros lo; cbn [zrange_nat]; constructor.
  - rewrite in_zrange_nat. lia.
  - apply IH.
Qed.

Lemma NoDup_zrange : forall lo hi, NoDup (zrange lo hi).
Proof. intros. apply NoDup_zrange_nat. Qed.

Lemma zrange_nil : forall lo hi, hi <= lo -> zrange lo hi = [].
Proof. intros. unfold zrange. replace (Z.to_nat (hi - lo)) with O by lia. reflexivity. Qed.

Lemma zrange_cons : forall lo hi, lo < hi -> zrange lo hi = lo :: zrange (lo + 1) hi.
Proof.
  intros. unfold zrange.
  replace (Z.to_nat (hi - lo)) with (S (Z.to_nat (hi - (lo + 1)))) by lia.
  reflexivity.
Qed.

Lemma zrange_nat_app : forall n1 n2 lo,
  zrange_nat lo (n1 + n2) = zrange_nat lo n1 ++ zrange_nat (lo + Z.of_nat n1) n2.
Proof.
  induction n1 as [|n1 IH]; intros n2 lo; cbn [zrange_nat Nat.add app].
  - f_equal. lia.
  - f_equal. rewrite IH. do 2 f_equal. lia.
Qed.

Lemma zrange_app : forall lo mid hi, lo <= mid <= hi ->
  zrange lo hi = zrange lo mid ++ zrange mid hi.
Proof.
  intros. unfold zrange.
  replace (Z.to_nat (hi - lo)) with (Z.to_nat (mid - lo) + Z.to_nat (hi - mid))%nat by lia.
  rewrite zrange_nat_app. do 2 f_equal. lia.
Qed.

Lemma zrange_snoc : forall lo hi, lo <= hi -> zrange lo (hi + 1) = zrange lo hi ++ [hi].
Proof.
  intros. rewrite (zrange_app lo hi (hi + 1)) by lia. f_equal.
  rewrite zrange_cons by lia. rewrite zrange_nil by lia. reflexivity.
Qed.

Lemma zrange_length : forall lo hi, length (zrange lo hi) = Z.to_nat (hi - lo).
Proof.
  intros. unfold zrange. generalize (Z.to_nat (hi - lo)) as n. clear hi.
  intro n. revert lo. induction n as [|n IH]; intros lo; cbn [zrange_nat length]; congruence.
Qed.

(* induction over the upper end of a loop *)
Lemma zrange_ind_hi : forall (P : Z -> Prop) lo,
  (forall hi, hi <= lo -> P hi) ->
  (forall hi, lo <= hi -> P hi -> P (hi + 1)) ->
  forall hi, P hi.
Proof.
  intros P lo H0 Hs hi.
  destruct (Z_le_gt_dec hi lo) as [Hle|Hgt].
  - auto.
  - remember (Z.to_nat (hi - lo)) as n eqn:En.
    revert hi Hgt En. induction n as [|n IH]; intros hi Hgt En.
    + lia.
    + replace hi with ((hi - 1) + 1) by lia. apply Hs; [lia|].
      destruct (Z_le_gt_dec (hi - 1) lo) as [Hle|Hgt'].
      * auto.
      * apply IH; lia.
Qed.

(* ---- mixed radix numbers ---- *)

Lemma radix_bound : forall p q a x,
  0 <= a < p -> 0 <= x < q -> 0 <= a + p * x < p * q.
Proof. intros. nia. Qed.

Lemma radix_inj : forall p a a' x x',
  0 <= a < p -> 0 <= a' < p -> a + p * x = a' + p * x' -> a = a' /\ x = x'.
Proof.
  intros p a a' x x' Ha Ha' E.
  assert (x = x') as ->.
  { assert (~ (x < x')) by nia. assert (~ (x' < x)) by nia. lia. }
  lia.
Qed.

Lemma div_mod_pos : forall a b, 0 < b -> a = b * (a / b) + a mod b /\ 0 <= a mod b < b.
Proof.
  intros. split. apply Z.div_mod. lia. apply Z.mod_pos_bound; lia.
Qed.

Lemma div_range : forall a b, 0 < b -> 0 <= a -> 0 <= a / b.
Proof. intros. apply Z.div_pos; lia. Qed.

Lemma div_eq : forall a b q r, 0 < b -> 0 <= r < b -> a = b * q + r -> a / b = q.
Proof. intros. symmetry. apply (Z.div_unique_pos a b q r); lia. Qed.

Lemma mod_eq : forall a b q r, 0 < b -> 0 <= r < b -> a = b * q + r -> a mod b = r.
Proof. intros. symmetry. apply (Z.mod_unique_pos a b q r); lia. Qed.

Lemma div_add_aligned : forall i k b, 0 < b -> i mod b = 0 -> (i + k) / b = i / b + k / b.
Proof.
  intros i k b Hb Hi.
  destruct (div_mod_pos i b Hb) as [E _]. rewrite Hi, Z.add_0_r in E.
  rewrite E at 1. rewrite Z.add_comm, Z.mul_comm, Z.div_add by lia. lia.
Qed.

Lemma mod_add_aligned : forall i k b, 0 < b -> i mod b = 0 -> (i + k) mod b = k mod b.
Proof.
  intros i k b Hb Hi.
  rewrite <- Z.add_mod_idemp_l by lia. rewrite Hi. reflexivity.
Qed.
