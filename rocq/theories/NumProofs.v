From Coq Require Import ZArith List Ring Bool Lia.
From Verif Require Import Base NumModel.
Import ListNotations.
Open Scope Z_scope.

Section Num.
  Variable N : numbers.
  Add Ring num_ring : (nring N).
  Local Open Scope num_scope.

  Lemma neqb_spec : forall x y : N, reflect (x = y) (neqb x y).
  Proof.
    intros x y. destruct (neqb x y) eqn:E; constructor.
    - apply neqb_eq; assumption.
    - intro H. apply neqb_eq in H. congruence.
  Qed.

  Lemma nsum_nil : forall (f : Z -> N) lo hi, (hi <= lo)%Z -> nsum f lo hi = n0.
  Proof. intros. unfold nsum. rewrite zrange_nil by lia. reflexivity. Qed.

  Lemma nsum_cons : forall (f : Z -> N) lo hi, (lo < hi)%Z -> nsum f lo hi = f lo + nsum f (lo + 1)%Z hi.
  Proof. intros. unfold nsum. rewrite zrange_cons by lia. reflexivity. Qed.

  Lemma fold_acc : forall (f : Z -> N) l a, fold_right (fun i s => nadd (f i) s) a l
    = fold_right (fun i s => nadd (f i) s) n0 l + a.
  Proof. induction l as [|x l IH]; intros a; cbn; [ring|]. rewrite IH. ring. Qed.

  Lemma nsum_app : forall (f : Z -> N) a b c, (a <= b <= c)%Z ->
    nsum f a c = nsum f a b + nsum f b c.
  Proof.
    intros f a b c H. unfold nsum. rewrite (zrange_app a b c) by lia.
    rewrite fold_right_app. apply fold_acc.
  Qed.

  Lemma nsum_one : forall (f : Z -> N) a, nsum f a (a + 1)%Z = f a.
  Proof. intros. rewrite nsum_cons by lia. rewrite nsum_nil by lia. ring. Qed.

  Lemma nsum_snoc : forall (f : Z -> N) a b, (a <= b)%Z -> nsum f a (b + 1)%Z = nsum f a b + f b.
  Proof. intros. rewrite (nsum_app f a b) by lia. rewrite nsum_one. reflexivity. Qed.

  Lemma nsum_ext : forall (f g : Z -> N) a b, (forall i, (a <= i < b)%Z -> f i = g i) ->
    nsum f a b = nsum g a b.
  Proof.
    intros f g a b H. unfold nsum.
    assert (Q : forall i, In i (zrange a b) -> f i = g i) by (intros i Hi; apply in_zrange in Hi; auto).
    revert Q. generalize (zrange a b). induction l as [|x l IH]; intros Q; cbn; [reflexivity|].
    rewrite Q by (left; reflexivity). rewrite IH; [reflexivity|]. intros; apply Q; right; assumption.
  Qed.

  Lemma nsum_add : forall (f g : Z -> N) a b,
    nsum (fun i => f i + g i) a b = nsum f a b + nsum g a b.
  Proof.
    intros. unfold nsum. generalize (zrange a b). induction l as [|x l IH]; cbn; [ring|].
    rewrite IH. ring.
  Qed.

  Lemma nsum_mul_l : forall (c : N) (f : Z -> N) a b, nsum (fun i => c * f i) a b = c * nsum f a b.
  Proof.
    intros. unfold nsum. generalize (zrange a b). induction l as [|x l IH]; cbn; [ring|].
    rewrite IH. ring.
  Qed.

  Lemma nsum_mul_r : forall (c : N) (f : Z -> N) a b, nsum (fun i => f i * c) a b = nsum f a b * c.
  Proof.
    intros. unfold nsum. generalize (zrange a b). induction l as [|x l IH]; cbn; [ring|].
    rewrite IH. ring.
  Qed.

  Lemma nsum_0 : forall (f : Z -> N) a b, (forall i, (a <= i < b)%Z -> f i = n0) -> nsum f a b = n0.
  Proof.
    intros f a b H. rewrite (nsum_ext f (fun _ => n0 * n0) a b).
    - rewrite nsum_mul_l. ring.
    - intros. rewrite H by assumption. ring.
  Qed.

  Lemma zrange_shift : forall k a b, zrange (a + k)%Z (b + k)%Z = map (fun i => (i + k)%Z) (zrange a b).
  Proof.
    intros k a b. unfold zrange. replace (b + k - (a + k))%Z with (b - a)%Z by lia.
    generalize (Z.to_nat (b - a)%Z). intros n. revert a.
    induction n as [|n IH]; intros a; cbn [zrange_nat map]; [reflexivity|].
    rewrite <- IH. do 2 f_equal. lia.
  Qed.

  Lemma nsum_shift : forall (f : Z -> N) k a b,
    nsum f (a + k)%Z (b + k)%Z = nsum (fun i => f (i + k)%Z) a b.
  Proof.
    intros. unfold nsum. rewrite zrange_shift. generalize (zrange a b).
    induction l as [|x l IH]; cbn; [reflexivity|]. rewrite IH. reflexivity.
  Qed.

  Lemma nconj_0 : nconj n0 = (n0 : N).
  Proof.
    assert (H : nconj (n0 + n0) = nconj n0 + nconj (n0 : N)) by apply nconj_add.
    replace (n0 + n0) with (n0 : N) in H by ring.
    transitivity (nconj n0 + nconj (n0:N) - nconj (n0:N)); [ring|]. rewrite <- H. ring.
  Qed.

  Lemma nconj_1 : nconj n1 = (n1 : N).
  Proof.
    transitivity (nconj (n1 * nconj (n1:N))).
    - rewrite nconj_mul, nconj_conj. ring.
    - replace (n1 * nconj (n1:N)) with (nconj (n1 : N)) by ring. apply nconj_conj.
  Qed.

  Lemma nconj_opp : forall x : N, nconj (- x) = - nconj x.
  Proof.
    intros x. assert (H : nconj (x + - x) = nconj x + nconj (- x)) by apply nconj_add.
    replace (x + - x) with (n0 : N) in H by ring. rewrite nconj_0 in H.
    transitivity (nconj x + nconj (- x) - nconj x); [ring|]. rewrite <- H. ring.
  Qed.

  Lemma nconj_sub : forall x y : N, nconj (x - y) = nconj x - nconj y.
  Proof.
    intros. replace (x - y) with (x + - y) by ring. rewrite nconj_add, nconj_opp. ring.
  Qed.

  Lemma nconj_sum : forall (f : Z -> N) a b, nconj (nsum f a b) = nsum (fun i => nconj (f i)) a b.
  Proof.
    intros. unfold nsum. generalize (zrange a b). induction l as [|x l IH]; cbn; [apply nconj_0|].
    rewrite nconj_add, IH. reflexivity.
  Qed.

  Lemma nsum_swap : forall (f : Z -> Z -> N) a b c d,
    nsum (fun i => nsum (fun j => f i j) c d) a b = nsum (fun j => nsum (fun i => f i j) a b) c d.
  Proof.
    intros. unfold nsum at 1 4. generalize (zrange a b). intros l.
    transitivity (fold_right (fun i s => nadd (nsum (fun j => f i j) c d) s) n0 l); [reflexivity|].
    induction l as [|x l IH]; cbn.
    - symmetry. apply nsum_0. reflexivity.
    - rewrite IH. rewrite <- nsum_add. reflexivity.
  Qed.
End Num.
