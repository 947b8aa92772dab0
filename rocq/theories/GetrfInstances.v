(* The comparison |Re a| + |Im a| > |Re b| + |Im b| of complex numbers with rational parts;
   used in the examples about the LU factorization. *)
From Coq Require Import ZArith QArith Qcanon Bool Lia.
From Verif Require Import Base NumModel FieldModel FieldInstances GetrfModel GetrfSpec.
Open Scope Qc_scope.

(* plasma_core_dcabs1, core_blas/core_dcabs1.c:35-38 *)
Definition rabs (x : Qc) : Qc := if Qle_bool 0 x then x else - x.
Definition dcabs1 (x : Qc * Qc) : Qc := rabs (fst x) + rabs (snd x).
Definition cabs_bigger (x y : QI_fields) : bool := negb (Qle_bool (dcabs1 x) (dcabs1 y)).

Lemma cabs_bigger_iff : forall x y, cabs_bigger x y = true <-> dcabs1 y < dcabs1 x.
Proof.
  intros x y. unfold cabs_bigger. rewrite negb_true_iff. split; intros H.
  - apply Qcnot_le_lt. intros L. apply Qle_bool_iff in L. congruence.
  - destruct (Qle_bool (dcabs1 x) (dcabs1 y)) eqn:E; [|reflexivity]. apply Qle_bool_iff in E.
    exfalso. revert H. apply Qcle_not_lt. exact E.
Qed.

Lemma rabs_nonneg : forall x, 0 <= rabs x.
Proof.
  intros x. unfold rabs. destruct (Qle_bool 0 x) eqn:E.
  - apply Qle_bool_iff in E. exact E.
  - assert (L : x <= 0).
    { apply Qclt_le_weak, Qcnot_le_lt. intros L. assert (X : Qle_bool 0 x = true) by (apply Qle_bool_iff; exact L). congruence. }
    apply Qcopp_le_compat in L. replace (- 0) with 0 in L by reflexivity. exact L.
Qed.
Lemma rabs_zero : forall x, rabs x = 0 -> x = 0.
Proof.
  intros x. unfold rabs. destruct (Qle_bool 0 x); [auto|]. intros E. replace x with (- - x) by ring. rewrite E. reflexivity.
Qed.

Lemma cabs_comparison : comparison cabs_bigger.
Proof.
  constructor.
  - intros a. destruct (cabs_bigger a a) eqn:E; [|reflexivity]. apply cabs_bigger_iff in E. exfalso. apply Qclt_not_le in E. apply E, Qcle_refl.
  - intros a b c H1 H2. apply cabs_bigger_iff in H1, H2. apply cabs_bigger_iff. eapply Qclt_trans; eauto.
  - intros a b c H. apply cabs_bigger_iff in H. destruct (Qclt_le_dec (dcabs1 b) (dcabs1 a)) as [L|L].
    + left. apply cabs_bigger_iff. assumption.
    + right. apply cabs_bigger_iff. eapply Qclt_le_trans; eauto.
  - intros [x y] H. apply cabs_bigger_iff. apply Qcnot_le_lt. intros L. apply H.
    change (dcabs1 (x, y) <= 0) in L. unfold dcabs1 in L. cbn [fst snd] in L.
    pose proof (rabs_nonneg x) as P1. pose proof (rabs_nonneg y) as P2.
    assert (X : rabs x <= 0).
    { eapply Qcle_trans; [|exact L]. replace (rabs x) with (rabs x + 0) at 1 by ring. apply Qcplus_le_compat; [apply Qcle_refl|assumption]. }
    assert (Y : rabs y <= 0).
    { eapply Qcle_trans; [|exact L]. replace (rabs y) with (0 + rabs y) at 1 by ring. apply Qcplus_le_compat; [assumption|apply Qcle_refl]. }
    change ((x, y) = (0, 0)). f_equal; apply rabs_zero, Qcle_antisym; assumption.
Qed.
