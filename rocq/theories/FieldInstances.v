(* Complex numbers with rational parts, a field the theorems apply to; used in the examples. *)
From Coq Require Import ZArith QArith Qcanon Ring Field Bool Lia.
From Verif Require Import Base NumModel FieldModel.
Open Scope Qc_scope.

(* include/plasma_types.h:171 plasma_complex64_t with rational parts *)
Definition qadd (x y : Qc * Qc) := (fst x + fst y, snd x + snd y).
Definition qmul (x y : Qc * Qc) := (fst x * fst y - snd x * snd y, fst x * snd y + snd x * fst y).
Definition qsub (x y : Qc * Qc) := (fst x - fst y, snd x - snd y).
Definition qopp (x : Qc * Qc) := (- fst x, - snd x).
Definition qconj (x : Qc * Qc) := (fst x, - snd x).
Definition qeqb (x y : Qc * Qc) := Qc_eq_bool (fst x) (fst y) && Qc_eq_bool (snd x) (snd y).
Definition qnorm (x : Qc * Qc) := fst x * fst x + snd x * snd x.
Definition qinv (x : Qc * Qc) := (fst x / qnorm x, - snd x / qnorm x).

Lemma Qc_eq_bool_iff : forall x y, Qc_eq_bool x y = true <-> x = y.
Proof.
  intros x y. split; [apply Qc_eq_bool_correct|]. intros ->. unfold Qc_eq_bool. destruct (Qc_eq_dec y y); auto.
Qed.

Definition QI_numbers : numbers.
Proof.
  refine (mknumbers (Qc * Qc) (0, 0) (1, 0) qadd qmul qsub qopp qconj qeqb _ _ _ _ _).
  - constructor; intros; repeat match goal with x : (Qc * Qc)%type |- _ => destruct x end;
      unfold qadd, qmul, qsub, qopp; cbn [fst snd]; f_equal; ring.
  - intros [a b] [c d]. unfold qconj, qadd. cbn [fst snd]. f_equal; ring.
  - intros [a b] [c d]. unfold qconj, qmul. cbn [fst snd]. f_equal; ring.
  - intros [a b]. unfold qconj. cbn [fst snd]. f_equal. ring.
  - intros [a b] [c d]. unfold qeqb. cbn [fst snd]. rewrite andb_true_iff, !Qc_eq_bool_iff. split.
    + intros [-> ->]. reflexivity.
    + intros E. injection E as -> ->. auto.
Defined.

Lemma sq_nonneg : forall a : Qc, 0 <= a * a.
Proof.
  intros a. destruct (Qclt_le_dec a 0) as [H|H].
  - replace (a * a) with ((- a) * (- a)) by ring. apply Qclt_le_weak in H. apply Qcopp_le_compat in H.
    replace (- 0) with 0 in H by reflexivity.
    replace 0 with (0 * (- a)) by ring. apply Qcmult_le_compat_r; assumption.
  - replace 0 with (0 * a) by ring. apply Qcmult_le_compat_r; assumption.
Qed.

Lemma qnorm_nz : forall x : Qc * Qc, x <> (0, 0) -> qnorm x <> 0.
Proof.
  intros [a b] Hx E. apply Hx. unfold qnorm in E. cbn [fst snd] in E.
  pose proof (sq_nonneg a) as Ha. pose proof (sq_nonneg b) as Hb.
  assert (A0 : a * a = 0).
  { apply Qcle_antisym; [|assumption]. rewrite <- E. replace (a * a) with (a * a + 0) at 1 by ring.
    apply Qcplus_le_compat; [apply Qcle_refl|assumption]. }
  assert (B0 : b * b = 0) by (rewrite A0 in E; rewrite <- E; ring).
  apply Qcmult_integral in A0. apply Qcmult_integral in B0. f_equal; tauto.
Qed.

Definition QI_fields : fields.
Proof.
  refine (mkfields QI_numbers qinv _). intros [a b] Hx.
  change (qmul (qinv (a, b)) (a, b) = (1, 0)). pose proof (qnorm_nz (a, b) Hx) as NZ.
  unfold qmul, qinv. remember (qnorm (a, b)) as q eqn:Eq. unfold qnorm in Eq. cbn [fst snd] in *.
  f_equal; [|field; assumption]. transitivity ((a * a + b * b) / q); [field; assumption|].
  rewrite <- Eq. field; assumption.
Defined.

(* a + b i *)
Definition qi (a b : Z) : QI_fields := (Q2Qc (inject_Z a), Q2Qc (inject_Z b)).
