(* Two instances of normed: the rational numbers (for computed examples) and the complex
   numbers (on the real numbers of the standard library). *)
From Coq Require Import Reals QArith Qcanon ZArith List Ring Field Bool Lia Lra.
From Verif Require Import Base NumModel NumProofs FieldModel FieldInstances PotrfModel PotrfSpec ComplexInstances NormModel NormTriModel NormSpec.
Import ListNotations.

Open Scope Qc_scope.

Definition Q_numbers : numbers.
Proof.
  refine (mknumbers Qc 0 1 Qcplus Qcmult Qcminus Qcopp (fun x => x) Qc_eq_bool Qcrt _ _ _ Qc_eq_bool_iff); reflexivity.
Defined.
Definition Q_fields : fields.
Proof. refine (mkfields Q_numbers Qcinv _). intros x Hx. apply Qcmult_inv_l. exact Hx. Defined.

Definition qabs (x : Qc) : Qc := if Qclt_le_dec x 0 then - x else x.
Definition qltb (x y : Qc) : bool := if Qclt_le_dec x y then true else false.

Lemma qneg : forall x : Qc, x < 0 -> 0 <= - x.
Proof. intros x H. apply Qclt_le_weak, Qcopp_le_compat in H. exact H. Qed.
Lemma qabs_nonneg : forall x, 0 <= qabs x.
Proof. intros x. unfold qabs. destruct (Qclt_le_dec x 0) as [H|H]; [apply qneg; exact H|exact H]. Qed.
Lemma qabs_id : forall x, 0 <= x -> qabs x = x.
Proof.
  intros x H. unfold qabs. destruct (Qclt_le_dec x 0) as [L|L]; [|reflexivity].
  exfalso. exact (Qcle_not_lt _ _ H L).
Qed.
Lemma qabs_opp : forall x, x <= 0 -> qabs x = - x.
Proof.
  intros x H. unfold qabs. destruct (Qclt_le_dec x 0) as [L|L]; [reflexivity|].
  rewrite (Qcle_antisym x 0 H L). reflexivity.
Qed.
Lemma qmul_nonneg : forall x y, 0 <= x -> 0 <= y -> 0 <= x * y.
Proof. intros x y Hx Hy. replace 0 with (0 * y) by ring. apply Qcmult_le_compat_r; assumption. Qed.

Definition Q_normed : normed.
Proof.
  refine (mknormed Q_fields qabs qabs (fun x => x) qltb _ _ _ _ _ _ _ _ _ _ _ _ _).
  - reflexivity.
  - reflexivity.
  - change (forall x y : Qc, qabs (x * y) = qabs x * qabs y). intros x y.
    unfold qabs at 2 3. destruct (Qclt_le_dec x 0) as [H|H], (Qclt_le_dec y 0) as [K|K].
    + replace (x * y) with ((- x) * (- y)) by ring. apply qabs_id, qmul_nonneg; apply qneg; assumption.
    + rewrite qabs_opp; [ring|]. pose proof (qmul_nonneg (- x) y (qneg x H) K) as L.
      apply Qcopp_le_compat in L. replace (- (- x * y)) with (x * y) in L by ring. exact L.
    + rewrite qabs_opp; [ring|]. pose proof (qmul_nonneg x (- y) H (qneg y K)) as L.
      apply Qcopp_le_compat in L. replace (- (x * - y)) with (x * y) in L by ring. exact L.
    + apply qabs_id, qmul_nonneg; assumption.
  - change (forall x : Qc, qabs (qabs x) = qabs x). intros x. apply qabs_id, qabs_nonneg.
  - change (forall x y : Qc, qabs (qabs x + qabs y) = qabs x + qabs y). intros x y. apply qabs_id.
    replace 0 with (0 + 0) by ring. apply Qcplus_le_compat; apply qabs_nonneg.
  - change (forall x : Qc, qabs x = 0 -> x = 0). intros x. unfold qabs. destruct (Qclt_le_dec x 0); [|auto].
    intros E. replace x with (- - x) by ring. rewrite E. reflexivity.
  - change (forall x : Qc, qabs x * qabs x = x * x). intros x. unfold qabs. destruct (Qclt_le_dec x 0); ring.
  - reflexivity.
  - change (forall x : Qc, qabs (qabs x) = qabs x). intros x. apply qabs_id, qabs_nonneg.
  - change (forall x : Qc, qltb (qabs x) 0 = false). intros x. unfold qltb.
    destruct (Qclt_le_dec (qabs x) 0) as [L|]; [|reflexivity]. exfalso. exact (Qcle_not_lt _ _ (qabs_nonneg x) L).
  - change (forall x : Qc, x <> 0 -> qltb 0 (qabs x) = true). intros x Hx. unfold qltb.
    destruct (Qclt_le_dec 0 (qabs x)) as [|L]; [reflexivity|]. exfalso. apply Hx.
    pose proof (Qcle_antisym _ _ L (qabs_nonneg x)) as E. revert E. unfold qabs. destruct (Qclt_le_dec x 0); [|auto].
    intros E. replace x with (- - x) by ring. rewrite E. reflexivity.
  - change (forall x y : Qc, qltb (qabs x) (qabs y) = true -> qltb (qabs y) (qabs x) = false). intros x y. unfold qltb.
    destruct (Qclt_le_dec (qabs x) (qabs y)) as [L|]; [|discriminate].
    destruct (Qclt_le_dec (qabs y) (qabs x)) as [K|]; [|reflexivity]. exfalso.
    exact (Qcle_not_lt _ _ (Qclt_le_weak _ _ L) K).
  - change (forall x y z : Qc, qltb (qabs y) (qabs x) = false -> qltb (qabs z) (qabs y) = false -> qltb (qabs z) (qabs x) = false).
    intros x y z. unfold qltb.
    destruct (Qclt_le_dec (qabs y) (qabs x)) as [|L]; [discriminate|].
    destruct (Qclt_le_dec (qabs z) (qabs y)) as [|K]; [discriminate|].
    destruct (Qclt_le_dec (qabs z) (qabs x)) as [J|]; [|reflexivity]. exfalso.
    exact (Qcle_not_lt _ _ (Qcle_trans _ _ _ L K) J).
Defined.

Definition q (a : Z) : Q_normed := Q2Qc (inject_Z a).

Open Scope R_scope.

(* hypot *)
Definition cabs (z : R * R) : R * R := (sqrt (cnorm z), 0).
Definition cltb (x y : R * R) : bool := if Rlt_dec (fst x) (fst y) then true else false.

Lemma cnorm_nonneg : forall z, 0 <= cnorm z.
Proof. intros [a b]. unfold cnorm. cbn. nra. Qed.
Lemma cabs_real : forall a, 0 <= a -> cabs (a, 0) = (a, 0).
Proof.
  intros a Ha. unfold cabs, cnorm. cbn [fst snd]. f_equal. replace (a * a + 0 * 0) with (a * a) by ring.
  apply sqrt_square. exact Ha.
Qed.

Definition C_normed : normed.
Proof.
  refine (mknormed C_fields cabs (fun z : R * R => (Rabs (fst z) + Rabs (snd z), 0))
    (fun z : R * R => (fst z, 0)) cltb _ _ _ _ _ _ _ _ _ _ _ _ _).
  - apply cabs_real. lra.
  - apply cabs_real. lra.
  - change (forall x y : R * R, cabs (cmul x y) = cmul (cabs x) (cabs y)). intros x y.
    unfold cabs, cmul. cbn [fst snd]. f_equal; [|ring]. rewrite Rmult_0_l, Rminus_0_r.
    rewrite <- sqrt_mult by apply cnorm_nonneg. f_equal. destruct x, y. unfold cnorm. cbn [fst snd]. ring.
  - change (forall x : R * R, cabs (cabs x) = cabs x). intros x. apply cabs_real, sqrt_pos.
  - change (forall x y : R * R, cabs (cadd (cabs x) (cabs y)) = cadd (cabs x) (cabs y)). intros x y.
    unfold cadd. cbn [fst snd cabs]. rewrite Rplus_0_r. apply cabs_real.
    pose proof (sqrt_pos (cnorm x)). pose proof (sqrt_pos (cnorm y)). lra.
  - change (forall x : R * R, cabs x = (0, 0) -> x = (0, 0)). intros x E. unfold cabs in E. injection E as E.
    apply sqrt_eq_0 in E; [|apply cnorm_nonneg]. destruct x as [a b]. unfold cnorm in E. cbn [fst snd] in E.
    f_equal; nra.
  - change (forall x : R * R, cmul (cabs x) (cabs x) = cmul x (cconj x)). intros [a b]. unfold cabs, cmul, cconj. cbn [fst snd].
    f_equal; [|ring]. rewrite sqrt_sqrt by apply cnorm_nonneg. unfold cnorm. cbn [fst snd]. ring.
  - change (forall x : R * R, cabs (cconj x) = cabs x). intros [a b]. unfold cabs, cnorm, cconj. cbn [fst snd].
    f_equal. f_equal. ring.
  - change (forall z : R * R, cabs (Rabs (fst z) + Rabs (snd z), 0) = (Rabs (fst z) + Rabs (snd z), 0)). intros z.
    apply cabs_real. pose proof (Rabs_pos (fst z)). pose proof (Rabs_pos (snd z)). lra.
  - change (forall x : R * R, cltb (cabs x) (0, 0) = false). intros x. unfold cltb, cabs. cbn [fst].
    pose proof (sqrt_pos (cnorm x)). destruct (Rlt_dec (sqrt (cnorm x)) 0); [lra|reflexivity].
  - change (forall x : R * R, x <> (0, 0) -> cltb (0, 0) (cabs x) = true). intros x Hx. unfold cltb, cabs. cbn [fst].
    pose proof (sqrt_lt_R0 _ (cnorm_pos x Hx)). destruct (Rlt_dec 0 (sqrt (cnorm x))); [reflexivity|lra].
  - change (forall x y : R * R, cltb (cabs x) (cabs y) = true -> cltb (cabs y) (cabs x) = false). intros x y.
    unfold cltb, cabs. cbn [fst]. destruct (Rlt_dec (sqrt (cnorm x)) (sqrt (cnorm y))); [|discriminate].
    destruct (Rlt_dec (sqrt (cnorm y)) (sqrt (cnorm x))); [lra|reflexivity].
  - change (forall x y z : R * R, cltb (cabs y) (cabs x) = false -> cltb (cabs z) (cabs y) = false -> cltb (cabs z) (cabs x) = false).
    intros x y z. unfold cltb, cabs. cbn [fst].
    destruct (Rlt_dec (sqrt (cnorm y)) (sqrt (cnorm x))); [discriminate|].
    destruct (Rlt_dec (sqrt (cnorm z)) (sqrt (cnorm y))); [discriminate|].
    destruct (Rlt_dec (sqrt (cnorm z)) (sqrt (cnorm x))); [lra|reflexivity].
Defined.

(* A lassq that meets its contract: LAPACK 3.9 and older, with absolute values instead of
   real and imaginary parts. *)
Definition lassq_ref {N : normed} (xs : list N) (s : N * N) : N * N := fold_left (fun s x => ssq s (nabs x)) xs s.
