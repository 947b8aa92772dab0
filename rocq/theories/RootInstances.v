(* Square roots of perfect squares among the complex numbers with rational parts; used in
   examples. *)
From Coq Require Import ZArith QArith Qcanon Bool.
From Verif Require Import Base NumModel FieldModel FieldInstances PotrfModel.
Open Scope Qc_scope.

(* core_blas/core_zpotrf.c:55-58: the square root of a pivot that is a positive perfect square *)
Definition qrt (z : Qc * Qc) : option (Qc * Qc) :=
  let r := Q2Qc (Z.sqrt (Qnum (fst z)) # Z.to_pos (Z.sqrt (Zpos (Qden (fst z))))) in
  if Qc_eq_bool (r * r) (fst z) && negb (Qc_eq_bool r 0) && Qc_eq_bool (snd z) 0 then Some (r, 0) else None.

Lemma qrt_some : forall z r, qrt z = Some r -> exists q, r = (q, 0) /\ z = (q * q, 0) /\ q <> 0.
Proof.
  intros [a b] r. unfold qrt. cbn [fst snd].
  remember (Q2Qc (Z.sqrt (Qnum a) # Z.to_pos (Z.sqrt (Zpos (Qden a))))) as q eqn:Eq. clear Eq.
  destruct (Qc_eq_bool (q * q) a && negb (Qc_eq_bool q 0) && Qc_eq_bool b 0) eqn:E; [|discriminate].
  intros H. injection H as <-. apply andb_true_iff in E. destruct E as [E E3]. apply andb_true_iff in E.
  destruct E as [E1 E2]. apply Qc_eq_bool_iff in E1, E3. exists q. subst. split; [reflexivity|]. split; [reflexivity|].
  intros ->. discriminate.
Qed.

Definition QI_roots : roots QI_fields.
Proof.
  refine (mkroots QI_fields qrt _ _ _ _).
  - intros d r H. apply qrt_some in H. destruct H as (q & -> & -> & _).
    change (qmul (q, 0) (q, 0) = (q * q, 0)). unfold qmul. cbn [fst snd]. f_equal; ring.
  - intros d r H. apply qrt_some in H. destruct H as (q & -> & -> & _). reflexivity.
  - intros d r H. apply qrt_some in H. destruct H as (q & -> & -> & N). intros E. apply N. apply (f_equal fst) in E. exact E.
  - intros E. apply (f_equal fst) in E. discriminate.
Defined.

(* the real part *)
Definition qre (z : QI_fields) : QI_fields := (fst z, 0).
Lemma qre_real : forall z : QI_fields, nconj z = z -> qre z = z.
Proof.
  intros [a b] H. unfold qre. cbn in *. f_equal. apply (f_equal snd) in H. cbn in H.
  assert (D : b + b = 0) by (rewrite <- H at 1; ring).
  assert (D2 : (1 + 1) * b = 0) by (rewrite <- D; ring). apply Qcmult_integral in D2.
  destruct D2 as [D2|D2]; [discriminate|symmetry; assumption].
Qed.
