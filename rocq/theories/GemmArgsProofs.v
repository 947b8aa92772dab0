(* The argument checks inside the model of plasma_zgemm are those of ArgsModel. *)
From Coq Require Import ZArith List Bool Lia.
From Verif Require Import Base DescModel DescProofs DescDriverModel DescProofs3 DescProofs4 NumModel MatModel DriverModel GemmModel GemmProofs ArgsModel ArgsSpec ArgsProofs.
Import ListNotations.
Open Scope Z_scope.

Lemma zgemm_no_effect : forall (N : numbers) nb transa transb m n k (alpha : N) pA lda pB ldb beta pC ldc bA bB bC c,
  reports (legal_zgemm transa transb m n k lda ldb ldc) c ->
  (c <> 0 -> zgemm nb transa transb m n k alpha pA lda pB ldb beta pC ldc bA bB bC = Returns c) /\
  (c = 0 -> 0 < nb -> forall r, zgemm nb transa transb m n k alpha pA lda pB ldb beta pC ldc bA bB bC = Returns r -> r = 0).
Proof.
  intros N nb transa transb m n k alpha pA lda pB ldb beta pC ldc bA bB bC c H.
  assert (E := reports_fun _ _ _ (args_zgemm transa transb m n k lda ldb ldc) H). subst c. clear H.
  unfold chk_zgemm, zgemm. cbn [arg_code].
  assert (O : forall t, one_of t [111; 112; 113] = (t =? PlasmaNoTrans) || (t =? PlasmaTrans) || (t =? PlasmaConjTrans)).
  { intros t. unfold one_of. cbn [existsb]. rewrite orb_false_r, orb_assoc. reflexivity. }
  rewrite !O. change PlasmaNoTrans with 111.
  destruct (negb ((transa =? 111) || _ || _)); [split; [reflexivity|discriminate]|].
  destruct (negb ((transb =? 111) || _ || _)); [split; [reflexivity|discriminate]|].
  destruct (m <? 0) eqn:E1; [split; [reflexivity|discriminate]|].
  destruct (n <? 0) eqn:E2; [split; [reflexivity|discriminate]|].
  destruct (k <? 0) eqn:E3; [split; [reflexivity|discriminate]|].
  cbv zeta.
  destruct (lda <? Z.max 1 (if transa =? 111 then m else k)); [split; [reflexivity|discriminate]|].
  destruct (ldb <? Z.max 1 (if transb =? 111 then k else n)); [split; [reflexivity|discriminate]|].
  destruct (ldc <? Z.max 1 m); [split; [reflexivity|discriminate]|].
  split; [congruence|]. intros _ Hnb r. apply Z.ltb_ge in E1, E2, E3.
  destruct (_ || _ || _); [intros H; injection H as <-; reflexivity|].
  destruct (ge_create_succeeds nb (if transa =? 111 then m else k) (if transa =? 111 then k else m)) as (A & EA & _);
    [assumption|destruct (transa =? 111); lia|destruct (transa =? 111); lia|].
  destruct (ge_create_succeeds nb (if transb =? 111 then k else n) (if transb =? 111 then n else k)) as (B & EB & _);
    [assumption|destruct (transb =? 111); lia|destruct (transb =? 111); lia|].
  destruct (ge_create_succeeds nb m n) as (C & EC & _); [assumption|lia|lia|].
  rewrite EA, EB, EC. cbn [with_desc]. discriminate.
Qed.
