(* Calls of plasma_zgbmm that its documentation admits and its argument checks refuse. *)
From Coq Require Import ZArith List Bool Lia.
From Verif Require Import Base NumModel TaskModel TaskSpec DescModel DescDriverModel MatModel
  LayoutModel DriverModel DriverSpec GbmmModel.
Import ListNotations.
Open Scope Z_scope.

Lemma zgbmm_k0_all : forall (N : numbers) nb ta tb m n kl ku (alpha : N) pA lda pB ldb beta pC ldc bA bB bC M Q,
  ~ driver_ensures (zgbmm nb ta tb m n 0 kl ku alpha pA lda pB ldb beta pC ldc bA bB bC) M Q.
Proof.
  intros. unfold zgbmm. cbv zeta.
  replace ((ku <? 0) || (0 - 1 <? ku)) with true.
  2:{ symmetry. rewrite orb_true_iff, !Z.ltb_lt. lia. }
  repeat match goal with |- ~ driver_ensures (if ?c then _ else _) _ _ => destruct c end;
    intros [H _]; discriminate H.
Qed.

Lemma zgbmm_m0_all : forall (N : numbers) nb ta tb n k kl ku (alpha : N) pA lda pB ldb beta pC ldc bA bB bC M Q,
  ~ driver_ensures (zgbmm nb ta tb 0 n k kl ku alpha pA lda pB ldb beta pC ldc bA bB bC) M Q.
Proof.
  intros. unfold zgbmm. cbv zeta.
  replace ((kl <? 0) || (0 - 1 <? kl)) with true.
  2:{ symmetry. rewrite orb_true_iff, !Z.ltb_lt. lia. }
  repeat match goal with |- ~ driver_ensures (if ?c then _ else _) _ _ => destruct c end;
    intros [H _]; discriminate H.
Qed.

Lemma zgbmm_k0 : exists k, 0 <= k /\
  forall (N : numbers) nb ta tb m n kl ku (alpha : N) pA lda pB ldb beta pC ldc bA bB bC M Q,
  ~ driver_ensures (zgbmm nb ta tb m n k kl ku alpha pA lda pB ldb beta pC ldc bA bB bC) M Q.
Proof. exists 0. split; [lia|]. exact zgbmm_k0_all. Qed.

Lemma zgbmm_m0 : exists m, 0 <= m /\
  forall (N : numbers) nb ta tb n k kl ku (alpha : N) pA lda pB ldb beta pC ldc bA bB bC M Q,
  ~ driver_ensures (zgbmm nb ta tb m n k kl ku alpha pA lda pB ldb beta pC ldc bA bB bC) M Q.
Proof. exists 0. split; [lia|]. exact zgbmm_m0_all. Qed.

Lemma zgbmm_trans : exists nb m n k kl ku lda ldb ldc,
  0 < nb /\ 0 <= m /\ 0 <= n /\ 0 <= kl < k /\ 0 <= ku < m /\ k <= lda /\ k <= ldb /\ m <= ldc /\
  forall (N : numbers) (alpha : N) pA pB beta pC bA bB bC M Q,
  ~ driver_ensures (zgbmm nb PlasmaTrans PlasmaNoTrans m n k kl ku alpha pA lda pB ldb beta pC ldc bA bB bC) M Q.
Proof.
  exists 2, 2, 1, 4, 3, 0, 4, 4, 2. repeat split; try lia. intros. intros [H _]. discriminate H.
Qed.
