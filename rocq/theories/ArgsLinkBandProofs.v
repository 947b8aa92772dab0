(* As ArgsLinkProofs.v, for the routines on general band matrices and plasma_zcposv. *)
From Coq Require Import ZArith List Bool Lia.
From Verif Require Import Base FieldModel TaskModel MatModel DescModel ArgsModel ArgsSpec ArgsProofs GbtrsModel GbtrfDriverModel GbsvModel NormModel RefineTaskModel ArgsLinkProofs.
Import ListNotations.
Open Scope Z_scope.

Lemma link_zgbtrf : forall (F : fields) bigger nb ib mpt m n kl ku pAB ldab pI bA, arg_code (chk_zgbtrf m n kl ku ldab) <> 0 ->
  zgbtrf (F := F) bigger nb ib mpt m n kl ku pAB ldab pI bA = BReturns (arg_code (chk_zgbtrf m n kl ku ldab)).
Proof. intros *. unfold chk_zgbtrf, zgbtrf. args_tac. Qed.
Lemma link_zgbtrs : forall (F : fields) nb trans n kl ku nrhs pAB ldab ipiv pB ldb bA bB,
  arg_code (chk_zgbtrs trans n kl ku nrhs ldab ldb) <> 0 ->
  zgbtrs (F := F) nb trans n kl ku nrhs pAB ldab ipiv pB ldb bA bB = PReturns (arg_code (chk_zgbtrs trans n kl ku nrhs ldab ldb)).
Proof. intros *. unfold chk_zgbtrs, zgbtrs. args_tac. Qed.
Lemma link_zgbsv : forall (F : fields) bigger nb ib mpt n kl ku nrhs pAB ldab pI pB ldb bA bB,
  arg_code (chk_zgbsv n kl ku nrhs ldab ldb) <> 0 ->
  zgbsv (F := F) bigger nb ib mpt n kl ku nrhs pAB ldab pI pB ldb bA bB = SReturns (arg_code (chk_zgbsv n kl ku nrhs ldab ldb)).
Proof. intros *. unfold chk_zgbsv, zgbsv. args_tac. Qed.

Lemma no_effect_zgbtrf : forall (F : fields) bigger nb ib mpt m n kl ku pAB ldab pI bA c,
  reports (legal_zgbtrf m n kl ku ldab) c -> c <> 0 ->
  zgbtrf (F := F) bigger nb ib mpt m n kl ku pAB ldab pI bA = BReturns c.
Proof. intros * R. rewrite <- (reports_fun _ _ _ (args_zgbtrf m n kl ku ldab) R). apply link_zgbtrf. Qed.
Lemma no_effect_zgbtrs : forall (F : fields) nb trans n kl ku nrhs pAB ldab ipiv pB ldb bA bB c,
  reports (legal_zgbtrs trans n kl ku nrhs ldab ldb) c -> c <> 0 ->
  zgbtrs (F := F) nb trans n kl ku nrhs pAB ldab ipiv pB ldb bA bB = PReturns c.
Proof. intros * R. rewrite <- (reports_fun _ _ _ (args_zgbtrs trans n kl ku nrhs ldab ldb) R). apply link_zgbtrs. Qed.
Lemma no_effect_zgbsv : forall (F : fields) bigger nb ib mpt n kl ku nrhs pAB ldab pI pB ldb bA bB,
  ~ ((0 <= n) /\ (0 <= kl) /\ (0 <= ku) /\ (0 <= nrhs) /\ (Z.max 1 (1 + kl + ku) <= ldab) /\ (Z.max 1 n <= ldb)) ->
  exists c, c <> 0 /\ zgbsv (F := F) bigger nb ib mpt n kl ku nrhs pAB ldab pI pB ldb bA bB = SReturns c.
Proof.
  intros * H. exists (arg_code (chk_zgbsv n kl ku nrhs ldab ldb)).
  assert (E : arg_code (chk_zgbsv n kl ku nrhs ldab ldb) <> 0) by (intros E; apply H; apply args_zgbsv_rejects; exact E).
  split; [exact E|apply link_zgbsv; exact E].
Qed.

Lemma link_zcposv : forall (N : normed) lassq nsqrt narrow widen fits R rp dg eps sqrt_n fs ss nb uplo n nrhs pA lda pB ldb pX ldx bA bB bX bR bS bXs bW bN,
  arg_code (chk_zcposv uplo n nrhs lda ldb ldx) <> 0 ->
  zcposv (N := N) lassq nsqrt narrow widen fits R rp dg eps sqrt_n fs ss nb uplo n nrhs pA lda pB ldb pX ldx bA bB bX bR bS bXs bW bN
  = XReturns None (arg_code (chk_zcposv uplo n nrhs lda ldb ldx)).
Proof. intros *. unfold chk_zcposv, zcposv. args_tac. Qed.
Lemma no_effect_zcposv : forall (N : normed) lassq nsqrt narrow widen fits R rp dg eps sqrt_n fs ss nb uplo n nrhs pA lda pB ldb pX ldx bA bB bX bR bS bXs bW bN c,
  reports (legal_zcposv uplo n nrhs lda ldb ldx) c -> c <> 0 ->
  zcposv (N := N) lassq nsqrt narrow widen fits R rp dg eps sqrt_n fs ss nb uplo n nrhs pA lda pB ldb pX ldx bA bB bX bR bS bXs bW bN
  = XReturns None c.
Proof. intros * R0. rewrite <- (reports_fun _ _ _ (args_zcposv uplo n nrhs lda ldb ldx) R0). apply link_zcposv. Qed.
