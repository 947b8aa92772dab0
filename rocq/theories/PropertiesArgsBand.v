(* Property C12 for the routines on general band matrices and plasma_zcposv: a refused call has no effect. *)
From Coq Require Import ZArith List Bool Lia.
From Verif Require Import Base FieldModel FieldInstances TaskModel ArgsModel ArgsSpec GbtrsModel GbtrfDriverModel GbsvModel NormModel RefineTaskModel ArgsLinkBandProofs.
Import ListNotations.
Open Scope Z_scope.

Theorem C12_zgbtrf_no_effect : forall (F : fields) bigger nb ib mpt m n kl ku pAB ldab pI bA c,
  reports (legal_zgbtrf m n kl ku ldab) c -> c <> 0 ->
  zgbtrf (F := F) bigger nb ib mpt m n kl ku pAB ldab pI bA = BReturns c.
Proof. exact no_effect_zgbtrf. Qed.
Print Assumptions C12_zgbtrf_no_effect.

Theorem C12_zgbtrs_no_effect : forall (F : fields) nb trans n kl ku nrhs pAB ldab ipiv pB ldb bA bB c,
  reports (legal_zgbtrs trans n kl ku nrhs ldab ldb) c -> c <> 0 ->
  zgbtrs (F := F) nb trans n kl ku nrhs pAB ldab ipiv pB ldb bA bB = PReturns c.
Proof. exact no_effect_zgbtrs. Qed.
Print Assumptions C12_zgbtrs_no_effect.

Theorem C12_zgbsv_no_effect : forall (F : fields) bigger nb ib mpt n kl ku nrhs pAB ldab pI pB ldb bA bB,
  ~ ((0 <= n) /\ (0 <= kl) /\ (0 <= ku) /\ (0 <= nrhs) /\ (Z.max 1 (1 + kl + ku) <= ldab) /\ (Z.max 1 n <= ldb)) ->
  exists c, c <> 0 /\ zgbsv (F := F) bigger nb ib mpt n kl ku nrhs pAB ldab pI pB ldb bA bB = SReturns c.
Proof. exact no_effect_zgbsv. Qed.
Print Assumptions C12_zgbsv_no_effect.

Theorem C12_zcposv_no_effect : forall (N : normed) lassq nsqrt narrow widen fits R rp dg eps sqrt_n fs ss nb uplo n nrhs pA lda pB ldb pX ldx bA bB bX bR bS bXs bW bN c,
  reports (legal_zcposv uplo n nrhs lda ldb ldx) c -> c <> 0 ->
  zcposv (N := N) lassq nsqrt narrow widen fits R rp dg eps sqrt_n fs ss nb uplo n nrhs pA lda pB ldb pX ldx bA bB bX bR bS bXs bW bN
  = XReturns None c.
Proof. exact no_effect_zcposv. Qed.
Print Assumptions C12_zcposv_no_effect.

Example C12_zgbtrf_case : reports (legal_zgbtrf 3 3 1 (-1) 4) (-4) /\
  zgbtrf (F := QI_fields) (fun _ _ => false) 2 1 1 3 3 1 (-1) (0, 0) 4 (1, 0) 2 = BReturns (-4).
Proof.
  split; [|reflexivity].
  unfold legal_zgbtrf. do 3 (apply reports_later; [cbn; lia|]). apply (reports_here 4). lia.
Qed.
