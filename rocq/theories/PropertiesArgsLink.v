(* Property C12: a refused call has no effect; the driver returns the code and runs nothing. *)
From Coq Require Import ZArith List Bool Lia.
From Verif Require Import FieldModel ArgsModel ArgsSpec ArgsProofs BandModel Base DescDriverModel DescModel DriverModel EwModel GbmmModel GemmModel GesvModel GetrfModel GetriModel GetrsModel LagModel LqModel LsModel MatModel NormBandModel NormModel NormTriModel NumModel PbtrsModel PosvModel PotrfModel QrModel RankModel SwpModel SymmModel TaskModel TriModel TrtriModel NumInstances ArgsLinkProofs.
Import ListNotations.
Open Scope Z_scope.

Theorem C12_clag2z_no_effect : forall (V : Type) widen nb m n pS ldas pA lda bS bA c, reports (legal_clag2z m n ldas lda) c -> c <> 0 ->
  clag2z (V := V) widen nb m n pS ldas pA lda bS bA = Returns c.
Proof. exact no_effect_clag2z. Qed.
Print Assumptions C12_clag2z_no_effect.

Theorem C12_dzamax_no_effect : forall (N : normed) nb colrow m n pA lda bA bW values c, reports (legal_dzamax colrow m n lda) c -> c <> 0 ->
  dzamax (N := N) nb colrow m n pA lda bA bW values = VReturns c.
Proof. exact no_effect_dzamax. Qed.
Print Assumptions C12_dzamax_no_effect.

Theorem C12_zgbmm_no_effect : forall (N : numbers) nb transa transb m n k kl ku alpha pA lda pB ldb beta pC ldc bA bB bC, ~ ((In transa [111;112;113]) /\ (In transb [111;112;113]) /\ (0 <= m) /\ (0 <= n) /\ (0 <= k) /\ (0 <= kl <= m - 1) /\ (0 <= ku <= k - 1) /\ (Z.max 1 (if transa =? 111 then m else k) <= lda) /\ (Z.max 1 (if transb =? 111 then k else n) <= ldb) /\ (Z.max 1 m <= ldc)) ->
  exists c, c <> 0 /\ zgbmm (N := N) nb transa transb m n k kl ku alpha pA lda pB ldb beta pC ldc bA bB bC = Returns c.
Proof. exact no_effect_zgbmm. Qed.
Print Assumptions C12_zgbmm_no_effect.

Theorem C12_zgeadd_no_effect : forall (N : numbers) nb transa m n alpha pA lda beta pB ldb bA bB apA apB c, apA <> 0 -> apB <> 0 -> reports (legal_zgeadd transa m n apA lda apB ldb) c -> c <> 0 ->
  zgeadd (N := N) nb transa m n alpha pA lda beta pB ldb bA bB = Returns c.
Proof. exact no_effect_zgeadd. Qed.
Print Assumptions C12_zgeadd_no_effect.

Theorem C12_zgelqf_no_effect : forall (N : numbers) lg nb ib m n pA lda bA bT c, reports (legal_zgelqf m n lda) c -> c <> 0 ->
  zgelqf (N := N) lg nb ib m n pA lda bA bT = Returns c.
Proof. exact no_effect_zgelqf. Qed.
Print Assumptions C12_zgelqf_no_effect.

Theorem C12_zgeqrf_no_effect : forall (N : numbers) lg nb ib m n pA lda bA bT c, reports (legal_zgeqrf m n lda) c -> c <> 0 ->
  zgeqrf (N := N) lg nb ib m n pA lda bA bT = Returns c.
Proof. exact no_effect_zgeqrf. Qed.
Print Assumptions C12_zgeqrf_no_effect.

Theorem C12_zgetrf_no_effect : forall (F : fields) bigger nb ib mpt m n pA lda pI bA c, reports (legal_zgetrf m n lda) c -> c <> 0 ->
  zgetrf (F := F) bigger nb ib mpt m n pA lda pI bA = RReturns c.
Proof. exact no_effect_zgetrf. Qed.
Print Assumptions C12_zgetrf_no_effect.

Theorem C12_zgelqs_no_effect : forall (F : fields) nb m n nrhs pA lda bT T pB ldb bA bB c, reports (legal_zgelqs m n nrhs lda ldb) c -> c <> 0 ->
  zgelqs (F := F) nb m n nrhs pA lda bT T pB ldb bA bB = Returns c.
Proof. exact no_effect_zgelqs. Qed.
Print Assumptions C12_zgelqs_no_effect.

Theorem C12_zgels_no_effect : forall (F : fields) lg nb ib trans m n nrhs pA lda pB ldb bA bB bT, ~ ((In trans [111;113]) /\ (0 <= m) /\ (0 <= n) /\ (0 <= nrhs) /\ (Z.max 1 m <= lda) /\ (Z.max 1 (Z.max m n) <= ldb)) ->
  exists c, c <> 0 /\ zgels (F := F) lg nb ib trans m n nrhs pA lda pB ldb bA bB bT = Returns c.
Proof. exact no_effect_zgels. Qed.
Print Assumptions C12_zgels_no_effect.

Theorem C12_zgeqrs_no_effect : forall (F : fields) nb m n nrhs pA lda bT T pB ldb bA bB c, reports (legal_zgeqrs m n nrhs lda ldb) c -> c <> 0 ->
  zgeqrs (F := F) nb m n nrhs pA lda bT T pB ldb bA bB = Returns c.
Proof. exact no_effect_zgeqrs. Qed.
Print Assumptions C12_zgeqrs_no_effect.

Theorem C12_zgesv_no_effect : forall (F : fields) bigger nb ib mpt n nrhs pA lda pI pB ldb bA bB c, reports (legal_zgesv n nrhs lda ldb) c -> c <> 0 ->
  zgesv (F := F) bigger nb ib mpt n nrhs pA lda pI pB ldb bA bB = GReturns c.
Proof. exact no_effect_zgesv. Qed.
Print Assumptions C12_zgesv_no_effect.

Theorem C12_zgeswp_no_effect : forall (V : Type) nb colrow m n pA lda pI ipiv incx bA c, reports (legal_zgeswp colrow m n lda) c -> c <> 0 ->
  zgeswp (V := V) nb colrow m n pA lda pI ipiv incx bA = Returns c.
Proof. exact no_effect_zgeswp. Qed.
Print Assumptions C12_zgeswp_no_effect.

Theorem C12_zgetri_no_effect : forall (F : fields) nb n pA lda pI ipiv bA bW c, reports (legal_zgetri n lda) c -> c <> 0 ->
  zgetri (F := F) nb n pA lda pI ipiv bA bW = GReturns c.
Proof. exact no_effect_zgetri. Qed.
Print Assumptions C12_zgetri_no_effect.

Theorem C12_zgetri_aux_no_effect : forall (F : fields) nb n pA lda bA bW c, reports (legal_zgetri_aux n lda) c -> c <> 0 ->
  zgetri_aux (F := F) nb n pA lda bA bW = Returns c.
Proof. exact no_effect_zgetri_aux. Qed.
Print Assumptions C12_zgetri_aux_no_effect.

Theorem C12_zgetrs_no_effect : forall (F : fields) nb trans n nrhs pA lda pI ipiv pB ldb bA bB, ~ ((In trans [111;112;113]) /\ (0 <= n) /\ (0 <= nrhs) /\ (Z.max 1 n <= lda) /\ (Z.max 1 n <= ldb)) ->
  exists c, c <> 0 /\ zgetrs (F := F) nb trans n nrhs pA lda pI ipiv pB ldb bA bB = Returns c.
Proof. exact no_effect_zgetrs. Qed.
Print Assumptions C12_zgetrs_no_effect.

Theorem C12_zhemm_no_effect : forall (N : numbers) rp nb side uplo m n alpha pA lda pB ldb beta pC ldc bA bB bC c, reports (legal_zhemm side uplo m n lda ldb ldc) c -> c <> 0 ->
  zhemm (N := N) rp nb side uplo m n alpha pA lda pB ldb beta pC ldc bA bB bC = Returns c.
Proof. exact no_effect_zhemm. Qed.
Print Assumptions C12_zhemm_no_effect.

Theorem C12_zsymm_no_effect : forall (N : numbers) nb side uplo m n alpha pA lda pB ldb beta pC ldc bA bB bC c, reports (legal_zsymm side uplo m n lda ldb ldc) c -> c <> 0 ->
  zsymm (N := N) nb side uplo m n alpha pA lda pB ldb beta pC ldc bA bB bC = Returns c.
Proof. exact no_effect_zsymm. Qed.
Print Assumptions C12_zsymm_no_effect.

Theorem C12_zher2k_no_effect : forall (N : numbers) rp nb uplo trans n k alpha pA lda pB ldb beta pC ldc bA bB bC c, reports (legal_zher2k uplo trans n k lda ldb ldc) c -> c <> 0 ->
  zher2k (N := N) rp nb uplo trans n k alpha pA lda pB ldb beta pC ldc bA bB bC = Returns c.
Proof. exact no_effect_zher2k. Qed.
Print Assumptions C12_zher2k_no_effect.

Theorem C12_zsyr2k_no_effect : forall (N : numbers) nb uplo trans n k alpha pA lda pB ldb beta pC ldc bA bB bC c, reports (legal_zsyr2k uplo trans n k lda ldb ldc) c -> c <> 0 ->
  zsyr2k (N := N) nb uplo trans n k alpha pA lda pB ldb beta pC ldc bA bB bC = Returns c.
Proof. exact no_effect_zsyr2k. Qed.
Print Assumptions C12_zsyr2k_no_effect.

Theorem C12_zherk_no_effect : forall (N : numbers) rp nb uplo trans n k alpha pA lda beta pC ldc bA bC c, reports (legal_zherk uplo trans n k lda ldc) c -> c <> 0 ->
  zherk (N := N) rp nb uplo trans n k alpha pA lda beta pC ldc bA bC = Returns c.
Proof. exact no_effect_zherk. Qed.
Print Assumptions C12_zherk_no_effect.

Theorem C12_zsyrk_no_effect : forall (N : numbers) nb uplo trans n k alpha pA lda beta pC ldc bA bC c, reports (legal_zsyrk uplo trans n k lda ldc) c -> c <> 0 ->
  zsyrk (N := N) nb uplo trans n k alpha pA lda beta pC ldc bA bC = Returns c.
Proof. exact no_effect_zsyrk. Qed.
Print Assumptions C12_zsyrk_no_effect.

Theorem C12_zlacpy_no_effect : forall (N : numbers) nb uplo transa m n pA lda pB ldb bA bB c, reports (legal_zlacpy uplo transa m n lda ldb) c -> c <> 0 ->
  zlacpy (N := N) nb uplo transa m n pA lda pB ldb bA bB = Returns c.
Proof. exact no_effect_zlacpy. Qed.
Print Assumptions C12_zlacpy_no_effect.

Theorem C12_zlag2c_no_effect : forall (V : Type) narrow fits nb m n pA lda pS ldas bA bS c, reports (legal_zlag2c m n lda ldas) c -> c <> 0 ->
  zlag2c (V := V) narrow fits nb m n pA lda pS ldas bA bS = GReturns c.
Proof. exact no_effect_zlag2c. Qed.
Print Assumptions C12_zlag2c_no_effect.

Theorem C12_zlangb_no_effect : forall (N : normed) lassq nsqrt nb norm m n kl ku pAB ldab bA bW value c, reports (legal_zlangb norm m n kl ku ldab) c -> c <> 0 ->
  zlangb (N := N) lassq nsqrt nb norm m n kl ku pAB ldab bA bW value = VReturns c.
Proof. exact no_effect_zlangb. Qed.
Print Assumptions C12_zlangb_no_effect.

Theorem C12_zlange_no_effect : forall (N : normed) lassq nsqrt nb norm m n pA lda bA bW value c, reports (legal_zlange norm m n lda) c -> c <> 0 ->
  zlange (N := N) lassq nsqrt nb norm m n pA lda bA bW value = VReturns c.
Proof. exact no_effect_zlange. Qed.
Print Assumptions C12_zlange_no_effect.

Theorem C12_zlansy_no_effect : forall (N : normed) lassq nsqrt dg nb norm uplo n pA lda bA bW value c, reports (legal_zlansy norm uplo n lda) c -> c <> 0 ->
  zlansy (N := N) lassq nsqrt dg nb norm uplo n pA lda bA bW value = VReturns c.
Proof. exact no_effect_zlansy. Qed.
Print Assumptions C12_zlansy_no_effect.

Theorem C12_zlantr_no_effect : forall (N : normed) lassq nsqrt nb norm uplo diag m n pA lda bA bW value c, reports (legal_zlantr norm uplo diag m n lda) c -> c <> 0 ->
  zlantr (N := N) lassq nsqrt nb norm uplo diag m n pA lda bA bW value = VReturns c.
Proof. exact no_effect_zlantr. Qed.
Print Assumptions C12_zlantr_no_effect.

Theorem C12_zlaset_no_effect : forall (N : numbers) nb uplo m n alpha beta pA lda bA, ~ ((In uplo [123;121;122]) /\ (0 <= m) /\ (0 <= n) /\ (Z.max 1 m <= lda)) ->
  exists c, c <> 0 /\ zlaset (N := N) nb uplo m n alpha beta pA lda bA = Returns c.
Proof. exact no_effect_zlaset. Qed.
Print Assumptions C12_zlaset_no_effect.

Theorem C12_zlauum_no_effect : forall (F : fields) rp nb uplo n pA lda bA c, reports (legal_zlauum uplo n lda) c -> c <> 0 ->
  zlauum (F := F) rp nb uplo n pA lda bA = Returns c.
Proof. exact no_effect_zlauum. Qed.
Print Assumptions C12_zlauum_no_effect.

Theorem C12_zpoinv_no_effect : forall (F : fields) rp R nb uplo n pA lda bA c, reports (legal_zpoinv uplo n lda) c -> c <> 0 ->
  zpoinv (F := F) rp R nb uplo n pA lda bA = GReturns c.
Proof. exact no_effect_zpoinv. Qed.
Print Assumptions C12_zpoinv_no_effect.

Theorem C12_zpotrf_no_effect : forall (F : fields) R rp nb uplo n pA lda bA c, reports (legal_zpotrf uplo n lda) c -> c <> 0 ->
  zpotrf (F := F) R rp nb uplo n pA lda bA = GReturns c.
Proof. exact no_effect_zpotrf. Qed.
Print Assumptions C12_zpotrf_no_effect.

Theorem C12_zpotri_no_effect : forall (F : fields) rp nb uplo n pA lda bA c, reports (legal_zpotri uplo n lda) c -> c <> 0 ->
  zpotri (F := F) rp nb uplo n pA lda bA = GReturns c.
Proof. exact no_effect_zpotri. Qed.
Print Assumptions C12_zpotri_no_effect.

Theorem C12_zpbsv_no_effect : forall (F : fields) R rp nb uplo n kd nrhs pAB ldab pB ldb bA bB c, reports (legal_zpbsv uplo n kd nrhs ldab ldb) c -> c <> 0 ->
  zpbsv (F := F) R rp nb uplo n kd nrhs pAB ldab pB ldb bA bB = GReturns c.
Proof. exact no_effect_zpbsv. Qed.
Print Assumptions C12_zpbsv_no_effect.

Theorem C12_zpbtrf_no_effect : forall (F : fields) R rp nb uplo n kd pAB ldab bA c, reports (legal_zpbtrf uplo n kd ldab) c -> c <> 0 ->
  zpbtrf (F := F) R rp nb uplo n kd pAB ldab bA = GReturns c.
Proof. exact no_effect_zpbtrf. Qed.
Print Assumptions C12_zpbtrf_no_effect.

Theorem C12_zpbtrs_no_effect : forall (F : fields) nb uplo n kd nrhs pAB ldab pB ldb bA bB, ~ ((In uplo [121;122]) /\ (0 <= n) /\ (0 <= kd) /\ (0 <= nrhs) /\ (Z.max 1 (1 + kd) <= ldab) /\ (Z.max 1 n <= ldb)) ->
  exists c, c <> 0 /\ zpbtrs (F := F) nb uplo n kd nrhs pAB ldab pB ldb bA bB = Returns c.
Proof. exact no_effect_zpbtrs. Qed.
Print Assumptions C12_zpbtrs_no_effect.

Theorem C12_zposv_no_effect : forall (F : fields) R rp nb uplo n nrhs pA lda pB ldb bA bB c, reports (legal_zposv uplo n nrhs lda ldb) c -> c <> 0 ->
  zposv (F := F) R rp nb uplo n nrhs pA lda pB ldb bA bB = GReturns c.
Proof. exact no_effect_zposv. Qed.
Print Assumptions C12_zposv_no_effect.

Theorem C12_zpotrs_no_effect : forall (F : fields) nb uplo n nrhs pA lda pB ldb bA bB c, reports (legal_zpotrs uplo n nrhs lda ldb) c -> c <> 0 ->
  zpotrs (F := F) nb uplo n nrhs pA lda pB ldb bA bB = Returns c.
Proof. exact no_effect_zpotrs. Qed.
Print Assumptions C12_zpotrs_no_effect.

Theorem C12_ztradd_no_effect : forall (N : numbers) nb uplo transa m n alpha pA lda beta pB ldb bA bB apA apB c, apA <> 0 -> apB <> 0 -> reports (legal_ztradd uplo transa m n apA lda apB ldb) c -> c <> 0 ->
  ztradd (N := N) nb uplo transa m n alpha pA lda beta pB ldb bA bB = Returns c.
Proof. exact no_effect_ztradd. Qed.
Print Assumptions C12_ztradd_no_effect.

Theorem C12_ztrmm_no_effect : forall (N : numbers) nb side uplo transa diag m n alpha pA lda pB ldb bA bB, ~ ((In side [141;142]) /\ (In uplo [121;122]) /\ (In transa [111;112;113]) /\ (In diag [132;131]) /\ (0 <= m) /\ (0 <= n) /\ (Z.max 1 (if side =? 141 then m else n) <= lda) /\ (Z.max 1 m <= ldb)) ->
  exists c, c <> 0 /\ ztrmm (N := N) nb side uplo transa diag m n alpha pA lda pB ldb bA bB = Returns c.
Proof. exact no_effect_ztrmm. Qed.
Print Assumptions C12_ztrmm_no_effect.

Theorem C12_ztrsm_no_effect : forall (F : fields) nb side uplo transa diag m n alpha pA lda pB ldb bA bB, ~ ((In side [141;142]) /\ (In uplo [121;122]) /\ (In transa [111;112;113]) /\ (In diag [132;131]) /\ (0 <= m) /\ (0 <= n) /\ (Z.max 1 (if side =? 141 then m else n) <= lda) /\ (Z.max 1 m <= ldb)) ->
  exists c, c <> 0 /\ ztrsm (F := F) nb side uplo transa diag m n alpha pA lda pB ldb bA bB = Some (Returns c).
Proof. exact no_effect_ztrsm. Qed.
Print Assumptions C12_ztrsm_no_effect.

Theorem C12_ztrtri_no_effect : forall (F : fields) nb uplo diag n pA lda bA c, reports (legal_ztrtri uplo diag n lda) c -> c <> 0 ->
  ztrtri (F := F) nb uplo diag n pA lda bA = GReturns c.
Proof. exact no_effect_ztrtri. Qed.
Print Assumptions C12_ztrtri_no_effect.

Theorem C12_zunglq_no_effect : forall (N : numbers) nb m n k pA lda bT T pQ ldq bA bQ c, reports (legal_zunglq m n k lda ldq) c -> c <> 0 ->
  zunglq (N := N) nb m n k pA lda bT T pQ ldq bA bQ = Returns c.
Proof. exact no_effect_zunglq. Qed.
Print Assumptions C12_zunglq_no_effect.

Theorem C12_zungqr_no_effect : forall (N : numbers) nb m n k pA lda bT T pQ ldq bA bQ c, reports (legal_zungqr m n k lda ldq) c -> c <> 0 ->
  zungqr (N := N) nb m n k pA lda bT T pQ ldq bA bQ = Returns c.
Proof. exact no_effect_zungqr. Qed.
Print Assumptions C12_zungqr_no_effect.

Theorem C12_zunmlq_no_effect : forall (N : numbers) nb side trans m n k pA lda bT T pC ldc bA bC c, reports (legal_zunmlq side trans m n k lda ldc) c -> c <> 0 ->
  zunmlq (N := N) nb side trans m n k pA lda bT T pC ldc bA bC = Returns c.
Proof. exact no_effect_zunmlq. Qed.
Print Assumptions C12_zunmlq_no_effect.

Theorem C12_zunmqr_no_effect : forall (N : numbers) nb side trans m n k pA lda bT T pC ldc bA bC c, reports (legal_zunmqr side trans m n k lda ldc) c -> c <> 0 ->
  zunmqr (N := N) nb side trans m n k pA lda bT T pC ldc bA bC = Returns c.
Proof. exact no_effect_zunmqr. Qed.
Print Assumptions C12_zunmqr_no_effect.

Theorem C12_zlanhe_no_effect : forall (N : normed) lassq nsqrt dg nb norm uplo n pA lda bA bW value c, reports (legal_zlanhe norm uplo n lda) c -> c <> 0 ->
  zlansy (N := N) lassq nsqrt dg nb norm uplo n pA lda bA bW value = VReturns c.
Proof. exact no_effect_zlanhe. Qed.
Print Assumptions C12_zlanhe_no_effect.

(* cfrom and cto count by their class: 0 for zero, 1 for NaN (which a field lacks), 2 for others *)
Theorem C12_zlascl_no_effect : forall (F : fields) nb uplo (cfrom cto : F) m n pA lda bA ct c, ct <> 1 ->
  reports (legal_zlascl uplo (if neqb cfrom n0 then 0 else 2) ct m n lda) c -> c <> 0 ->
  zlascl (F := F) nb uplo cfrom cto m n pA lda bA = Returns c.
Proof. exact no_effect_zlascl. Qed.
Print Assumptions C12_zlascl_no_effect.

(* plasma_zgeinv misses an illegal leading dimension (C12_zgeinv_refuted); what it refuses has no effect *)
Theorem C12_zgeinv_no_effect_partial : forall (F : fields) bigger nb ib mpt m n pA lda pI bA bW, arg_code (chk_zgeinv m n lda) <> 0 ->
  zgeinv (F := F) bigger nb ib mpt m n pA lda pI bA bW = GReturns (arg_code (chk_zgeinv m n lda)).
Proof. exact link_zgeinv. Qed.
Print Assumptions C12_zgeinv_no_effect_partial.

(* a case: a negative n *)
Example C12_no_effect_case :
  reports (legal_zlacpy 121 111 3 (-1) 3 3) (-4) /\
  zlacpy (N := G_numbers) 2 121 111 3 (-1) (0, 0) 3 (1, 0) 3 2 3 = Returns (-4).
Proof.
  split; [|reflexivity].
  unfold legal_zlacpy. do 3 (apply reports_later; [cbn; intuition discriminate|]).
  apply (reports_here 4). lia.
Qed.
