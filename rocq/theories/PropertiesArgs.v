(* Property C12: argument checks of the synchronous routines. *)
From Coq Require Import ZArith List Bool.
From Verif Require Import Base NumModel DriverModel ArgsModel ArgsSpec ArgsProofs GemmModel GemmArgsProofs.
Import ListNotations.
Open Scope Z_scope.

Theorem C12_clag2z : forall m n ldas lda, reports (legal_clag2z m n ldas lda) (arg_code (chk_clag2z m n ldas lda)).
Proof. exact args_clag2z. Qed.
Print Assumptions C12_clag2z.

Theorem C12_dzamax : forall colrow m n lda, reports (legal_dzamax colrow m n lda) (arg_code (chk_dzamax colrow m n lda)).
Proof. exact args_dzamax. Qed.
Print Assumptions C12_dzamax.

(* the code returned is not minus the position *)
Theorem C12_zcgbsv_refuted : exists n kl ku nrhs ldab ldb ldx, forall c, reports (legal_zcgbsv n kl ku nrhs ldab ldb ldx) c -> arg_code (chk_zcgbsv n kl ku nrhs ldab ldb ldx) <> c.
Proof. exact args_zcgbsv_refuted. Qed.
Print Assumptions C12_zcgbsv_refuted.

Theorem C12_zcgesv : forall n nrhs lda ldb ldx, reports (legal_zcgesv n nrhs lda ldb ldx) (arg_code (chk_zcgesv n nrhs lda ldb ldx)).
Proof. exact args_zcgesv. Qed.
Print Assumptions C12_zcgesv.

Theorem C12_zcposv : forall uplo n nrhs lda ldb ldx, reports (legal_zcposv uplo n nrhs lda ldb ldx) (arg_code (chk_zcposv uplo n nrhs lda ldb ldx)).
Proof. exact args_zcposv. Qed.
Print Assumptions C12_zcposv.

(* but it is 0 exactly when every argument is legal *)
Theorem C12_zgbmm_rejects_partial : forall transa transb m n k kl ku lda ldb ldc, arg_code (chk_zgbmm transa transb m n k kl ku lda ldb ldc) = 0 <-> ((In transa [111;112;113]) /\ (In transb [111;112;113]) /\ (0 <= m) /\ (0 <= n) /\ (0 <= k) /\ (0 <= kl <= m - 1) /\ (0 <= ku <= k - 1) /\ (Z.max 1 (if transa =? 111 then m else k) <= lda) /\ (Z.max 1 (if transb =? 111 then k else n) <= ldb) /\ (Z.max 1 m <= ldc)).
Proof. exact args_zgbmm_rejects. Qed.
Print Assumptions C12_zgbmm_rejects_partial.

(* the code returned is not minus the position *)
Theorem C12_zgbmm_refuted : exists transa transb m n k kl ku lda ldb ldc, forall c, reports (legal_zgbmm transa transb m n k kl ku lda ldb ldc) c -> arg_code (chk_zgbmm transa transb m n k kl ku lda ldb ldc) <> c.
Proof. exact args_zgbmm_refuted. Qed.
Print Assumptions C12_zgbmm_refuted.

(* but it is 0 exactly when every argument is legal *)
Theorem C12_zgbsv_rejects_partial : forall n kl ku nrhs ldab ldb, arg_code (chk_zgbsv n kl ku nrhs ldab ldb) = 0 <-> ((0 <= n) /\ (0 <= kl) /\ (0 <= ku) /\ (0 <= nrhs) /\ (Z.max 1 (1 + kl + ku) <= ldab) /\ (Z.max 1 n <= ldb)).
Proof. exact args_zgbsv_rejects. Qed.
Print Assumptions C12_zgbsv_rejects_partial.

(* the code returned is not minus the position *)
Theorem C12_zgbsv_refuted : exists n kl ku nrhs ldab ldb, forall c, reports (legal_zgbsv n kl ku nrhs ldab ldb) c -> arg_code (chk_zgbsv n kl ku nrhs ldab ldb) <> c.
Proof. exact args_zgbsv_refuted. Qed.
Print Assumptions C12_zgbsv_refuted.

Theorem C12_zgbtrf : forall m n kl ku ldab, reports (legal_zgbtrf m n kl ku ldab) (arg_code (chk_zgbtrf m n kl ku ldab)).
Proof. exact args_zgbtrf. Qed.
Print Assumptions C12_zgbtrf.

Theorem C12_zgbtrs : forall trans n kl ku nrhs ldab ldb, reports (legal_zgbtrs trans n kl ku nrhs ldab ldb) (arg_code (chk_zgbtrs trans n kl ku nrhs ldab ldb)).
Proof. exact args_zgbtrs. Qed.
Print Assumptions C12_zgbtrs.

Theorem C12_zgeadd : forall transa m n pA lda pB ldb, reports (legal_zgeadd transa m n pA lda pB ldb) (arg_code (chk_zgeadd transa m n pA lda pB ldb)).
Proof. exact args_zgeadd. Qed.
Print Assumptions C12_zgeadd.

(* the code returned is not minus the position *)
Theorem C12_zgeinv_refuted : exists m n lda, forall c, reports (legal_zgeinv m n lda) c -> arg_code (chk_zgeinv m n lda) <> c.
Proof. exact args_zgeinv_refuted. Qed.
Print Assumptions C12_zgeinv_refuted.

Theorem C12_zgelqf : forall m n lda, reports (legal_zgelqf m n lda) (arg_code (chk_zgelqf m n lda)).
Proof. exact args_zgelqf. Qed.
Print Assumptions C12_zgelqf.

Theorem C12_zgeqrf : forall m n lda, reports (legal_zgeqrf m n lda) (arg_code (chk_zgeqrf m n lda)).
Proof. exact args_zgeqrf. Qed.
Print Assumptions C12_zgeqrf.

Theorem C12_zgetrf : forall m n lda, reports (legal_zgetrf m n lda) (arg_code (chk_zgetrf m n lda)).
Proof. exact args_zgetrf. Qed.
Print Assumptions C12_zgetrf.

Theorem C12_zgelqs : forall m n nrhs lda ldb, reports (legal_zgelqs m n nrhs lda ldb) (arg_code (chk_zgelqs m n nrhs lda ldb)).
Proof. exact args_zgelqs. Qed.
Print Assumptions C12_zgelqs.

(* but it is 0 exactly when every argument is legal *)
Theorem C12_zgels_rejects_partial : forall trans m n nrhs lda ldb, arg_code (chk_zgels trans m n nrhs lda ldb) = 0 <-> ((In trans [111;113]) /\ (0 <= m) /\ (0 <= n) /\ (0 <= nrhs) /\ (Z.max 1 m <= lda) /\ (Z.max 1 (Z.max m n) <= ldb)).
Proof. exact args_zgels_rejects. Qed.
Print Assumptions C12_zgels_rejects_partial.

(* the code returned is not minus the position *)
Theorem C12_zgels_refuted : exists trans m n nrhs lda ldb, forall c, reports (legal_zgels trans m n nrhs lda ldb) c -> arg_code (chk_zgels trans m n nrhs lda ldb) <> c.
Proof. exact args_zgels_refuted. Qed.
Print Assumptions C12_zgels_refuted.

Theorem C12_zgemm : forall transa transb m n k lda ldb ldc, reports (legal_zgemm transa transb m n k lda ldb ldc) (arg_code (chk_zgemm transa transb m n k lda ldb ldc)).
Proof. exact args_zgemm. Qed.
Print Assumptions C12_zgemm.

Theorem C12_zgeqrs : forall m n nrhs lda ldb, reports (legal_zgeqrs m n nrhs lda ldb) (arg_code (chk_zgeqrs m n nrhs lda ldb)).
Proof. exact args_zgeqrs. Qed.
Print Assumptions C12_zgeqrs.

(* but it is 0 exactly when every argument is legal *)
Theorem C12_zgesdd_rejects_partial : forall jobu jobvt m n lda ldu ldvt, arg_code (chk_zgesdd jobu jobvt m n lda ldu ldvt) = 0 <-> ((In jobu [301;305;306]) /\ (In jobvt [301;305;306] /\ jobvt = jobu) /\ (0 <= m) /\ (0 <= n) /\ (Z.max 1 m <= lda) /\ (1 <= ldu /\ (jobu <> 301 -> m <= ldu)) /\ (1 <= ldvt /\ (jobvt = 305 -> n <= ldvt) /\ (jobvt = 306 -> Z.min m n <= ldvt))).
Proof. exact args_zgesdd_rejects. Qed.
Print Assumptions C12_zgesdd_rejects_partial.

(* the code returned is not minus the position *)
Theorem C12_zgesdd_refuted : exists jobu jobvt m n lda ldu ldvt, forall c, reports (legal_zgesdd jobu jobvt m n lda ldu ldvt) c -> arg_code (chk_zgesdd jobu jobvt m n lda ldu ldvt) <> c.
Proof. exact args_zgesdd_refuted. Qed.
Print Assumptions C12_zgesdd_refuted.

Theorem C12_zgesv : forall n nrhs lda ldb, reports (legal_zgesv n nrhs lda ldb) (arg_code (chk_zgesv n nrhs lda ldb)).
Proof. exact args_zgesv. Qed.
Print Assumptions C12_zgesv.

Theorem C12_zgeswp : forall colrow m n lda, reports (legal_zgeswp colrow m n lda) (arg_code (chk_zgeswp colrow m n lda)).
Proof. exact args_zgeswp. Qed.
Print Assumptions C12_zgeswp.

Theorem C12_zgetri : forall n lda, reports (legal_zgetri n lda) (arg_code (chk_zgetri n lda)).
Proof. exact args_zgetri. Qed.
Print Assumptions C12_zgetri.

Theorem C12_zgetri_aux : forall n lda, reports (legal_zgetri_aux n lda) (arg_code (chk_zgetri_aux n lda)).
Proof. exact args_zgetri_aux. Qed.
Print Assumptions C12_zgetri_aux.

(* but it is 0 exactly when every argument is legal *)
Theorem C12_zgetrs_rejects_partial : forall trans n nrhs lda ldb, arg_code (chk_zgetrs trans n nrhs lda ldb) = 0 <-> ((In trans [111;112;113]) /\ (0 <= n) /\ (0 <= nrhs) /\ (Z.max 1 n <= lda) /\ (Z.max 1 n <= ldb)).
Proof. exact args_zgetrs_rejects. Qed.
Print Assumptions C12_zgetrs_rejects_partial.

(* the code returned is not minus the position *)
Theorem C12_zgetrs_refuted : exists trans n nrhs lda ldb, forall c, reports (legal_zgetrs trans n nrhs lda ldb) c -> arg_code (chk_zgetrs trans n nrhs lda ldb) <> c.
Proof. exact args_zgetrs_refuted. Qed.
Print Assumptions C12_zgetrs_refuted.

Theorem C12_zhemm : forall side uplo m n lda ldb ldc, reports (legal_zhemm side uplo m n lda ldb ldc) (arg_code (chk_zhemm side uplo m n lda ldb ldc)).
Proof. exact args_zhemm. Qed.
Print Assumptions C12_zhemm.

Theorem C12_zsymm : forall side uplo m n lda ldb ldc, reports (legal_zsymm side uplo m n lda ldb ldc) (arg_code (chk_zsymm side uplo m n lda ldb ldc)).
Proof. exact args_zsymm. Qed.
Print Assumptions C12_zsymm.

Theorem C12_zher2k : forall uplo trans n k lda ldb ldc, reports (legal_zher2k uplo trans n k lda ldb ldc) (arg_code (chk_zher2k uplo trans n k lda ldb ldc)).
Proof. exact args_zher2k. Qed.
Print Assumptions C12_zher2k.

Theorem C12_zsyr2k : forall uplo trans n k lda ldb ldc, reports (legal_zsyr2k uplo trans n k lda ldb ldc) (arg_code (chk_zsyr2k uplo trans n k lda ldb ldc)).
Proof. exact args_zsyr2k. Qed.
Print Assumptions C12_zsyr2k.

Theorem C12_zherk : forall uplo trans n k lda ldc, reports (legal_zherk uplo trans n k lda ldc) (arg_code (chk_zherk uplo trans n k lda ldc)).
Proof. exact args_zherk. Qed.
Print Assumptions C12_zherk.

Theorem C12_zsyrk : forall uplo trans n k lda ldc, reports (legal_zsyrk uplo trans n k lda ldc) (arg_code (chk_zsyrk uplo trans n k lda ldc)).
Proof. exact args_zsyrk. Qed.
Print Assumptions C12_zsyrk.

(* but it is 0 exactly when every argument is legal *)
Theorem C12_zhesv_rejects_partial : forall uplo n nrhs lda ldb, arg_code (chk_zhesv uplo n nrhs lda ldb) = 0 <-> ((In uplo [122]) /\ (0 <= n) /\ (0 <= nrhs) /\ (Z.max 1 n <= lda) /\ (Z.max 1 n <= ldb)).
Proof. exact args_zhesv_rejects. Qed.
Print Assumptions C12_zhesv_rejects_partial.

(* the code returned is not minus the position *)
Theorem C12_zhesv_refuted : exists uplo n nrhs lda ldb, forall c, reports (legal_zhesv uplo n nrhs lda ldb) c -> arg_code (chk_zhesv uplo n nrhs lda ldb) <> c.
Proof. exact args_zhesv_refuted. Qed.
Print Assumptions C12_zhesv_refuted.

(* but it is 0 exactly when every argument is legal *)
Theorem C12_zhetrs_rejects_partial : forall uplo n nrhs lda ldb, arg_code (chk_zhetrs uplo n nrhs lda ldb) = 0 <-> ((In uplo [122]) /\ (0 <= n) /\ (0 <= nrhs) /\ (Z.max 1 n <= lda) /\ (Z.max 1 n <= ldb)).
Proof. exact args_zhetrs_rejects. Qed.
Print Assumptions C12_zhetrs_rejects_partial.

(* the code returned is not minus the position *)
Theorem C12_zhetrs_refuted : exists uplo n nrhs lda ldb, forall c, reports (legal_zhetrs uplo n nrhs lda ldb) c -> arg_code (chk_zhetrs uplo n nrhs lda ldb) <> c.
Proof. exact args_zhetrs_refuted. Qed.
Print Assumptions C12_zhetrs_refuted.

Theorem C12_zhetrf : forall uplo n lda, reports (legal_zhetrf uplo n lda) (arg_code (chk_zhetrf uplo n lda)).
Proof. exact args_zhetrf. Qed.
Print Assumptions C12_zhetrf.

Theorem C12_zlacpy : forall uplo transa m n lda ldb, reports (legal_zlacpy uplo transa m n lda ldb) (arg_code (chk_zlacpy uplo transa m n lda ldb)).
Proof. exact args_zlacpy. Qed.
Print Assumptions C12_zlacpy.

Theorem C12_zlag2c : forall m n lda ldas, reports (legal_zlag2c m n lda ldas) (arg_code (chk_zlag2c m n lda ldas)).
Proof. exact args_zlag2c. Qed.
Print Assumptions C12_zlag2c.

Theorem C12_zlangb : forall norm m n kl ku ldab, reports (legal_zlangb norm m n kl ku ldab) (arg_code (chk_zlangb norm m n kl ku ldab)).
Proof. exact args_zlangb. Qed.
Print Assumptions C12_zlangb.

Theorem C12_zlange : forall norm m n lda, reports (legal_zlange norm m n lda) (arg_code (chk_zlange norm m n lda)).
Proof. exact args_zlange. Qed.
Print Assumptions C12_zlange.

Theorem C12_zlanhe : forall norm uplo n lda, reports (legal_zlanhe norm uplo n lda) (arg_code (chk_zlanhe norm uplo n lda)).
Proof. exact args_zlanhe. Qed.
Print Assumptions C12_zlanhe.

Theorem C12_zlansy : forall norm uplo n lda, reports (legal_zlansy norm uplo n lda) (arg_code (chk_zlansy norm uplo n lda)).
Proof. exact args_zlansy. Qed.
Print Assumptions C12_zlansy.

Theorem C12_zlantr : forall norm uplo diag m n lda, reports (legal_zlantr norm uplo diag m n lda) (arg_code (chk_zlantr norm uplo diag m n lda)).
Proof. exact args_zlantr. Qed.
Print Assumptions C12_zlantr.

Theorem C12_zlascl : forall uplo cfrom cto m n lda, reports (legal_zlascl uplo cfrom cto m n lda) (arg_code (chk_zlascl uplo cfrom cto m n lda)).
Proof. exact args_zlascl. Qed.
Print Assumptions C12_zlascl.

(* but it is 0 exactly when every argument is legal *)
Theorem C12_zlaset_rejects_partial : forall uplo m n lda, arg_code (chk_zlaset uplo m n lda) = 0 <-> ((In uplo [123;121;122]) /\ (0 <= m) /\ (0 <= n) /\ (Z.max 1 m <= lda)).
Proof. exact args_zlaset_rejects. Qed.
Print Assumptions C12_zlaset_rejects_partial.

(* the code returned is not minus the position *)
Theorem C12_zlaset_refuted : exists uplo m n lda, forall c, reports (legal_zlaset uplo m n lda) c -> arg_code (chk_zlaset uplo m n lda) <> c.
Proof. exact args_zlaset_refuted. Qed.
Print Assumptions C12_zlaset_refuted.

Theorem C12_zlauum : forall uplo n lda, reports (legal_zlauum uplo n lda) (arg_code (chk_zlauum uplo n lda)).
Proof. exact args_zlauum. Qed.
Print Assumptions C12_zlauum.

Theorem C12_zpoinv : forall uplo n lda, reports (legal_zpoinv uplo n lda) (arg_code (chk_zpoinv uplo n lda)).
Proof. exact args_zpoinv. Qed.
Print Assumptions C12_zpoinv.

Theorem C12_zpotrf : forall uplo n lda, reports (legal_zpotrf uplo n lda) (arg_code (chk_zpotrf uplo n lda)).
Proof. exact args_zpotrf. Qed.
Print Assumptions C12_zpotrf.

Theorem C12_zpotri : forall uplo n lda, reports (legal_zpotri uplo n lda) (arg_code (chk_zpotri uplo n lda)).
Proof. exact args_zpotri. Qed.
Print Assumptions C12_zpotri.

Theorem C12_zpbsv : forall uplo n kd nrhs ldab ldb, reports (legal_zpbsv uplo n kd nrhs ldab ldb) (arg_code (chk_zpbsv uplo n kd nrhs ldab ldb)).
Proof. exact args_zpbsv. Qed.
Print Assumptions C12_zpbsv.

Theorem C12_zpbtrf : forall uplo n kd ldab, reports (legal_zpbtrf uplo n kd ldab) (arg_code (chk_zpbtrf uplo n kd ldab)).
Proof. exact args_zpbtrf. Qed.
Print Assumptions C12_zpbtrf.

(* but it is 0 exactly when every argument is legal *)
Theorem C12_zpbtrs_rejects_partial : forall uplo n kd nrhs ldab ldb, arg_code (chk_zpbtrs uplo n kd nrhs ldab ldb) = 0 <-> ((In uplo [121;122]) /\ (0 <= n) /\ (0 <= kd) /\ (0 <= nrhs) /\ (Z.max 1 (1 + kd) <= ldab) /\ (Z.max 1 n <= ldb)).
Proof. exact args_zpbtrs_rejects. Qed.
Print Assumptions C12_zpbtrs_rejects_partial.

(* the code returned is not minus the position *)
Theorem C12_zpbtrs_refuted : exists uplo n kd nrhs ldab ldb, forall c, reports (legal_zpbtrs uplo n kd nrhs ldab ldb) c -> arg_code (chk_zpbtrs uplo n kd nrhs ldab ldb) <> c.
Proof. exact args_zpbtrs_refuted. Qed.
Print Assumptions C12_zpbtrs_refuted.

Theorem C12_zposv : forall uplo n nrhs lda ldb, reports (legal_zposv uplo n nrhs lda ldb) (arg_code (chk_zposv uplo n nrhs lda ldb)).
Proof. exact args_zposv. Qed.
Print Assumptions C12_zposv.

Theorem C12_zpotrs : forall uplo n nrhs lda ldb, reports (legal_zpotrs uplo n nrhs lda ldb) (arg_code (chk_zpotrs uplo n nrhs lda ldb)).
Proof. exact args_zpotrs. Qed.
Print Assumptions C12_zpotrs.

Theorem C12_ztradd : forall uplo transa m n pA lda pB ldb, reports (legal_ztradd uplo transa m n pA lda pB ldb) (arg_code (chk_ztradd uplo transa m n pA lda pB ldb)).
Proof. exact args_ztradd. Qed.
Print Assumptions C12_ztradd.

(* but it is 0 exactly when every argument is legal *)
Theorem C12_ztrmm_rejects_partial : forall side uplo transa diag m n lda ldb, arg_code (chk_ztrmm side uplo transa diag m n lda ldb) = 0 <-> ((In side [141;142]) /\ (In uplo [121;122]) /\ (In transa [111;112;113]) /\ (In diag [132;131]) /\ (0 <= m) /\ (0 <= n) /\ (Z.max 1 (if side =? 141 then m else n) <= lda) /\ (Z.max 1 m <= ldb)).
Proof. exact args_ztrmm_rejects. Qed.
Print Assumptions C12_ztrmm_rejects_partial.

(* the code returned is not minus the position *)
Theorem C12_ztrmm_refuted : exists side uplo transa diag m n lda ldb, forall c, reports (legal_ztrmm side uplo transa diag m n lda ldb) c -> arg_code (chk_ztrmm side uplo transa diag m n lda ldb) <> c.
Proof. exact args_ztrmm_refuted. Qed.
Print Assumptions C12_ztrmm_refuted.

(* but it is 0 exactly when every argument is legal *)
Theorem C12_ztrsm_rejects_partial : forall side uplo transa diag m n lda ldb, arg_code (chk_ztrsm side uplo transa diag m n lda ldb) = 0 <-> ((In side [141;142]) /\ (In uplo [121;122]) /\ (In transa [111;112;113]) /\ (In diag [132;131]) /\ (0 <= m) /\ (0 <= n) /\ (Z.max 1 (if side =? 141 then m else n) <= lda) /\ (Z.max 1 m <= ldb)).
Proof. exact args_ztrsm_rejects. Qed.
Print Assumptions C12_ztrsm_rejects_partial.

(* the code returned is not minus the position *)
Theorem C12_ztrsm_refuted : exists side uplo transa diag m n lda ldb, forall c, reports (legal_ztrsm side uplo transa diag m n lda ldb) c -> arg_code (chk_ztrsm side uplo transa diag m n lda ldb) <> c.
Proof. exact args_ztrsm_refuted. Qed.
Print Assumptions C12_ztrsm_refuted.

Theorem C12_ztrtri : forall uplo diag n lda, reports (legal_ztrtri uplo diag n lda) (arg_code (chk_ztrtri uplo diag n lda)).
Proof. exact args_ztrtri. Qed.
Print Assumptions C12_ztrtri.

Theorem C12_zunglq : forall m n k lda ldq, reports (legal_zunglq m n k lda ldq) (arg_code (chk_zunglq m n k lda ldq)).
Proof. exact args_zunglq. Qed.
Print Assumptions C12_zunglq.

Theorem C12_zungqr : forall m n k lda ldq, reports (legal_zungqr m n k lda ldq) (arg_code (chk_zungqr m n k lda ldq)).
Proof. exact args_zungqr. Qed.
Print Assumptions C12_zungqr.

Theorem C12_zunmlq : forall side trans m n k lda ldc, reports (legal_zunmlq side trans m n k lda ldc) (arg_code (chk_zunmlq side trans m n k lda ldc)).
Proof. exact args_zunmlq. Qed.
Print Assumptions C12_zunmlq.

Theorem C12_zunmqr : forall side trans m n k lda ldc, reports (legal_zunmqr side trans m n k lda ldc) (arg_code (chk_zunmqr side trans m n k lda ldc)).
Proof. exact args_zunmqr. Qed.
Print Assumptions C12_zunmqr.

(* an illegal argument stops plasma_zgemm before anything is computed; with legal ones it
   does not return an argument code *)
Theorem C12_zgemm_no_effect : forall (N : numbers) nb transa transb m n k (alpha : N) pA lda pB ldb beta pC ldc bA bB bC c,
  reports (legal_zgemm transa transb m n k lda ldb ldc) c ->
  (c <> 0 -> zgemm nb transa transb m n k alpha pA lda pB ldb beta pC ldc bA bB bC = Returns c) /\
  (c = 0 -> 0 < nb -> forall r, zgemm nb transa transb m n k alpha pA lda pB ldb beta pC ldc bA bB bC = Returns r -> r = 0).
Proof. exact zgemm_no_effect. Qed.
Print Assumptions C12_zgemm_no_effect.

(* cases: two illegal arguments, the first is reported; one illegal leading dimension; none *)
Example C12_case :
  arg_code (chk_zgemm 111 112 3 (-1) 2 0 2 3) = -4 /\
  arg_code (chk_zgemm 111 112 3 1 2 2 2 3) = -8 /\
  reports (legal_zgemm 111 112 3 (-1) 2 0 2 3) (-4) /\
  arg_code (chk_zgemm 111 112 3 1 2 3 1 3) = 0.
Proof.
  split; [reflexivity|]. split; [reflexivity|]. split; [|reflexivity]. unfold legal_zgemm. first_bad.
Qed.
