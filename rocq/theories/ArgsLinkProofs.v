(* The argument checks inside the models of the routines are those of ArgsModel: whatever they
   refuse is returned before anything else happens. *)
From Coq Require Import ZArith List Bool Lia.
From Verif Require Import FieldModel ArgsModel ArgsSpec ArgsProofs BandModel Base DescDriverModel DescModel DriverModel EwModel GbmmModel GemmModel GesvModel GetrfModel GetriModel GetrsModel LagModel LqModel LsModel MatModel NormBandModel NormModel NormTriModel NumModel PbtrsModel PosvModel PotrfModel QrModel RankModel SwpModel SymmModel TaskModel TriModel TrtriModel.
Import ListNotations.
Open Scope Z_scope.

Ltac arg_step :=
  match goal with
  | |- (if ?c then _ else _) <> 0 -> _ =>
      first [ match c with context [?x =? ?y] => destruct (x =? y) end | destruct c ];
      rewrite ?Bool.orb_true_r, ?Bool.orb_false_r; cbn [orb andb negb];
      rewrite ?Bool.andb_false_r, ?Bool.andb_true_r; cbn [orb andb negb]; cbv iota
  | |- 0 <> 0 -> _ => let H := fresh in intros H; exfalso; apply H; reflexivity
  | |- _ => intros _; reflexivity
  end.
Ltac args_tac :=
  unfold sym_mm, rank_k, rank_2k, one_of, norm_ok, ew_trans, ew_uplo, ew_uplo3; cbn [arg_code existsb];
  unfold PlasmaNoTrans, PlasmaTrans, PlasmaConjTrans, PlasmaUpper, PlasmaLower, PlasmaGeneral,
    PlasmaNonUnit, PlasmaUnit, PlasmaLeft, PlasmaRight, PlasmaColumnwise, PlasmaRowwise,
    PlasmaOneNorm, PlasmaInfNorm, PlasmaMaxNorm, PlasmaFrobeniusNorm;
  cbv zeta; repeat arg_step.

Lemma link_clag2z : forall (V : Type) widen nb m n pS ldas pA lda bS bA, arg_code (chk_clag2z m n ldas lda) <> 0 ->
  clag2z (V := V) widen nb m n pS ldas pA lda bS bA = Returns (arg_code (chk_clag2z m n ldas lda)).
Proof. intros *. unfold chk_clag2z, clag2z. args_tac. Qed.

Lemma link_dzamax : forall (N : normed) nb colrow m n pA lda bA bW values, arg_code (chk_dzamax colrow m n lda) <> 0 ->
  dzamax (N := N) nb colrow m n pA lda bA bW values = VReturns (arg_code (chk_dzamax colrow m n lda)).
Proof. intros *. unfold chk_dzamax, dzamax. args_tac. Qed.

Lemma link_zgbmm : forall (N : numbers) nb transa transb m n k kl ku alpha pA lda pB ldb beta pC ldc bA bB bC, arg_code (chk_zgbmm transa transb m n k kl ku lda ldb ldc) <> 0 ->
  zgbmm (N := N) nb transa transb m n k kl ku alpha pA lda pB ldb beta pC ldc bA bB bC = Returns (arg_code (chk_zgbmm transa transb m n k kl ku lda ldb ldc)).
Proof. intros *. unfold chk_zgbmm, zgbmm. args_tac. Qed.

Lemma link_zgeadd : forall (N : numbers) nb transa m n alpha pA lda beta pB ldb bA bB apA apB, apA <> 0 -> apB <> 0 -> arg_code (chk_zgeadd transa m n apA lda apB ldb) <> 0 ->
  zgeadd (N := N) nb transa m n alpha pA lda beta pB ldb bA bB = Returns (arg_code (chk_zgeadd transa m n apA lda apB ldb)).
Proof.
  intros * HA HB. apply Z.eqb_neq in HA, HB. unfold chk_zgeadd, zgeadd. rewrite HA, HB. args_tac.
Qed.

Lemma link_zgeinv : forall (F : fields) bigger nb ib mpt m n pA lda pI bA bW, arg_code (chk_zgeinv m n lda) <> 0 ->
  zgeinv (F := F) bigger nb ib mpt m n pA lda pI bA bW = GReturns (arg_code (chk_zgeinv m n lda)).
Proof. intros *. unfold chk_zgeinv, zgeinv. args_tac. Qed.

Lemma link_zgelqf : forall (N : numbers) lg nb ib m n pA lda bA bT, arg_code (chk_zgelqf m n lda) <> 0 ->
  zgelqf (N := N) lg nb ib m n pA lda bA bT = Returns (arg_code (chk_zgelqf m n lda)).
Proof. intros *. unfold chk_zgelqf, zgelqf. args_tac. Qed.

Lemma link_zgeqrf : forall (N : numbers) lg nb ib m n pA lda bA bT, arg_code (chk_zgeqrf m n lda) <> 0 ->
  zgeqrf (N := N) lg nb ib m n pA lda bA bT = Returns (arg_code (chk_zgeqrf m n lda)).
Proof. intros *. unfold chk_zgeqrf, zgeqrf. args_tac. Qed.

Lemma link_zgetrf : forall (F : fields) bigger nb ib mpt m n pA lda pI bA, arg_code (chk_zgetrf m n lda) <> 0 ->
  zgetrf (F := F) bigger nb ib mpt m n pA lda pI bA = RReturns (arg_code (chk_zgetrf m n lda)).
Proof. intros *. unfold chk_zgetrf, zgetrf. args_tac. Qed.

Lemma link_zgelqs : forall (F : fields) nb m n nrhs pA lda bT T pB ldb bA bB, arg_code (chk_zgelqs m n nrhs lda ldb) <> 0 ->
  zgelqs (F := F) nb m n nrhs pA lda bT T pB ldb bA bB = Returns (arg_code (chk_zgelqs m n nrhs lda ldb)).
Proof. intros *. unfold chk_zgelqs, zgelqs. args_tac. Qed.

Lemma link_zgels : forall (F : fields) lg nb ib trans m n nrhs pA lda pB ldb bA bB bT, arg_code (chk_zgels trans m n nrhs lda ldb) <> 0 ->
  zgels (F := F) lg nb ib trans m n nrhs pA lda pB ldb bA bB bT = Returns (arg_code (chk_zgels trans m n nrhs lda ldb)).
Proof. intros *. unfold chk_zgels, zgels. args_tac. Qed.

Lemma link_zgemm : forall (N : numbers) nb transa transb m n k alpha pA lda pB ldb beta pC ldc bA bB bC, arg_code (chk_zgemm transa transb m n k lda ldb ldc) <> 0 ->
  zgemm (N := N) nb transa transb m n k alpha pA lda pB ldb beta pC ldc bA bB bC = Returns (arg_code (chk_zgemm transa transb m n k lda ldb ldc)).
Proof. intros *. unfold chk_zgemm, zgemm. args_tac. Qed.

Lemma link_zgeqrs : forall (F : fields) nb m n nrhs pA lda bT T pB ldb bA bB, arg_code (chk_zgeqrs m n nrhs lda ldb) <> 0 ->
  zgeqrs (F := F) nb m n nrhs pA lda bT T pB ldb bA bB = Returns (arg_code (chk_zgeqrs m n nrhs lda ldb)).
Proof. intros *. unfold chk_zgeqrs, zgeqrs. args_tac. Qed.

Lemma link_zgesv : forall (F : fields) bigger nb ib mpt n nrhs pA lda pI pB ldb bA bB, arg_code (chk_zgesv n nrhs lda ldb) <> 0 ->
  zgesv (F := F) bigger nb ib mpt n nrhs pA lda pI pB ldb bA bB = GReturns (arg_code (chk_zgesv n nrhs lda ldb)).
Proof. intros *. unfold chk_zgesv, zgesv. args_tac. Qed.

Lemma link_zgeswp : forall (V : Type) nb colrow m n pA lda pI ipiv incx bA, arg_code (chk_zgeswp colrow m n lda) <> 0 ->
  zgeswp (V := V) nb colrow m n pA lda pI ipiv incx bA = Returns (arg_code (chk_zgeswp colrow m n lda)).
Proof. intros *. unfold chk_zgeswp, zgeswp. args_tac. Qed.

Lemma link_zgetri : forall (F : fields) nb n pA lda pI ipiv bA bW, arg_code (chk_zgetri n lda) <> 0 ->
  zgetri (F := F) nb n pA lda pI ipiv bA bW = GReturns (arg_code (chk_zgetri n lda)).
Proof. intros *. unfold chk_zgetri, zgetri. args_tac. Qed.

Lemma link_zgetri_aux : forall (F : fields) nb n pA lda bA bW, arg_code (chk_zgetri_aux n lda) <> 0 ->
  zgetri_aux (F := F) nb n pA lda bA bW = Returns (arg_code (chk_zgetri_aux n lda)).
Proof. intros *. unfold chk_zgetri_aux, zgetri_aux. args_tac. Qed.

Lemma link_zgetrs : forall (F : fields) nb trans n nrhs pA lda pI ipiv pB ldb bA bB, arg_code (chk_zgetrs trans n nrhs lda ldb) <> 0 ->
  zgetrs (F := F) nb trans n nrhs pA lda pI ipiv pB ldb bA bB = Returns (arg_code (chk_zgetrs trans n nrhs lda ldb)).
Proof. intros *. unfold chk_zgetrs, zgetrs. args_tac. Qed.

Lemma link_zhemm : forall (N : numbers) rp nb side uplo m n alpha pA lda pB ldb beta pC ldc bA bB bC, arg_code (chk_zhemm side uplo m n lda ldb ldc) <> 0 ->
  zhemm (N := N) rp nb side uplo m n alpha pA lda pB ldb beta pC ldc bA bB bC = Returns (arg_code (chk_zhemm side uplo m n lda ldb ldc)).
Proof. intros *. unfold chk_zhemm, zhemm. args_tac. Qed.

Lemma link_zsymm : forall (N : numbers) nb side uplo m n alpha pA lda pB ldb beta pC ldc bA bB bC, arg_code (chk_zsymm side uplo m n lda ldb ldc) <> 0 ->
  zsymm (N := N) nb side uplo m n alpha pA lda pB ldb beta pC ldc bA bB bC = Returns (arg_code (chk_zsymm side uplo m n lda ldb ldc)).
Proof. intros *. unfold chk_zsymm, zsymm. args_tac. Qed.

Lemma link_zher2k : forall (N : numbers) rp nb uplo trans n k alpha pA lda pB ldb beta pC ldc bA bB bC, arg_code (chk_zher2k uplo trans n k lda ldb ldc) <> 0 ->
  zher2k (N := N) rp nb uplo trans n k alpha pA lda pB ldb beta pC ldc bA bB bC = Returns (arg_code (chk_zher2k uplo trans n k lda ldb ldc)).
Proof. intros *. unfold chk_zher2k, zher2k. args_tac. Qed.

Lemma link_zsyr2k : forall (N : numbers) nb uplo trans n k alpha pA lda pB ldb beta pC ldc bA bB bC, arg_code (chk_zsyr2k uplo trans n k lda ldb ldc) <> 0 ->
  zsyr2k (N := N) nb uplo trans n k alpha pA lda pB ldb beta pC ldc bA bB bC = Returns (arg_code (chk_zsyr2k uplo trans n k lda ldb ldc)).
Proof. intros *. unfold chk_zsyr2k, zsyr2k. args_tac. Qed.

Lemma link_zherk : forall (N : numbers) rp nb uplo trans n k alpha pA lda beta pC ldc bA bC, arg_code (chk_zherk uplo trans n k lda ldc) <> 0 ->
  zherk (N := N) rp nb uplo trans n k alpha pA lda beta pC ldc bA bC = Returns (arg_code (chk_zherk uplo trans n k lda ldc)).
Proof. intros *. unfold chk_zherk, zherk. args_tac. Qed.

Lemma link_zsyrk : forall (N : numbers) nb uplo trans n k alpha pA lda beta pC ldc bA bC, arg_code (chk_zsyrk uplo trans n k lda ldc) <> 0 ->
  zsyrk (N := N) nb uplo trans n k alpha pA lda beta pC ldc bA bC = Returns (arg_code (chk_zsyrk uplo trans n k lda ldc)).
Proof. intros *. unfold chk_zsyrk, zsyrk. args_tac. Qed.

Lemma link_zlacpy : forall (N : numbers) nb uplo transa m n pA lda pB ldb bA bB, arg_code (chk_zlacpy uplo transa m n lda ldb) <> 0 ->
  zlacpy (N := N) nb uplo transa m n pA lda pB ldb bA bB = Returns (arg_code (chk_zlacpy uplo transa m n lda ldb)).
Proof. intros *. unfold chk_zlacpy, zlacpy. args_tac. Qed.

Lemma link_zlag2c : forall (V : Type) narrow fits nb m n pA lda pS ldas bA bS, arg_code (chk_zlag2c m n lda ldas) <> 0 ->
  zlag2c (V := V) narrow fits nb m n pA lda pS ldas bA bS = GReturns (arg_code (chk_zlag2c m n lda ldas)).
Proof. intros *. unfold chk_zlag2c, zlag2c. args_tac. Qed.

Lemma link_zlangb : forall (N : normed) lassq nsqrt nb norm m n kl ku pAB ldab bA bW value, arg_code (chk_zlangb norm m n kl ku ldab) <> 0 ->
  zlangb (N := N) lassq nsqrt nb norm m n kl ku pAB ldab bA bW value = VReturns (arg_code (chk_zlangb norm m n kl ku ldab)).
Proof. intros *. unfold chk_zlangb, zlangb. args_tac. Qed.

Lemma link_zlange : forall (N : normed) lassq nsqrt nb norm m n pA lda bA bW value, arg_code (chk_zlange norm m n lda) <> 0 ->
  zlange (N := N) lassq nsqrt nb norm m n pA lda bA bW value = VReturns (arg_code (chk_zlange norm m n lda)).
Proof. intros *. unfold chk_zlange, zlange. args_tac. Qed.

Lemma link_zlansy : forall (N : normed) lassq nsqrt dg nb norm uplo n pA lda bA bW value, arg_code (chk_zlansy norm uplo n lda) <> 0 ->
  zlansy (N := N) lassq nsqrt dg nb norm uplo n pA lda bA bW value = VReturns (arg_code (chk_zlansy norm uplo n lda)).
Proof. intros *. unfold chk_zlansy, zlansy. args_tac. Qed.

Lemma link_zlantr : forall (N : normed) lassq nsqrt nb norm uplo diag m n pA lda bA bW value, arg_code (chk_zlantr norm uplo diag m n lda) <> 0 ->
  zlantr (N := N) lassq nsqrt nb norm uplo diag m n pA lda bA bW value = VReturns (arg_code (chk_zlantr norm uplo diag m n lda)).
Proof. intros *. unfold chk_zlantr, zlantr. args_tac. Qed.

Lemma link_zlaset : forall (N : numbers) nb uplo m n alpha beta pA lda bA, arg_code (chk_zlaset uplo m n lda) <> 0 ->
  zlaset (N := N) nb uplo m n alpha beta pA lda bA = Returns (arg_code (chk_zlaset uplo m n lda)).
Proof. intros *. unfold chk_zlaset, zlaset. args_tac. Qed.

Lemma link_zlauum : forall (F : fields) rp nb uplo n pA lda bA, arg_code (chk_zlauum uplo n lda) <> 0 ->
  zlauum (F := F) rp nb uplo n pA lda bA = Returns (arg_code (chk_zlauum uplo n lda)).
Proof. intros *. unfold chk_zlauum, zlauum. args_tac. Qed.

Lemma link_zpoinv : forall (F : fields) rp R nb uplo n pA lda bA, arg_code (chk_zpoinv uplo n lda) <> 0 ->
  zpoinv (F := F) rp R nb uplo n pA lda bA = GReturns (arg_code (chk_zpoinv uplo n lda)).
Proof. intros *. unfold chk_zpoinv, zpoinv. args_tac. Qed.

Lemma link_zpotrf : forall (F : fields) R rp nb uplo n pA lda bA, arg_code (chk_zpotrf uplo n lda) <> 0 ->
  zpotrf (F := F) R rp nb uplo n pA lda bA = GReturns (arg_code (chk_zpotrf uplo n lda)).
Proof. intros *. unfold chk_zpotrf, zpotrf. args_tac. Qed.

Lemma link_zpotri : forall (F : fields) rp nb uplo n pA lda bA, arg_code (chk_zpotri uplo n lda) <> 0 ->
  zpotri (F := F) rp nb uplo n pA lda bA = GReturns (arg_code (chk_zpotri uplo n lda)).
Proof. intros *. unfold chk_zpotri, zpotri. args_tac. Qed.

Lemma link_zpbsv : forall (F : fields) R rp nb uplo n kd nrhs pAB ldab pB ldb bA bB, arg_code (chk_zpbsv uplo n kd nrhs ldab ldb) <> 0 ->
  zpbsv (F := F) R rp nb uplo n kd nrhs pAB ldab pB ldb bA bB = GReturns (arg_code (chk_zpbsv uplo n kd nrhs ldab ldb)).
Proof. intros *. unfold chk_zpbsv, zpbsv. args_tac. Qed.

Lemma link_zpbtrf : forall (F : fields) R rp nb uplo n kd pAB ldab bA, arg_code (chk_zpbtrf uplo n kd ldab) <> 0 ->
  zpbtrf (F := F) R rp nb uplo n kd pAB ldab bA = GReturns (arg_code (chk_zpbtrf uplo n kd ldab)).
Proof. intros *. unfold chk_zpbtrf, zpbtrf. args_tac. Qed.

Lemma link_zpbtrs : forall (F : fields) nb uplo n kd nrhs pAB ldab pB ldb bA bB, arg_code (chk_zpbtrs uplo n kd nrhs ldab ldb) <> 0 ->
  zpbtrs (F := F) nb uplo n kd nrhs pAB ldab pB ldb bA bB = Returns (arg_code (chk_zpbtrs uplo n kd nrhs ldab ldb)).
Proof. intros *. unfold chk_zpbtrs, zpbtrs. args_tac. Qed.

Lemma link_zposv : forall (F : fields) R rp nb uplo n nrhs pA lda pB ldb bA bB, arg_code (chk_zposv uplo n nrhs lda ldb) <> 0 ->
  zposv (F := F) R rp nb uplo n nrhs pA lda pB ldb bA bB = GReturns (arg_code (chk_zposv uplo n nrhs lda ldb)).
Proof. intros *. unfold chk_zposv, zposv. args_tac. Qed.

Lemma link_zpotrs : forall (F : fields) nb uplo n nrhs pA lda pB ldb bA bB, arg_code (chk_zpotrs uplo n nrhs lda ldb) <> 0 ->
  zpotrs (F := F) nb uplo n nrhs pA lda pB ldb bA bB = Returns (arg_code (chk_zpotrs uplo n nrhs lda ldb)).
Proof. intros *. unfold chk_zpotrs, zpotrs. args_tac. Qed.

Lemma link_ztradd : forall (N : numbers) nb uplo transa m n alpha pA lda beta pB ldb bA bB apA apB, apA <> 0 -> apB <> 0 -> arg_code (chk_ztradd uplo transa m n apA lda apB ldb) <> 0 ->
  ztradd (N := N) nb uplo transa m n alpha pA lda beta pB ldb bA bB = Returns (arg_code (chk_ztradd uplo transa m n apA lda apB ldb)).
Proof.
  intros * HA HB. apply Z.eqb_neq in HA, HB. unfold chk_ztradd, ztradd. rewrite HA, HB. args_tac.
Qed.

Lemma link_ztrmm : forall (N : numbers) nb side uplo transa diag m n alpha pA lda pB ldb bA bB, arg_code (chk_ztrmm side uplo transa diag m n lda ldb) <> 0 ->
  ztrmm (N := N) nb side uplo transa diag m n alpha pA lda pB ldb bA bB = Returns (arg_code (chk_ztrmm side uplo transa diag m n lda ldb)).
Proof. intros *. unfold chk_ztrmm, ztrmm. args_tac. Qed.

Lemma link_ztrsm : forall (F : fields) nb side uplo transa diag m n alpha pA lda pB ldb bA bB, arg_code (chk_ztrsm side uplo transa diag m n lda ldb) <> 0 ->
  ztrsm (F := F) nb side uplo transa diag m n alpha pA lda pB ldb bA bB = Some (Returns (arg_code (chk_ztrsm side uplo transa diag m n lda ldb))).
Proof. intros *. unfold chk_ztrsm, ztrsm. args_tac. Qed.

Lemma link_ztrtri : forall (F : fields) nb uplo diag n pA lda bA, arg_code (chk_ztrtri uplo diag n lda) <> 0 ->
  ztrtri (F := F) nb uplo diag n pA lda bA = GReturns (arg_code (chk_ztrtri uplo diag n lda)).
Proof. intros *. unfold chk_ztrtri, ztrtri. args_tac. Qed.

Lemma link_zunglq : forall (N : numbers) nb m n k pA lda bT T pQ ldq bA bQ, arg_code (chk_zunglq m n k lda ldq) <> 0 ->
  zunglq (N := N) nb m n k pA lda bT T pQ ldq bA bQ = Returns (arg_code (chk_zunglq m n k lda ldq)).
Proof. intros *. unfold chk_zunglq, zunglq. args_tac. Qed.

Lemma link_zungqr : forall (N : numbers) nb m n k pA lda bT T pQ ldq bA bQ, arg_code (chk_zungqr m n k lda ldq) <> 0 ->
  zungqr (N := N) nb m n k pA lda bT T pQ ldq bA bQ = Returns (arg_code (chk_zungqr m n k lda ldq)).
Proof. intros *. unfold chk_zungqr, zungqr. args_tac. Qed.

Lemma link_zunmlq : forall (N : numbers) nb side trans m n k pA lda bT T pC ldc bA bC, arg_code (chk_zunmlq side trans m n k lda ldc) <> 0 ->
  zunmlq (N := N) nb side trans m n k pA lda bT T pC ldc bA bC = Returns (arg_code (chk_zunmlq side trans m n k lda ldc)).
Proof. intros *. unfold chk_zunmlq, zunmlq. args_tac. Qed.

Lemma link_zunmqr : forall (N : numbers) nb side trans m n k pA lda bT T pC ldc bA bC, arg_code (chk_zunmqr side trans m n k lda ldc) <> 0 ->
  zunmqr (N := N) nb side trans m n k pA lda bT T pC ldc bA bC = Returns (arg_code (chk_zunmqr side trans m n k lda ldc)).
Proof. intros *. unfold chk_zunmqr, zunmqr. args_tac. Qed.

(* zlanhe is modelled by zlansy with dg the real part on the diagonal *)
Lemma link_zlanhe : forall (N : normed) lassq nsqrt dg nb norm uplo n pA lda bA bW value, arg_code (chk_zlanhe norm uplo n lda) <> 0 ->
  zlansy (N := N) lassq nsqrt dg nb norm uplo n pA lda bA bW value = VReturns (arg_code (chk_zlanhe norm uplo n lda)).
Proof. intros *. unfold chk_zlanhe, zlansy. args_tac. Qed.

(* in chk_zlascl a number is given by its class: 0 for zero, 1 for NaN (which a field lacks), 2 for others *)
Lemma link_zlascl : forall (F : fields) nb uplo (cfrom cto : F) m n pA lda bA ct,
  let code := arg_code (chk_zlascl uplo (if neqb cfrom n0 then 0 else 2) ct m n lda) in
  ct <> 1 -> code <> 0 -> zlascl (F := F) nb uplo cfrom cto m n pA lda bA = Returns code.
Proof.
  intros * H. apply Z.eqb_neq in H. subst code. unfold chk_zlascl, zlascl. rewrite H.
  destruct (neqb cfrom n0);
    [change (0 =? 0) with true|change (2 =? 0) with false; change (2 =? 1) with false]; args_tac.
Qed.

(* in the terms of ArgsSpec *)
Lemma no_effect_clag2z : forall (V : Type) widen nb m n pS ldas pA lda bS bA c, reports (legal_clag2z m n ldas lda) c -> c <> 0 ->
  clag2z (V := V) widen nb m n pS ldas pA lda bS bA = Returns c.
Proof. intros *  R. rewrite <- (reports_fun _ _ _ (args_clag2z m n ldas lda) R). apply link_clag2z. Qed.

Lemma no_effect_dzamax : forall (N : normed) nb colrow m n pA lda bA bW values c, reports (legal_dzamax colrow m n lda) c -> c <> 0 ->
  dzamax (N := N) nb colrow m n pA lda bA bW values = VReturns c.
Proof. intros *  R. rewrite <- (reports_fun _ _ _ (args_dzamax colrow m n lda) R). apply link_dzamax. Qed.

Lemma no_effect_zgbmm : forall (N : numbers) nb transa transb m n k kl ku alpha pA lda pB ldb beta pC ldc bA bB bC, ~ ((In transa [111;112;113]) /\ (In transb [111;112;113]) /\ (0 <= m) /\ (0 <= n) /\ (0 <= k) /\ (0 <= kl <= m - 1) /\ (0 <= ku <= k - 1) /\ (Z.max 1 (if transa =? 111 then m else k) <= lda) /\ (Z.max 1 (if transb =? 111 then k else n) <= ldb) /\ (Z.max 1 m <= ldc)) ->
  exists c, c <> 0 /\ zgbmm (N := N) nb transa transb m n k kl ku alpha pA lda pB ldb beta pC ldc bA bB bC = Returns c.
Proof. intros * H. exists (arg_code (chk_zgbmm transa transb m n k kl ku lda ldb ldc)).
  assert (E : arg_code (chk_zgbmm transa transb m n k kl ku lda ldb ldc) <> 0) by (intros E; apply H; apply args_zgbmm_rejects; exact E).
  split; [exact E|apply link_zgbmm; exact E]. Qed.

Lemma no_effect_zgeadd : forall (N : numbers) nb transa m n alpha pA lda beta pB ldb bA bB apA apB c, apA <> 0 -> apB <> 0 -> reports (legal_zgeadd transa m n apA lda apB ldb) c -> c <> 0 ->
  zgeadd (N := N) nb transa m n alpha pA lda beta pB ldb bA bB = Returns c.
Proof. intros * P0 P1 R. rewrite <- (reports_fun _ _ _ (args_zgeadd transa m n apA lda apB ldb) R). apply link_zgeadd; assumption. Qed.

Lemma no_effect_zgelqf : forall (N : numbers) lg nb ib m n pA lda bA bT c, reports (legal_zgelqf m n lda) c -> c <> 0 ->
  zgelqf (N := N) lg nb ib m n pA lda bA bT = Returns c.
Proof. intros *  R. rewrite <- (reports_fun _ _ _ (args_zgelqf m n lda) R). apply link_zgelqf. Qed.

Lemma no_effect_zgeqrf : forall (N : numbers) lg nb ib m n pA lda bA bT c, reports (legal_zgeqrf m n lda) c -> c <> 0 ->
  zgeqrf (N := N) lg nb ib m n pA lda bA bT = Returns c.
Proof. intros *  R. rewrite <- (reports_fun _ _ _ (args_zgeqrf m n lda) R). apply link_zgeqrf. Qed.

Lemma no_effect_zgetrf : forall (F : fields) bigger nb ib mpt m n pA lda pI bA c, reports (legal_zgetrf m n lda) c -> c <> 0 ->
  zgetrf (F := F) bigger nb ib mpt m n pA lda pI bA = RReturns c.
Proof. intros *  R. rewrite <- (reports_fun _ _ _ (args_zgetrf m n lda) R). apply link_zgetrf. Qed.

Lemma no_effect_zgelqs : forall (F : fields) nb m n nrhs pA lda bT T pB ldb bA bB c, reports (legal_zgelqs m n nrhs lda ldb) c -> c <> 0 ->
  zgelqs (F := F) nb m n nrhs pA lda bT T pB ldb bA bB = Returns c.
Proof. intros *  R. rewrite <- (reports_fun _ _ _ (args_zgelqs m n nrhs lda ldb) R). apply link_zgelqs. Qed.

Lemma no_effect_zgels : forall (F : fields) lg nb ib trans m n nrhs pA lda pB ldb bA bB bT, ~ ((In trans [111;113]) /\ (0 <= m) /\ (0 <= n) /\ (0 <= nrhs) /\ (Z.max 1 m <= lda) /\ (Z.max 1 (Z.max m n) <= ldb)) ->
  exists c, c <> 0 /\ zgels (F := F) lg nb ib trans m n nrhs pA lda pB ldb bA bB bT = Returns c.
Proof. intros * H. exists (arg_code (chk_zgels trans m n nrhs lda ldb)).
  assert (E : arg_code (chk_zgels trans m n nrhs lda ldb) <> 0) by (intros E; apply H; apply args_zgels_rejects; exact E).
  split; [exact E|apply link_zgels; exact E]. Qed.

Lemma no_effect_zgeqrs : forall (F : fields) nb m n nrhs pA lda bT T pB ldb bA bB c, reports (legal_zgeqrs m n nrhs lda ldb) c -> c <> 0 ->
  zgeqrs (F := F) nb m n nrhs pA lda bT T pB ldb bA bB = Returns c.
Proof. intros *  R. rewrite <- (reports_fun _ _ _ (args_zgeqrs m n nrhs lda ldb) R). apply link_zgeqrs. Qed.

Lemma no_effect_zgesv : forall (F : fields) bigger nb ib mpt n nrhs pA lda pI pB ldb bA bB c, reports (legal_zgesv n nrhs lda ldb) c -> c <> 0 ->
  zgesv (F := F) bigger nb ib mpt n nrhs pA lda pI pB ldb bA bB = GReturns c.
Proof. intros *  R. rewrite <- (reports_fun _ _ _ (args_zgesv n nrhs lda ldb) R). apply link_zgesv. Qed.

Lemma no_effect_zgeswp : forall (V : Type) nb colrow m n pA lda pI ipiv incx bA c, reports (legal_zgeswp colrow m n lda) c -> c <> 0 ->
  zgeswp (V := V) nb colrow m n pA lda pI ipiv incx bA = Returns c.
Proof. intros *  R. rewrite <- (reports_fun _ _ _ (args_zgeswp colrow m n lda) R). apply link_zgeswp. Qed.

Lemma no_effect_zgetri : forall (F : fields) nb n pA lda pI ipiv bA bW c, reports (legal_zgetri n lda) c -> c <> 0 ->
  zgetri (F := F) nb n pA lda pI ipiv bA bW = GReturns c.
Proof. intros *  R. rewrite <- (reports_fun _ _ _ (args_zgetri n lda) R). apply link_zgetri. Qed.

Lemma no_effect_zgetri_aux : forall (F : fields) nb n pA lda bA bW c, reports (legal_zgetri_aux n lda) c -> c <> 0 ->
  zgetri_aux (F := F) nb n pA lda bA bW = Returns c.
Proof. intros *  R. rewrite <- (reports_fun _ _ _ (args_zgetri_aux n lda) R). apply link_zgetri_aux. Qed.

Lemma no_effect_zgetrs : forall (F : fields) nb trans n nrhs pA lda pI ipiv pB ldb bA bB, ~ ((In trans [111;112;113]) /\ (0 <= n) /\ (0 <= nrhs) /\ (Z.max 1 n <= lda) /\ (Z.max 1 n <= ldb)) ->
  exists c, c <> 0 /\ zgetrs (F := F) nb trans n nrhs pA lda pI ipiv pB ldb bA bB = Returns c.
Proof. intros * H. exists (arg_code (chk_zgetrs trans n nrhs lda ldb)).
  assert (E : arg_code (chk_zgetrs trans n nrhs lda ldb) <> 0) by (intros E; apply H; apply args_zgetrs_rejects; exact E).
  split; [exact E|apply link_zgetrs; exact E]. Qed.

Lemma no_effect_zhemm : forall (N : numbers) rp nb side uplo m n alpha pA lda pB ldb beta pC ldc bA bB bC c, reports (legal_zhemm side uplo m n lda ldb ldc) c -> c <> 0 ->
  zhemm (N := N) rp nb side uplo m n alpha pA lda pB ldb beta pC ldc bA bB bC = Returns c.
Proof. intros *  R. rewrite <- (reports_fun _ _ _ (args_zhemm side uplo m n lda ldb ldc) R). apply link_zhemm. Qed.

Lemma no_effect_zsymm : forall (N : numbers) nb side uplo m n alpha pA lda pB ldb beta pC ldc bA bB bC c, reports (legal_zsymm side uplo m n lda ldb ldc) c -> c <> 0 ->
  zsymm (N := N) nb side uplo m n alpha pA lda pB ldb beta pC ldc bA bB bC = Returns c.
Proof. intros *  R. rewrite <- (reports_fun _ _ _ (args_zsymm side uplo m n lda ldb ldc) R). apply link_zsymm. Qed.

Lemma no_effect_zher2k : forall (N : numbers) rp nb uplo trans n k alpha pA lda pB ldb beta pC ldc bA bB bC c, reports (legal_zher2k uplo trans n k lda ldb ldc) c -> c <> 0 ->
  zher2k (N := N) rp nb uplo trans n k alpha pA lda pB ldb beta pC ldc bA bB bC = Returns c.
Proof. intros *  R. rewrite <- (reports_fun _ _ _ (args_zher2k uplo trans n k lda ldb ldc) R). apply link_zher2k. Qed.

Lemma no_effect_zsyr2k : forall (N : numbers) nb uplo trans n k alpha pA lda pB ldb beta pC ldc bA bB bC c, reports (legal_zsyr2k uplo trans n k lda ldb ldc) c -> c <> 0 ->
  zsyr2k (N := N) nb uplo trans n k alpha pA lda pB ldb beta pC ldc bA bB bC = Returns c.
Proof. intros *  R. rewrite <- (reports_fun _ _ _ (args_zsyr2k uplo trans n k lda ldb ldc) R). apply link_zsyr2k. Qed.

Lemma no_effect_zherk : forall (N : numbers) rp nb uplo trans n k alpha pA lda beta pC ldc bA bC c, reports (legal_zherk uplo trans n k lda ldc) c -> c <> 0 ->
  zherk (N := N) rp nb uplo trans n k alpha pA lda beta pC ldc bA bC = Returns c.
Proof. intros *  R. rewrite <- (reports_fun _ _ _ (args_zherk uplo trans n k lda ldc) R). apply link_zherk. Qed.

Lemma no_effect_zsyrk : forall (N : numbers) nb uplo trans n k alpha pA lda beta pC ldc bA bC c, reports (legal_zsyrk uplo trans n k lda ldc) c -> c <> 0 ->
  zsyrk (N := N) nb uplo trans n k alpha pA lda beta pC ldc bA bC = Returns c.
Proof. intros *  R. rewrite <- (reports_fun _ _ _ (args_zsyrk uplo trans n k lda ldc) R). apply link_zsyrk. Qed.

Lemma no_effect_zlacpy : forall (N : numbers) nb uplo transa m n pA lda pB ldb bA bB c, reports (legal_zlacpy uplo transa m n lda ldb) c -> c <> 0 ->
  zlacpy (N := N) nb uplo transa m n pA lda pB ldb bA bB = Returns c.
Proof. intros *  R. rewrite <- (reports_fun _ _ _ (args_zlacpy uplo transa m n lda ldb) R). apply link_zlacpy. Qed.

Lemma no_effect_zlag2c : forall (V : Type) narrow fits nb m n pA lda pS ldas bA bS c, reports (legal_zlag2c m n lda ldas) c -> c <> 0 ->
  zlag2c (V := V) narrow fits nb m n pA lda pS ldas bA bS = GReturns c.
Proof. intros *  R. rewrite <- (reports_fun _ _ _ (args_zlag2c m n lda ldas) R). apply link_zlag2c. Qed.

Lemma no_effect_zlangb : forall (N : normed) lassq nsqrt nb norm m n kl ku pAB ldab bA bW value c, reports (legal_zlangb norm m n kl ku ldab) c -> c <> 0 ->
  zlangb (N := N) lassq nsqrt nb norm m n kl ku pAB ldab bA bW value = VReturns c.
Proof. intros *  R. rewrite <- (reports_fun _ _ _ (args_zlangb norm m n kl ku ldab) R). apply link_zlangb. Qed.

Lemma no_effect_zlange : forall (N : normed) lassq nsqrt nb norm m n pA lda bA bW value c, reports (legal_zlange norm m n lda) c -> c <> 0 ->
  zlange (N := N) lassq nsqrt nb norm m n pA lda bA bW value = VReturns c.
Proof. intros *  R. rewrite <- (reports_fun _ _ _ (args_zlange norm m n lda) R). apply link_zlange. Qed.

Lemma no_effect_zlansy : forall (N : normed) lassq nsqrt dg nb norm uplo n pA lda bA bW value c, reports (legal_zlansy norm uplo n lda) c -> c <> 0 ->
  zlansy (N := N) lassq nsqrt dg nb norm uplo n pA lda bA bW value = VReturns c.
Proof. intros *  R. rewrite <- (reports_fun _ _ _ (args_zlansy norm uplo n lda) R). apply link_zlansy. Qed.

Lemma no_effect_zlantr : forall (N : normed) lassq nsqrt nb norm uplo diag m n pA lda bA bW value c, reports (legal_zlantr norm uplo diag m n lda) c -> c <> 0 ->
  zlantr (N := N) lassq nsqrt nb norm uplo diag m n pA lda bA bW value = VReturns c.
Proof. intros *  R. rewrite <- (reports_fun _ _ _ (args_zlantr norm uplo diag m n lda) R). apply link_zlantr. Qed.

Lemma no_effect_zlaset : forall (N : numbers) nb uplo m n alpha beta pA lda bA, ~ ((In uplo [123;121;122]) /\ (0 <= m) /\ (0 <= n) /\ (Z.max 1 m <= lda)) ->
  exists c, c <> 0 /\ zlaset (N := N) nb uplo m n alpha beta pA lda bA = Returns c.
Proof. intros * H. exists (arg_code (chk_zlaset uplo m n lda)).
  assert (E : arg_code (chk_zlaset uplo m n lda) <> 0) by (intros E; apply H; apply args_zlaset_rejects; exact E).
  split; [exact E|apply link_zlaset; exact E]. Qed.

Lemma no_effect_zlauum : forall (F : fields) rp nb uplo n pA lda bA c, reports (legal_zlauum uplo n lda) c -> c <> 0 ->
  zlauum (F := F) rp nb uplo n pA lda bA = Returns c.
Proof. intros *  R. rewrite <- (reports_fun _ _ _ (args_zlauum uplo n lda) R). apply link_zlauum. Qed.

Lemma no_effect_zpoinv : forall (F : fields) rp R nb uplo n pA lda bA c, reports (legal_zpoinv uplo n lda) c -> c <> 0 ->
  zpoinv (F := F) rp R nb uplo n pA lda bA = GReturns c.
Proof. intros *  R. rewrite <- (reports_fun _ _ _ (args_zpoinv uplo n lda) R). apply link_zpoinv. Qed.

Lemma no_effect_zpotrf : forall (F : fields) R rp nb uplo n pA lda bA c, reports (legal_zpotrf uplo n lda) c -> c <> 0 ->
  zpotrf (F := F) R rp nb uplo n pA lda bA = GReturns c.
Proof. intros *  R. rewrite <- (reports_fun _ _ _ (args_zpotrf uplo n lda) R). apply link_zpotrf. Qed.

Lemma no_effect_zpotri : forall (F : fields) rp nb uplo n pA lda bA c, reports (legal_zpotri uplo n lda) c -> c <> 0 ->
  zpotri (F := F) rp nb uplo n pA lda bA = GReturns c.
Proof. intros *  R. rewrite <- (reports_fun _ _ _ (args_zpotri uplo n lda) R). apply link_zpotri. Qed.

Lemma no_effect_zpbsv : forall (F : fields) R rp nb uplo n kd nrhs pAB ldab pB ldb bA bB c, reports (legal_zpbsv uplo n kd nrhs ldab ldb) c -> c <> 0 ->
  zpbsv (F := F) R rp nb uplo n kd nrhs pAB ldab pB ldb bA bB = GReturns c.
Proof. intros *  R. rewrite <- (reports_fun _ _ _ (args_zpbsv uplo n kd nrhs ldab ldb) R). apply link_zpbsv. Qed.

Lemma no_effect_zpbtrf : forall (F : fields) R rp nb uplo n kd pAB ldab bA c, reports (legal_zpbtrf uplo n kd ldab) c -> c <> 0 ->
  zpbtrf (F := F) R rp nb uplo n kd pAB ldab bA = GReturns c.
Proof. intros *  R. rewrite <- (reports_fun _ _ _ (args_zpbtrf uplo n kd ldab) R). apply link_zpbtrf. Qed.

Lemma no_effect_zpbtrs : forall (F : fields) nb uplo n kd nrhs pAB ldab pB ldb bA bB, ~ ((In uplo [121;122]) /\ (0 <= n) /\ (0 <= kd) /\ (0 <= nrhs) /\ (Z.max 1 (1 + kd) <= ldab) /\ (Z.max 1 n <= ldb)) ->
  exists c, c <> 0 /\ zpbtrs (F := F) nb uplo n kd nrhs pAB ldab pB ldb bA bB = Returns c.
Proof. intros * H. exists (arg_code (chk_zpbtrs uplo n kd nrhs ldab ldb)).
  assert (E : arg_code (chk_zpbtrs uplo n kd nrhs ldab ldb) <> 0) by (intros E; apply H; apply args_zpbtrs_rejects; exact E).
  split; [exact E|apply link_zpbtrs; exact E]. Qed.

Lemma no_effect_zposv : forall (F : fields) R rp nb uplo n nrhs pA lda pB ldb bA bB c, reports (legal_zposv uplo n nrhs lda ldb) c -> c <> 0 ->
  zposv (F := F) R rp nb uplo n nrhs pA lda pB ldb bA bB = GReturns c.
Proof. intros *  R. rewrite <- (reports_fun _ _ _ (args_zposv uplo n nrhs lda ldb) R). apply link_zposv. Qed.

Lemma no_effect_zpotrs : forall (F : fields) nb uplo n nrhs pA lda pB ldb bA bB c, reports (legal_zpotrs uplo n nrhs lda ldb) c -> c <> 0 ->
  zpotrs (F := F) nb uplo n nrhs pA lda pB ldb bA bB = Returns c.
Proof. intros *  R. rewrite <- (reports_fun _ _ _ (args_zpotrs uplo n nrhs lda ldb) R). apply link_zpotrs. Qed.

Lemma no_effect_ztradd : forall (N : numbers) nb uplo transa m n alpha pA lda beta pB ldb bA bB apA apB c, apA <> 0 -> apB <> 0 -> reports (legal_ztradd uplo transa m n apA lda apB ldb) c -> c <> 0 ->
  ztradd (N := N) nb uplo transa m n alpha pA lda beta pB ldb bA bB = Returns c.
Proof. intros * P0 P1 R. rewrite <- (reports_fun _ _ _ (args_ztradd uplo transa m n apA lda apB ldb) R). apply link_ztradd; assumption. Qed.

Lemma no_effect_ztrmm : forall (N : numbers) nb side uplo transa diag m n alpha pA lda pB ldb bA bB, ~ ((In side [141;142]) /\ (In uplo [121;122]) /\ (In transa [111;112;113]) /\ (In diag [132;131]) /\ (0 <= m) /\ (0 <= n) /\ (Z.max 1 (if side =? 141 then m else n) <= lda) /\ (Z.max 1 m <= ldb)) ->
  exists c, c <> 0 /\ ztrmm (N := N) nb side uplo transa diag m n alpha pA lda pB ldb bA bB = Returns c.
Proof. intros * H. exists (arg_code (chk_ztrmm side uplo transa diag m n lda ldb)).
  assert (E : arg_code (chk_ztrmm side uplo transa diag m n lda ldb) <> 0) by (intros E; apply H; apply args_ztrmm_rejects; exact E).
  split; [exact E|apply link_ztrmm; exact E]. Qed.

Lemma no_effect_ztrsm : forall (F : fields) nb side uplo transa diag m n alpha pA lda pB ldb bA bB, ~ ((In side [141;142]) /\ (In uplo [121;122]) /\ (In transa [111;112;113]) /\ (In diag [132;131]) /\ (0 <= m) /\ (0 <= n) /\ (Z.max 1 (if side =? 141 then m else n) <= lda) /\ (Z.max 1 m <= ldb)) ->
  exists c, c <> 0 /\ ztrsm (F := F) nb side uplo transa diag m n alpha pA lda pB ldb bA bB = Some (Returns c).
Proof. intros * H. exists (arg_code (chk_ztrsm side uplo transa diag m n lda ldb)).
  assert (E : arg_code (chk_ztrsm side uplo transa diag m n lda ldb) <> 0) by (intros E; apply H; apply args_ztrsm_rejects; exact E).
  split; [exact E|apply link_ztrsm; exact E]. Qed.

Lemma no_effect_ztrtri : forall (F : fields) nb uplo diag n pA lda bA c, reports (legal_ztrtri uplo diag n lda) c -> c <> 0 ->
  ztrtri (F := F) nb uplo diag n pA lda bA = GReturns c.
Proof. intros *  R. rewrite <- (reports_fun _ _ _ (args_ztrtri uplo diag n lda) R). apply link_ztrtri. Qed.

Lemma no_effect_zunglq : forall (N : numbers) nb m n k pA lda bT T pQ ldq bA bQ c, reports (legal_zunglq m n k lda ldq) c -> c <> 0 ->
  zunglq (N := N) nb m n k pA lda bT T pQ ldq bA bQ = Returns c.
Proof. intros *  R. rewrite <- (reports_fun _ _ _ (args_zunglq m n k lda ldq) R). apply link_zunglq. Qed.

Lemma no_effect_zungqr : forall (N : numbers) nb m n k pA lda bT T pQ ldq bA bQ c, reports (legal_zungqr m n k lda ldq) c -> c <> 0 ->
  zungqr (N := N) nb m n k pA lda bT T pQ ldq bA bQ = Returns c.
Proof. intros *  R. rewrite <- (reports_fun _ _ _ (args_zungqr m n k lda ldq) R). apply link_zungqr. Qed.

Lemma no_effect_zunmlq : forall (N : numbers) nb side trans m n k pA lda bT T pC ldc bA bC c, reports (legal_zunmlq side trans m n k lda ldc) c -> c <> 0 ->
  zunmlq (N := N) nb side trans m n k pA lda bT T pC ldc bA bC = Returns c.
Proof. intros *  R. rewrite <- (reports_fun _ _ _ (args_zunmlq side trans m n k lda ldc) R). apply link_zunmlq. Qed.

Lemma no_effect_zunmqr : forall (N : numbers) nb side trans m n k pA lda bT T pC ldc bA bC c, reports (legal_zunmqr side trans m n k lda ldc) c -> c <> 0 ->
  zunmqr (N := N) nb side trans m n k pA lda bT T pC ldc bA bC = Returns c.
Proof. intros *  R. rewrite <- (reports_fun _ _ _ (args_zunmqr side trans m n k lda ldc) R). apply link_zunmqr. Qed.

Lemma no_effect_zlanhe : forall (N : normed) lassq nsqrt dg nb norm uplo n pA lda bA bW value c, reports (legal_zlanhe norm uplo n lda) c -> c <> 0 ->
  zlansy (N := N) lassq nsqrt dg nb norm uplo n pA lda bA bW value = VReturns c.
Proof. intros *  R. rewrite <- (reports_fun _ _ _ (args_zlanhe norm uplo n lda) R). apply link_zlanhe. Qed.

Lemma no_effect_zlascl : forall (F : fields) nb uplo (cfrom cto : F) m n pA lda bA ct c, ct <> 1 ->
  reports (legal_zlascl uplo (if neqb cfrom n0 then 0 else 2) ct m n lda) c -> c <> 0 ->
  zlascl (F := F) nb uplo cfrom cto m n pA lda bA = Returns c.
Proof.
  intros * P R. rewrite <- (reports_fun _ _ _ (args_zlascl uplo (if neqb cfrom n0 then 0 else 2) ct m n lda) R).
  apply link_zlascl; exact P.
Qed.
