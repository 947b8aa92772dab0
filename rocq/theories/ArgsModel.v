(* Argument checks at the head of every synchronous routine of compute/ (complex double
   precision): the tests in the order the code makes them, each with the value returned.
   A routine returns the code of its first test that holds, before it does anything else.
   Pointer arguments without a check and scalars without a check are left out of the
   parameter lists; a pointer pA is an integer, 0 standing for NULL. *)
From Coq Require Import ZArith List Bool.
From Verif Require Import Base.
Import ListNotations.
Open Scope Z_scope.

(* compute/z*.c: "(x != A) && (x != B) && ..." is negb (one_of x [A;B;...]); the integers are
   the enumerators of include/plasma_types.h:74-114 *)
Definition one_of (x : Z) (l : list Z) : bool := existsb (Z.eqb x) l.

(* compute/z*.c: "if (test) { plasma_error(...); return code; }" repeated; 0 when every
   test fails and the routine goes on (e.g. compute/zgemm.c:120-176) *)
Fixpoint arg_code (l : list (bool * Z)) : Z :=
  match l with
  | [] => 0
  | (bad, code) :: l' => if bad then code else arg_code l'
  end.

(* compute/clag2z.c:58-86 plasma_clag2z *)
Definition chk_clag2z (m n ldas lda : Z) : list (bool * Z) :=
  [(m <? 0, -1);
   (n <? 0, -2);
   (ldas <? Z.max 1 m, -4);
   (lda <? Z.max 1 m, -6)].

(* compute/dzamax.c:21-49 plasma_dzamax *)
Definition chk_dzamax (colrow m n lda : Z) : list (bool * Z) :=
  [(negb (one_of colrow [401;402]), -1);
   (m <? 0, -2);
   (n <? 0, -3);
   (lda <? Z.max 1 m, -5)].

(* compute/zcgbsv.c:112-145 plasma_zcgbsv *)
Definition chk_zcgbsv (n kl ku nrhs ldab ldb ldx : Z) : list (bool * Z) :=
  [(n <? 0, -1);
   (nrhs <? 0, -2);
   (ldab <? Z.max 1 (1 + kl + ku), -4);
   (ldb <? Z.max 1 n, -7);
   (ldx <? Z.max 1 n, -9)].

(* compute/zcgesv.c:107-140 plasma_zcgesv *)
Definition chk_zcgesv (n nrhs lda ldb ldx : Z) : list (bool * Z) :=
  [(n <? 0, -1);
   (nrhs <? 0, -2);
   (lda <? Z.max 1 n, -4);
   (ldb <? Z.max 1 n, -7);
   (ldx <? Z.max 1 n, -9)].

(* compute/zcposv.c:116-153 plasma_zcposv *)
Definition chk_zcposv (uplo n nrhs lda ldb ldx : Z) : list (bool * Z) :=
  [(negb (one_of uplo [121;122]), -1);
   (n <? 0, -2);
   (nrhs <? 0, -3);
   (lda <? Z.max 1 n, -5);
   (ldb <? Z.max 1 n, -7);
   (ldx <? Z.max 1 n, -9)].

(* compute/zgbmm.c:112-190 plasma_zgbmm *)
Definition chk_zgbmm (transa transb m n k kl ku lda ldb ldc : Z) : list (bool * Z) :=
  [(negb (one_of transa [111;112;113]), -1);
   (negb (one_of transb [111;112;113]), -2);
   (m <? 0, -3);
   (n <? 0, -4);
   (k <? 0, -5);
   ((kl <? 0) || (m - 1 <? kl), -6);
   ((ku <? 0) || (k - 1 <? ku), -7);
   (lda <? Z.max 1 (if transa =? 111 then m else k), -8);
   (ldb <? Z.max 1 (if transb =? 111 then k else n), -10);
   (ldc <? Z.max 1 m, -13)].

(* compute/zgbsv.c:63-99 plasma_zgbsv *)
Definition chk_zgbsv (n kl ku nrhs ldab ldb : Z) : list (bool * Z) :=
  [(n <? 0, -1);
   (kl <? 0, -2);
   (ku <? 0, -3);
   (nrhs <? 0, -4);
   (ldab <? Z.max 1 (1 + kl + ku), -6);
   (ldb <? Z.max 1 n, -8)].

(* compute/zgbtrf.c:55-85 plasma_zgbtrf *)
Definition chk_zgbtrf (m n kl ku ldab : Z) : list (bool * Z) :=
  [(m <? 0, -1);
   (n <? 0, -2);
   (kl <? 0, -3);
   (ku <? 0, -4);
   (ldab <? Z.max 1 (1 + kl + ku), -6)].

(* compute/zgbtrs.c:81-124 plasma_zgbtrs *)
Definition chk_zgbtrs (trans n kl ku nrhs ldab ldb : Z) : list (bool * Z) :=
  [(negb (one_of trans [111;112;113]), -1);
   (n <? 0, -2);
   (kl <? 0, -3);
   (ku <? 0, -4);
   (nrhs <? 0, -5);
   (ldab <? Z.max 1 (1 + kl + ku), -7);
   (ldb <? Z.max 1 n, -10)].

(* compute/zgeadd.c:90-146 plasma_zgeadd *)
Definition chk_zgeadd (transa m n pA lda pB ldb : Z) : list (bool * Z) :=
  [(negb (one_of transa [111;112;113]), -1);
   (m <? 0, -2);
   (n <? 0, -3);
   (pA =? 0, -5);
   (lda <? Z.max 1 (if transa =? 111 then m else n), -6);
   (pB =? 0, -8);
   (ldb <? Z.max 1 m, -9)].

(* compute/zgeinv.c:62-84 plasma_zgeinv *)
Definition chk_zgeinv (m n lda : Z) : list (bool * Z) :=
  [(m <? 0, -1);
   (n <? 0, -2);
   (lda <? Z.max 1 n, -4)].

(* compute/zgelqf.c:71-95 plasma_zgelqf *)
Definition chk_zgelqf (m n lda : Z) : list (bool * Z) :=
  [(m <? 0, -1);
   (n <? 0, -2);
   (lda <? Z.max 1 m, -4)].

(* compute/zgeqrf.c:73-97 plasma_zgeqrf *)
Definition chk_zgeqrf (m n lda : Z) : list (bool * Z) :=
  [(m <? 0, -1);
   (n <? 0, -2);
   (lda <? Z.max 1 m, -4)].

(* compute/zgetrf.c:25-47 plasma_zgetrf *)
Definition chk_zgetrf (m n lda : Z) : list (bool * Z) :=
  [(m <? 0, -1);
   (n <? 0, -2);
   (lda <? Z.max 1 m, -4)].

(* compute/zgelqs.c:71-104 plasma_zgelqs *)
Definition chk_zgelqs (m n nrhs lda ldb : Z) : list (bool * Z) :=
  [(m <? 0, -1);
   ((n <? 0) || (n <? m), -2);
   (nrhs <? 0, -3);
   (lda <? Z.max 1 m, -5);
   (ldb <? Z.max 1 (Z.max 1 n), -8)].

(* compute/zgels.c:116-155 plasma_zgels *)
Definition chk_zgels (trans m n nrhs lda ldb : Z) : list (bool * Z) :=
  [(negb (one_of trans [111;113]), -103);
   (m <? 0, -2);
   (n <? 0, -3);
   (nrhs <? 0, -4);
   (lda <? Z.max 1 m, -6);
   (ldb <? Z.max 1 (Z.max m n), -9)].

(* compute/zgemm.c:105-175 plasma_zgemm *)
Definition chk_zgemm (transa transb m n k lda ldb ldc : Z) : list (bool * Z) :=
  [(negb (one_of transa [111;112;113]), -1);
   (negb (one_of transb [111;112;113]), -2);
   (m <? 0, -3);
   (n <? 0, -4);
   (k <? 0, -5);
   (lda <? Z.max 1 (if transa =? 111 then m else k), -8);
   (ldb <? Z.max 1 (if transb =? 111 then k else n), -10);
   (ldc <? Z.max 1 m, -13)].

(* compute/zgeqrs.c:72-105 plasma_zgeqrs *)
Definition chk_zgeqrs (m n nrhs lda ldb : Z) : list (bool * Z) :=
  [(m <? 0, -1);
   ((n <? 0) || (m <? n), -2);
   (nrhs <? 0, -3);
   (lda <? Z.max 1 m, -5);
   (ldb <? Z.max 1 (Z.max 1 m), -8)].

(* compute/zgesdd.c:123-173 plasma_zgesdd *)
Definition chk_zgesdd (jobu jobvt m n lda ldu ldvt : Z) : list (bool * Z) :=
  [(negb (one_of jobu [301;305;306]), -1);
   (negb (one_of jobvt [301;305;306]), -2);
   (negb (jobvt =? jobu), -2);
   (m <? 0, -3);
   (n <? 0, -4);
   (lda <? Z.max 1 m, -6);
   ((ldu <? 1) || (negb (jobu =? 301) && (ldu <? m)), -9);
   ((ldvt <? 1) || ((jobvt =? 305) && (ldvt <? n)) || ((jobvt =? 306) && (ldvt <? Z.min m n)), -11)].

(* compute/zgesv.c:25-52 plasma_zgesv *)
Definition chk_zgesv (n nrhs lda ldb : Z) : list (bool * Z) :=
  [(n <? 0, -1);
   (nrhs <? 0, -2);
   (lda <? Z.max 1 n, -4);
   (ldb <? Z.max 1 n, -7)].

(* compute/zgeswp.c:22-51 plasma_zgeswp *)
Definition chk_zgeswp (colrow m n lda : Z) : list (bool * Z) :=
  [(negb (one_of colrow [401;402]), -1);
   (m <? 0, -2);
   (n <? 0, -3);
   (lda <? Z.max 1 m, -5)].

(* compute/zgetri.c:58-75 plasma_zgetri *)
Definition chk_zgetri (n lda : Z) : list (bool * Z) :=
  [(n <? 0, -1);
   (lda <? Z.max 1 n, -3)].

(* compute/zgetri_aux.c:53-71 plasma_zgetri_aux *)
Definition chk_zgetri_aux (n lda : Z) : list (bool * Z) :=
  [(n <? 0, -1);
   (lda <? Z.max 1 n, -3)].

(* compute/zgetrs.c:25-58 plasma_zgetrs *)
Definition chk_zgetrs (trans n nrhs lda ldb : Z) : list (bool * Z) :=
  [(negb (one_of trans [111;112;113]), -1);
   (n <? 0, -1);
   (nrhs <? 0, -2);
   (lda <? Z.max 1 n, -4);
   (ldb <? Z.max 1 n, -7)].

(* compute/zhemm.c:94-145 plasma_zhemm *)
Definition chk_zhemm (side uplo m n lda ldb ldc : Z) : list (bool * Z) :=
  [(negb (one_of side [141;142]), -1);
   (negb (one_of uplo [121;122]), -2);
   (m <? 0, -3);
   (n <? 0, -4);
   (lda <? Z.max 1 (if side =? 141 then m else n), -7);
   (ldb <? Z.max 1 m, -9);
   (ldc <? Z.max 1 m, -12)].

(* compute/zsymm.c:96-146 plasma_zsymm *)
Definition chk_zsymm (side uplo m n lda ldb ldc : Z) : list (bool * Z) :=
  [(negb (one_of side [141;142]), -1);
   (negb (one_of uplo [121;122]), -2);
   (m <? 0, -3);
   (n <? 0, -4);
   (lda <? Z.max 1 (if side =? 141 then m else n), -7);
   (ldb <? Z.max 1 m, -9);
   (ldc <? Z.max 1 m, -12)].

(* compute/zher2k.c:101-161 plasma_zher2k *)
Definition chk_zher2k (uplo trans n k lda ldb ldc : Z) : list (bool * Z) :=
  [(negb (one_of uplo [121;122]), -1);
   (negb (one_of trans [111;113]), -2);
   (n <? 0, -3);
   (k <? 0, -4);
   (lda <? Z.max 1 (if trans =? 111 then n else k), -7);
   (ldb <? Z.max 1 (if trans =? 111 then n else k), -9);
   (ldc <? Z.max 1 n, -12)].

(* compute/zsyr2k.c:101-161 plasma_zsyr2k *)
Definition chk_zsyr2k (uplo trans n k lda ldb ldc : Z) : list (bool * Z) :=
  [(negb (one_of uplo [121;122]), -1);
   (negb (one_of trans [111;112]), -2);
   (n <? 0, -3);
   (k <? 0, -4);
   (lda <? Z.max 1 (if trans =? 111 then n else k), -7);
   (ldb <? Z.max 1 (if trans =? 111 then n else k), -9);
   (ldc <? Z.max 1 n, -12)].

(* compute/zherk.c:87-137 plasma_zherk *)
Definition chk_zherk (uplo trans n k lda ldc : Z) : list (bool * Z) :=
  [(negb (one_of uplo [121;122]), -1);
   (negb (one_of trans [111;113]), -2);
   (n <? 0, -3);
   (k <? 0, -4);
   (lda <? Z.max 1 (if trans =? 111 then n else k), -7);
   (ldc <? Z.max 1 n, -10)].

(* compute/zsyrk.c:89-139 plasma_zsyrk *)
Definition chk_zsyrk (uplo trans n k lda ldc : Z) : list (bool * Z) :=
  [(negb (one_of uplo [121;122]), -1);
   (negb (one_of trans [111;112]), -2);
   (n <? 0, -3);
   (k <? 0, -4);
   (lda <? Z.max 1 (if trans =? 111 then n else k), -7);
   (ldc <? Z.max 1 n, -10)].

(* compute/zhesv.c:87-123 plasma_zhesv *)
Definition chk_zhesv (uplo n nrhs lda ldb : Z) : list (bool * Z) :=
  [(negb (one_of uplo [122]), -1);
   (n <? 0, -2);
   (nrhs <? 0, -5);
   (lda <? Z.max 1 n, -7);
   (ldb <? Z.max 1 n, -10)].

(* compute/zhetrs.c:86-122 plasma_zhetrs *)
Definition chk_zhetrs (uplo n nrhs lda ldb : Z) : list (bool * Z) :=
  [(negb (one_of uplo [122]), -1);
   (n <? 0, -2);
   (nrhs <? 0, -5);
   (lda <? Z.max 1 n, -7);
   (ldb <? Z.max 1 n, -10)].

(* compute/zhetrf.c:91-117 plasma_zhetrf *)
Definition chk_zhetrf (uplo n lda : Z) : list (bool * Z) :=
  [(negb (one_of uplo [122]), -1);
   (n <? 0, -2);
   (lda <? Z.max 1 n, -4)].

(* compute/zlacpy.c:74-119 plasma_zlacpy *)
Definition chk_zlacpy (uplo transa m n lda ldb : Z) : list (bool * Z) :=
  [(negb (one_of uplo [123;121;122]), -1);
   (negb (one_of transa [111;112;113]), -2);
   (m <? 0, -3);
   (n <? 0, -4);
   (negb (transa =? 111) && negb (m =? n), -3);
   (lda <? Z.max 1 m, -6);
   (ldb <? Z.max 1 (if transa =? 111 then m else n), -8)].

(* compute/zlag2c.c:59-87 plasma_zlag2c *)
Definition chk_zlag2c (m n lda ldas : Z) : list (bool * Z) :=
  [(m <? 0, -1);
   (n <? 0, -2);
   (lda <? Z.max 1 m, -4);
   (ldas <? Z.max 1 m, -6)].

(* compute/zlangb.c:81-120 plasma_zlangb *)
Definition chk_zlangb (norm m n kl ku ldab : Z) : list (bool * Z) :=
  [(negb (one_of norm [177;171;175;174]), -1);
   (m <? 0, -2);
   (n <? 0, -3);
   (kl <? 0, -4);
   (ku <? 0, -5);
   (ldab <? Z.max 1 (1 + kl + ku), -7)].

(* compute/zlange.c:76-106 plasma_zlange *)
Definition chk_zlange (norm m n lda : Z) : list (bool * Z) :=
  [(negb (one_of norm [177;171;175;174]), -1);
   (m <? 0, -2);
   (n <? 0, -3);
   (lda <? Z.max 1 m, -5)].

(* compute/zlanhe.c:79-109 plasma_zlanhe *)
Definition chk_zlanhe (norm uplo n lda : Z) : list (bool * Z) :=
  [(negb (one_of norm [177;171;175;174]), -1);
   (negb (one_of uplo [121;122]), -2);
   (n <? 0, -3);
   (lda <? Z.max 1 n, -5)].

(* compute/zlansy.c:81-111 plasma_zlansy *)
Definition chk_zlansy (norm uplo n lda : Z) : list (bool * Z) :=
  [(negb (one_of norm [177;171;175;174]), -1);
   (negb (one_of uplo [121;122]), -2);
   (n <? 0, -3);
   (lda <? Z.max 1 n, -5)].

(* compute/zlantr.c:84-124 plasma_zlantr *)
Definition chk_zlantr (norm uplo diag m n lda : Z) : list (bool * Z) :=
  [(negb (one_of norm [177;171;175;174]), -1);
   (negb (one_of uplo [121;122]), -2);
   (negb (one_of diag [132;131]), -3);
   (m <? 0, -4);
   (n <? 0, -5);
   (lda <? Z.max 1 m, -7)].

(* compute/zlascl.c:24-63 plasma_zlascl ; cfrom and cto are classes of numbers: 0 for zero, 1 for NaN,
   anything else for other numbers *)
Definition chk_zlascl (uplo cfrom cto m n lda : Z) : list (bool * Z) :=
  [(negb (one_of uplo [123;121;122]), -1);
   ((cfrom =? 0) || (cfrom =? 1), -2);
   (cto =? 1, -3);
   (m <? 0, -4);
   (n <? 0, -5);
   (lda <? Z.max 1 m, -7)].

(* compute/zlaset.c:22-53 plasma_zlaset *)
Definition chk_zlaset (uplo m n lda : Z) : list (bool * Z) :=
  [(negb (one_of uplo [123;121;122]), -1);
   (m <? 0, -2);
   (n <? 0, -3);
   (lda <? Z.max 1 m, -5)].

(* compute/zlauum.c:67-89 plasma_zlauum *)
Definition chk_zlauum (uplo n lda : Z) : list (bool * Z) :=
  [(negb (one_of uplo [121;122]), -1);
   (n <? 0, -2);
   (lda <? Z.max 1 n, -4)].

(* compute/zpoinv.c:67-92 plasma_zpoinv *)
Definition chk_zpoinv (uplo n lda : Z) : list (bool * Z) :=
  [(negb (one_of uplo [121;122]), -1);
   (n <? 0, -2);
   (lda <? Z.max 1 n, -4)].

(* compute/zpotrf.c:74-99 plasma_zpotrf *)
Definition chk_zpotrf (uplo n lda : Z) : list (bool * Z) :=
  [(negb (one_of uplo [121;122]), -1);
   (n <? 0, -2);
   (lda <? Z.max 1 n, -4)].

(* compute/zpotri.c:65-89 plasma_zpotri *)
Definition chk_zpotri (uplo n lda : Z) : list (bool * Z) :=
  [(negb (one_of uplo [121;122]), -1);
   (n <? 0, -2);
   (lda <? Z.max 1 n, -4)].

(* compute/zpbsv.c:92-130 plasma_zpbsv *)
Definition chk_zpbsv (uplo n kd nrhs ldab ldb : Z) : list (bool * Z) :=
  [(negb (one_of uplo [121;122]), -1);
   (n <? 0, -2);
   (kd <? 0, -3);
   (nrhs <? 0, -4);
   (ldab <? kd + 1, -6);
   (ldb <? Z.max 1 n, -8)].

(* compute/zpbtrf.c:77-106 plasma_zpbtrf *)
Definition chk_zpbtrf (uplo n kd ldab : Z) : list (bool * Z) :=
  [(negb (one_of uplo [121;122]), -1);
   (n <? 0, -2);
   (kd <? 0, -3);
   (ldab <? kd + 1, -5)].

(* compute/zpbtrs.c:81-119 plasma_zpbtrs *)
Definition chk_zpbtrs (uplo n kd nrhs ldab ldb : Z) : list (bool * Z) :=
  [(negb (one_of uplo [121;122]), -1);
   (n <? 0, -2);
   (kd <? 0, -4);
   (nrhs <? 0, -5);
   (ldab <? Z.max 1 (1 + kd), -7);
   (ldb <? Z.max 1 n, -10)].

(* compute/zposv.c:90-124 plasma_zposv *)
Definition chk_zposv (uplo n nrhs lda ldb : Z) : list (bool * Z) :=
  [(negb (one_of uplo [121;122]), -1);
   (n <? 0, -2);
   (nrhs <? 0, -3);
   (lda <? Z.max 1 n, -5);
   (ldb <? Z.max 1 n, -7)].

(* compute/zpotrs.c:77-111 plasma_zpotrs *)
Definition chk_zpotrs (uplo n nrhs lda ldb : Z) : list (bool * Z) :=
  [(negb (one_of uplo [121;122]), -1);
   (n <? 0, -2);
   (nrhs <? 0, -3);
   (lda <? Z.max 1 n, -5);
   (ldb <? Z.max 1 n, -7)].

(* compute/ztradd.c:95-156 plasma_ztradd *)
Definition chk_ztradd (uplo transa m n pA lda pB ldb : Z) : list (bool * Z) :=
  [(negb (one_of uplo [121;122]), -1);
   (negb (one_of transa [111;112;113]), -2);
   (m <? 0, -3);
   (n <? 0, -4);
   (pA =? 0, -6);
   (lda <? Z.max 1 (if transa =? 111 then m else n), -7);
   (pB =? 0, -9);
   (ldb <? Z.max 1 m, -10)].

(* compute/ztrmm.c:111-163 plasma_ztrmm *)
Definition chk_ztrmm (side uplo transa diag m n lda ldb : Z) : list (bool * Z) :=
  [(negb (one_of side [141;142]), -1);
   (negb (one_of uplo [121;122]), -2);
   (negb (one_of transa [111;112;113]), -3);
   (negb (one_of diag [132;131]), -4);
   (m <? 0, -5);
   (n <? 0, -6);
   (lda <? Z.max 1 (if side =? 141 then m else n), -8);
   (ldb <? Z.max 1 m, -10)].

(* compute/ztrsm.c:104-162 plasma_ztrsm *)
Definition chk_ztrsm (side uplo transa diag m n lda ldb : Z) : list (bool * Z) :=
  [(negb (one_of side [141;142]), -1);
   (negb (one_of uplo [121;122]), -2);
   (negb (one_of transa [111;112;113]), -3);
   (negb (one_of diag [132;131]), -4);
   (m <? 0, -5);
   (n <? 0, -6);
   (lda <? Z.max 1 (if side =? 141 then m else n), -8);
   (ldb <? Z.max 1 m, -10)].

(* compute/ztrtri.c:70-96 plasma_ztrtri *)
Definition chk_ztrtri (uplo diag n lda : Z) : list (bool * Z) :=
  [(negb (one_of uplo [121;122]), -1);
   (negb (one_of diag [132;131]), -2);
   (n <? 0, -3);
   (lda <? Z.max 1 n, -5)].

(* compute/zunglq.c:73-106 plasma_zunglq *)
Definition chk_zunglq (m n k lda ldq : Z) : list (bool * Z) :=
  [(m <? 0, -1);
   (n <? m, -2);
   ((k <? 0) || (m <? k), -3);
   (lda <? Z.max 1 m, -5);
   (ldq <? Z.max 1 m, -8)].

(* compute/zungqr.c:73-106 plasma_zungqr *)
Definition chk_zungqr (m n k lda ldq : Z) : list (bool * Z) :=
  [(m <? 0, -1);
   ((n <? 0) || (m <? n), -2);
   ((k <? 0) || (n <? k), -3);
   (lda <? Z.max 1 m, -5);
   (ldq <? Z.max 1 m, -8)].

(* compute/zunmlq.c:95-146 plasma_zunmlq *)
Definition chk_zunmlq (side trans m n k lda ldc : Z) : list (bool * Z) :=
  [(negb (one_of side [141;142]), -1);
   (negb (one_of trans [111;113]), -2);
   (m <? 0, -3);
   (n <? 0, -4);
   ((k <? 0) || ((if side =? 141 then m else n) <? k), -5);
   (lda <? Z.max 1 k, -7);
   (ldc <? Z.max 1 m, -10)].

(* compute/zunmqr.c:97-148 plasma_zunmqr *)
Definition chk_zunmqr (side trans m n k lda ldc : Z) : list (bool * Z) :=
  [(negb (one_of side [141;142]), -1);
   (negb (one_of trans [111;113]), -2);
   (m <? 0, -3);
   (n <? 0, -4);
   ((k <? 0) || ((if side =? 141 then m else n) <? k), -5);
   (lda <? Z.max 1 (if side =? 141 then m else n), -7);
   (ldc <? Z.max 1 m, -10)].

