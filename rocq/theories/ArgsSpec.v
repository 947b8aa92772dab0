(* What each routine documents about its arguments: position in the parameter list and
   condition to be met, in order of position (from the parameter lists and the documentation
   comments of compute/). *)
From Coq Require Import ZArith List Bool.
Import ListNotations.
Open Scope Z_scope.

(* [reports l c]: c is minus the position of the first argument that breaks its rule, or 0 *)
Inductive reports : list (Z * Prop) -> Z -> Prop :=
| reports_ok : reports [] 0
| reports_here : forall p (P : Prop) l, ~ P -> reports ((p, P) :: l) (- p)
| reports_later : forall p (P : Prop) l c, P -> reports l c -> reports ((p, P) :: l) c.

(* compute/clag2z.c: plasma_clag2z *)
Definition legal_clag2z (m n ldas lda : Z) : list (Z * Prop) :=
  [(1, 0 <= m);
   (2, 0 <= n);
   (4, Z.max 1 m <= ldas);
   (6, Z.max 1 m <= lda)].

(* compute/dzamax.c: plasma_dzamax *)
Definition legal_dzamax (colrow m n lda : Z) : list (Z * Prop) :=
  [(1, In colrow [401;402]);
   (2, 0 <= m);
   (3, 0 <= n);
   (5, Z.max 1 m <= lda)].

(* compute/zcgbsv.c: plasma_zcgbsv *)
Definition legal_zcgbsv (n kl ku nrhs ldab ldb ldx : Z) : list (Z * Prop) :=
  [(1, 0 <= n);
   (2, 0 <= kl);
   (3, 0 <= ku);
   (4, 0 <= nrhs);
   (6, Z.max 1 (1 + kl + ku) <= ldab);
   (9, Z.max 1 n <= ldb);
   (11, Z.max 1 n <= ldx)].

(* compute/zcgesv.c: plasma_zcgesv *)
Definition legal_zcgesv (n nrhs lda ldb ldx : Z) : list (Z * Prop) :=
  [(1, 0 <= n);
   (2, 0 <= nrhs);
   (4, Z.max 1 n <= lda);
   (7, Z.max 1 n <= ldb);
   (9, Z.max 1 n <= ldx)].

(* compute/zcposv.c: plasma_zcposv *)
Definition legal_zcposv (uplo n nrhs lda ldb ldx : Z) : list (Z * Prop) :=
  [(1, In uplo [121;122]);
   (2, 0 <= n);
   (3, 0 <= nrhs);
   (5, Z.max 1 n <= lda);
   (7, Z.max 1 n <= ldb);
   (9, Z.max 1 n <= ldx)].

(* compute/zgbmm.c: plasma_zgbmm *)
Definition legal_zgbmm (transa transb m n k kl ku lda ldb ldc : Z) : list (Z * Prop) :=
  [(1, In transa [111;112;113]);
   (2, In transb [111;112;113]);
   (3, 0 <= m);
   (4, 0 <= n);
   (5, 0 <= k);
   (6, 0 <= kl <= m - 1);
   (7, 0 <= ku <= k - 1);
   (10, Z.max 1 (if transa =? 111 then m else k) <= lda);
   (12, Z.max 1 (if transb =? 111 then k else n) <= ldb);
   (15, Z.max 1 m <= ldc)].

(* compute/zgbsv.c: plasma_zgbsv *)
Definition legal_zgbsv (n kl ku nrhs ldab ldb : Z) : list (Z * Prop) :=
  [(1, 0 <= n);
   (2, 0 <= kl);
   (3, 0 <= ku);
   (4, 0 <= nrhs);
   (6, Z.max 1 (1 + kl + ku) <= ldab);
   (9, Z.max 1 n <= ldb)].

(* compute/zgbtrf.c: plasma_zgbtrf *)
Definition legal_zgbtrf (m n kl ku ldab : Z) : list (Z * Prop) :=
  [(1, 0 <= m);
   (2, 0 <= n);
   (3, 0 <= kl);
   (4, 0 <= ku);
   (6, Z.max 1 (1 + kl + ku) <= ldab)].

(* compute/zgbtrs.c: plasma_zgbtrs *)
Definition legal_zgbtrs (trans n kl ku nrhs ldab ldb : Z) : list (Z * Prop) :=
  [(1, In trans [111;112;113]);
   (2, 0 <= n);
   (3, 0 <= kl);
   (4, 0 <= ku);
   (5, 0 <= nrhs);
   (7, Z.max 1 (1 + kl + ku) <= ldab);
   (10, Z.max 1 n <= ldb)].

(* compute/zgeadd.c: plasma_zgeadd *)
Definition legal_zgeadd (transa m n pA lda pB ldb : Z) : list (Z * Prop) :=
  [(1, In transa [111;112;113]);
   (2, 0 <= m);
   (3, 0 <= n);
   (5, pA <> 0);
   (6, Z.max 1 (if transa =? 111 then m else n) <= lda);
   (8, pB <> 0);
   (9, Z.max 1 m <= ldb)].

(* compute/zgeinv.c: plasma_zgeinv *)
Definition legal_zgeinv (m n lda : Z) : list (Z * Prop) :=
  [(1, 0 <= m);
   (2, 0 <= n);
   (4, Z.max 1 m <= lda)].

(* compute/zgelqf.c: plasma_zgelqf *)
Definition legal_zgelqf (m n lda : Z) : list (Z * Prop) :=
  [(1, 0 <= m);
   (2, 0 <= n);
   (4, Z.max 1 m <= lda)].

(* compute/zgeqrf.c: plasma_zgeqrf *)
Definition legal_zgeqrf (m n lda : Z) : list (Z * Prop) :=
  [(1, 0 <= m);
   (2, 0 <= n);
   (4, Z.max 1 m <= lda)].

(* compute/zgetrf.c: plasma_zgetrf *)
Definition legal_zgetrf (m n lda : Z) : list (Z * Prop) :=
  [(1, 0 <= m);
   (2, 0 <= n);
   (4, Z.max 1 m <= lda)].

(* compute/zgelqs.c: plasma_zgelqs *)
Definition legal_zgelqs (m n nrhs lda ldb : Z) : list (Z * Prop) :=
  [(1, 0 <= m);
   (2, 0 <= n /\ m <= n);
   (3, 0 <= nrhs);
   (5, Z.max 1 m <= lda);
   (8, Z.max 1 (Z.max 1 n) <= ldb)].

(* compute/zgels.c: plasma_zgels *)
Definition legal_zgels (trans m n nrhs lda ldb : Z) : list (Z * Prop) :=
  [(1, In trans [111;113]);
   (2, 0 <= m);
   (3, 0 <= n);
   (4, 0 <= nrhs);
   (6, Z.max 1 m <= lda);
   (9, Z.max 1 (Z.max m n) <= ldb)].

(* compute/zgemm.c: plasma_zgemm *)
Definition legal_zgemm (transa transb m n k lda ldb ldc : Z) : list (Z * Prop) :=
  [(1, In transa [111;112;113]);
   (2, In transb [111;112;113]);
   (3, 0 <= m);
   (4, 0 <= n);
   (5, 0 <= k);
   (8, Z.max 1 (if transa =? 111 then m else k) <= lda);
   (10, Z.max 1 (if transb =? 111 then k else n) <= ldb);
   (13, Z.max 1 m <= ldc)].

(* compute/zgeqrs.c: plasma_zgeqrs *)
Definition legal_zgeqrs (m n nrhs lda ldb : Z) : list (Z * Prop) :=
  [(1, 0 <= m);
   (2, 0 <= n <= m);
   (3, 0 <= nrhs);
   (5, Z.max 1 m <= lda);
   (8, Z.max 1 (Z.max 1 m) <= ldb)].

(* compute/zgesdd.c: plasma_zgesdd *)
Definition legal_zgesdd (jobu jobvt m n lda ldu ldvt : Z) : list (Z * Prop) :=
  [(1, In jobu [301;305;306]);
   (2, In jobvt [301;305;306] /\ jobvt = jobu);
   (3, 0 <= m);
   (4, 0 <= n);
   (6, Z.max 1 m <= lda);
   (10, 1 <= ldu /\ (jobu <> 301 -> m <= ldu));
   (12, 1 <= ldvt /\ (jobvt = 305 -> n <= ldvt) /\ (jobvt = 306 -> Z.min m n <= ldvt))].

(* compute/zgesv.c: plasma_zgesv *)
Definition legal_zgesv (n nrhs lda ldb : Z) : list (Z * Prop) :=
  [(1, 0 <= n);
   (2, 0 <= nrhs);
   (4, Z.max 1 n <= lda);
   (7, Z.max 1 n <= ldb)].

(* compute/zgeswp.c: plasma_zgeswp *)
Definition legal_zgeswp (colrow m n lda : Z) : list (Z * Prop) :=
  [(1, In colrow [401;402]);
   (2, 0 <= m);
   (3, 0 <= n);
   (5, Z.max 1 m <= lda)].

(* compute/zgetri.c: plasma_zgetri *)
Definition legal_zgetri (n lda : Z) : list (Z * Prop) :=
  [(1, 0 <= n);
   (3, Z.max 1 n <= lda)].

(* compute/zgetri_aux.c: plasma_zgetri_aux *)
Definition legal_zgetri_aux (n lda : Z) : list (Z * Prop) :=
  [(1, 0 <= n);
   (3, Z.max 1 n <= lda)].

(* compute/zgetrs.c: plasma_zgetrs *)
Definition legal_zgetrs (trans n nrhs lda ldb : Z) : list (Z * Prop) :=
  [(1, In trans [111;112;113]);
   (2, 0 <= n);
   (3, 0 <= nrhs);
   (5, Z.max 1 n <= lda);
   (8, Z.max 1 n <= ldb)].

(* compute/zhemm.c: plasma_zhemm *)
Definition legal_zhemm (side uplo m n lda ldb ldc : Z) : list (Z * Prop) :=
  [(1, In side [141;142]);
   (2, In uplo [121;122]);
   (3, 0 <= m);
   (4, 0 <= n);
   (7, Z.max 1 (if side =? 141 then m else n) <= lda);
   (9, Z.max 1 m <= ldb);
   (12, Z.max 1 m <= ldc)].

(* compute/zsymm.c: plasma_zsymm *)
Definition legal_zsymm (side uplo m n lda ldb ldc : Z) : list (Z * Prop) :=
  [(1, In side [141;142]);
   (2, In uplo [121;122]);
   (3, 0 <= m);
   (4, 0 <= n);
   (7, Z.max 1 (if side =? 141 then m else n) <= lda);
   (9, Z.max 1 m <= ldb);
   (12, Z.max 1 m <= ldc)].

(* compute/zher2k.c: plasma_zher2k *)
Definition legal_zher2k (uplo trans n k lda ldb ldc : Z) : list (Z * Prop) :=
  [(1, In uplo [121;122]);
   (2, In trans [111;113]);
   (3, 0 <= n);
   (4, 0 <= k);
   (7, Z.max 1 (if trans =? 111 then n else k) <= lda);
   (9, Z.max 1 (if trans =? 111 then n else k) <= ldb);
   (12, Z.max 1 n <= ldc)].

(* compute/zsyr2k.c: plasma_zsyr2k *)
Definition legal_zsyr2k (uplo trans n k lda ldb ldc : Z) : list (Z * Prop) :=
  [(1, In uplo [121;122]);
   (2, In trans [111;112]);
   (3, 0 <= n);
   (4, 0 <= k);
   (7, Z.max 1 (if trans =? 111 then n else k) <= lda);
   (9, Z.max 1 (if trans =? 111 then n else k) <= ldb);
   (12, Z.max 1 n <= ldc)].

(* compute/zherk.c: plasma_zherk *)
Definition legal_zherk (uplo trans n k lda ldc : Z) : list (Z * Prop) :=
  [(1, In uplo [121;122]);
   (2, In trans [111;113]);
   (3, 0 <= n);
   (4, 0 <= k);
   (7, Z.max 1 (if trans =? 111 then n else k) <= lda);
   (10, Z.max 1 n <= ldc)].

(* compute/zsyrk.c: plasma_zsyrk *)
Definition legal_zsyrk (uplo trans n k lda ldc : Z) : list (Z * Prop) :=
  [(1, In uplo [121;122]);
   (2, In trans [111;112]);
   (3, 0 <= n);
   (4, 0 <= k);
   (7, Z.max 1 (if trans =? 111 then n else k) <= lda);
   (10, Z.max 1 n <= ldc)].

(* compute/zhesv.c: plasma_zhesv *)
Definition legal_zhesv (uplo n nrhs lda ldb : Z) : list (Z * Prop) :=
  [(1, In uplo [122]);
   (2, 0 <= n);
   (3, 0 <= nrhs);
   (5, Z.max 1 n <= lda);
   (11, Z.max 1 n <= ldb)].

(* compute/zhetrs.c: plasma_zhetrs *)
Definition legal_zhetrs (uplo n nrhs lda ldb : Z) : list (Z * Prop) :=
  [(1, In uplo [122]);
   (2, 0 <= n);
   (3, 0 <= nrhs);
   (5, Z.max 1 n <= lda);
   (11, Z.max 1 n <= ldb)].

(* compute/zhetrf.c: plasma_zhetrf *)
Definition legal_zhetrf (uplo n lda : Z) : list (Z * Prop) :=
  [(1, In uplo [122]);
   (2, 0 <= n);
   (4, Z.max 1 n <= lda)].

(* compute/zlacpy.c: plasma_zlacpy; a transposed copy requires m = n, which is a rule about m
   once n is legal *)
Definition legal_zlacpy (uplo transa m n lda ldb : Z) : list (Z * Prop) :=
  [(1, In uplo [123;121;122]);
   (2, In transa [111;112;113]);
   (3, 0 <= m /\ (0 <= n -> transa = 111 \/ m = n));
   (4, 0 <= n);
   (6, Z.max 1 m <= lda);
   (8, Z.max 1 (if transa =? 111 then m else n) <= ldb)].

(* compute/zlag2c.c: plasma_zlag2c *)
Definition legal_zlag2c (m n lda ldas : Z) : list (Z * Prop) :=
  [(1, 0 <= m);
   (2, 0 <= n);
   (4, Z.max 1 m <= lda);
   (6, Z.max 1 m <= ldas)].

(* compute/zlangb.c: plasma_zlangb *)
Definition legal_zlangb (norm m n kl ku ldab : Z) : list (Z * Prop) :=
  [(1, In norm [177;171;175;174]);
   (2, 0 <= m);
   (3, 0 <= n);
   (4, 0 <= kl);
   (5, 0 <= ku);
   (7, Z.max 1 (1 + kl + ku) <= ldab)].

(* compute/zlange.c: plasma_zlange *)
Definition legal_zlange (norm m n lda : Z) : list (Z * Prop) :=
  [(1, In norm [177;171;175;174]);
   (2, 0 <= m);
   (3, 0 <= n);
   (5, Z.max 1 m <= lda)].

(* compute/zlanhe.c: plasma_zlanhe *)
Definition legal_zlanhe (norm uplo n lda : Z) : list (Z * Prop) :=
  [(1, In norm [177;171;175;174]);
   (2, In uplo [121;122]);
   (3, 0 <= n);
   (5, Z.max 1 n <= lda)].

(* compute/zlansy.c: plasma_zlansy *)
Definition legal_zlansy (norm uplo n lda : Z) : list (Z * Prop) :=
  [(1, In norm [177;171;175;174]);
   (2, In uplo [121;122]);
   (3, 0 <= n);
   (5, Z.max 1 n <= lda)].

(* compute/zlantr.c: plasma_zlantr *)
Definition legal_zlantr (norm uplo diag m n lda : Z) : list (Z * Prop) :=
  [(1, In norm [177;171;175;174]);
   (2, In uplo [121;122]);
   (3, In diag [132;131]);
   (4, 0 <= m);
   (5, 0 <= n);
   (7, Z.max 1 m <= lda)].

(* compute/zlascl.c: plasma_zlascl *)
Definition legal_zlascl (uplo cfrom cto m n lda : Z) : list (Z * Prop) :=
  [(1, In uplo [123;121;122]);
   (2, cfrom <> 0 /\ cfrom <> 1);
   (3, cto <> 1);
   (4, 0 <= m);
   (5, 0 <= n);
   (7, Z.max 1 m <= lda)].

(* compute/zlaset.c: plasma_zlaset *)
Definition legal_zlaset (uplo m n lda : Z) : list (Z * Prop) :=
  [(1, In uplo [123;121;122]);
   (2, 0 <= m);
   (3, 0 <= n);
   (7, Z.max 1 m <= lda)].

(* compute/zlauum.c: plasma_zlauum *)
Definition legal_zlauum (uplo n lda : Z) : list (Z * Prop) :=
  [(1, In uplo [121;122]);
   (2, 0 <= n);
   (4, Z.max 1 n <= lda)].

(* compute/zpoinv.c: plasma_zpoinv *)
Definition legal_zpoinv (uplo n lda : Z) : list (Z * Prop) :=
  [(1, In uplo [121;122]);
   (2, 0 <= n);
   (4, Z.max 1 n <= lda)].

(* compute/zpotrf.c: plasma_zpotrf *)
Definition legal_zpotrf (uplo n lda : Z) : list (Z * Prop) :=
  [(1, In uplo [121;122]);
   (2, 0 <= n);
   (4, Z.max 1 n <= lda)].

(* compute/zpotri.c: plasma_zpotri *)
Definition legal_zpotri (uplo n lda : Z) : list (Z * Prop) :=
  [(1, In uplo [121;122]);
   (2, 0 <= n);
   (4, Z.max 1 n <= lda)].

(* compute/zpbsv.c: plasma_zpbsv *)
Definition legal_zpbsv (uplo n kd nrhs ldab ldb : Z) : list (Z * Prop) :=
  [(1, In uplo [121;122]);
   (2, 0 <= n);
   (3, 0 <= kd);
   (4, 0 <= nrhs);
   (6, kd + 1 <= ldab);
   (8, Z.max 1 n <= ldb)].

(* compute/zpbtrf.c: plasma_zpbtrf *)
Definition legal_zpbtrf (uplo n kd ldab : Z) : list (Z * Prop) :=
  [(1, In uplo [121;122]);
   (2, 0 <= n);
   (3, 0 <= kd);
   (5, kd + 1 <= ldab)].

(* compute/zpbtrs.c: plasma_zpbtrs *)
Definition legal_zpbtrs (uplo n kd nrhs ldab ldb : Z) : list (Z * Prop) :=
  [(1, In uplo [121;122]);
   (2, 0 <= n);
   (3, 0 <= kd);
   (4, 0 <= nrhs);
   (6, Z.max 1 (1 + kd) <= ldab);
   (8, Z.max 1 n <= ldb)].

(* compute/zposv.c: plasma_zposv *)
Definition legal_zposv (uplo n nrhs lda ldb : Z) : list (Z * Prop) :=
  [(1, In uplo [121;122]);
   (2, 0 <= n);
   (3, 0 <= nrhs);
   (5, Z.max 1 n <= lda);
   (7, Z.max 1 n <= ldb)].

(* compute/zpotrs.c: plasma_zpotrs *)
Definition legal_zpotrs (uplo n nrhs lda ldb : Z) : list (Z * Prop) :=
  [(1, In uplo [121;122]);
   (2, 0 <= n);
   (3, 0 <= nrhs);
   (5, Z.max 1 n <= lda);
   (7, Z.max 1 n <= ldb)].

(* compute/ztradd.c: plasma_ztradd *)
Definition legal_ztradd (uplo transa m n pA lda pB ldb : Z) : list (Z * Prop) :=
  [(1, In uplo [121;122]);
   (2, In transa [111;112;113]);
   (3, 0 <= m);
   (4, 0 <= n);
   (6, pA <> 0);
   (7, Z.max 1 (if transa =? 111 then m else n) <= lda);
   (9, pB <> 0);
   (10, Z.max 1 m <= ldb)].

(* compute/ztrmm.c: plasma_ztrmm *)
Definition legal_ztrmm (side uplo transa diag m n lda ldb : Z) : list (Z * Prop) :=
  [(1, In side [141;142]);
   (2, In uplo [121;122]);
   (3, In transa [111;112;113]);
   (4, In diag [132;131]);
   (5, 0 <= m);
   (6, 0 <= n);
   (9, Z.max 1 (if side =? 141 then m else n) <= lda);
   (11, Z.max 1 m <= ldb)].

(* compute/ztrsm.c: plasma_ztrsm *)
Definition legal_ztrsm (side uplo transa diag m n lda ldb : Z) : list (Z * Prop) :=
  [(1, In side [141;142]);
   (2, In uplo [121;122]);
   (3, In transa [111;112;113]);
   (4, In diag [132;131]);
   (5, 0 <= m);
   (6, 0 <= n);
   (9, Z.max 1 (if side =? 141 then m else n) <= lda);
   (11, Z.max 1 m <= ldb)].

(* compute/ztrtri.c: plasma_ztrtri *)
Definition legal_ztrtri (uplo diag n lda : Z) : list (Z * Prop) :=
  [(1, In uplo [121;122]);
   (2, In diag [132;131]);
   (3, 0 <= n);
   (5, Z.max 1 n <= lda)].

(* compute/zunglq.c: plasma_zunglq *)
Definition legal_zunglq (m n k lda ldq : Z) : list (Z * Prop) :=
  [(1, 0 <= m);
   (2, m <= n);
   (3, 0 <= k <= m);
   (5, Z.max 1 m <= lda);
   (8, Z.max 1 m <= ldq)].

(* compute/zungqr.c: plasma_zungqr *)
Definition legal_zungqr (m n k lda ldq : Z) : list (Z * Prop) :=
  [(1, 0 <= m);
   (2, 0 <= n <= m);
   (3, 0 <= k <= n);
   (5, Z.max 1 m <= lda);
   (8, Z.max 1 m <= ldq)].

(* compute/zunmlq.c: plasma_zunmlq *)
Definition legal_zunmlq (side trans m n k lda ldc : Z) : list (Z * Prop) :=
  [(1, In side [141;142]);
   (2, In trans [111;113]);
   (3, 0 <= m);
   (4, 0 <= n);
   (5, 0 <= k <= (if side =? 141 then m else n));
   (7, Z.max 1 k <= lda);
   (10, Z.max 1 m <= ldc)].

(* compute/zunmqr.c: plasma_zunmqr *)
Definition legal_zunmqr (side trans m n k lda ldc : Z) : list (Z * Prop) :=
  [(1, In side [141;142]);
   (2, In trans [111;113]);
   (3, 0 <= m);
   (4, 0 <= n);
   (5, 0 <= k <= (if side =? 141 then m else n));
   (7, Z.max 1 (if side =? 141 then m else n) <= lda);
   (10, Z.max 1 m <= ldc)].

