(* The workspace of the mixed precision drivers compute/zcgesv.c, compute/zcposv.c and
   compute/zcgbsv.c, with the conversions of C. *)
From Coq Require Import ZArith List Bool.
From Verif Require Import Base NumModel FieldModel TaskModel TaskSpec DescModel DescDriverModel
  MatModel SwpModel NormModel NormTriModel NormBandModel OverflowModel.
Import ListNotations.
Open Scope Z_scope.

(* conversion of a size_t to int, as in the calls of imax in compute/zcgesv.c:214; C leaves the result
   to the implementation if it does not fit, compilers take it modulo 2^32 *)
Definition cint (z : Z) : Z := (z + 2 ^ 31) mod 2 ^ 32 - 2 ^ 31.

(* include/plasma_internal.h:34-40 imax, called with two values of type size_t *)
Definition imax_sizes (a b : Z) : Z := Z.max (cint (csize a)) (cint (csize b)).

(* compute/zcgesv.c:214 and compute/zcposv.c:227: the number of doubles in work. The product
   (size_t)A.nt*A.n and the sums are of type size_t. *)
Definition zcgesv_lwork (A X R : desc) : Z :=
  csize (imax_sizes (d_nt A * d_n A + d_n A) (d_mt X * d_n X + d_mt R * d_n R)).

(* compute/zcgbsv.c:231-232: the same for a band matrix. The product AB.mb*AB.mt of type int does
   not overflow: it is at most n+nb-1, computed before by plasma_desc_general_band_create. *)
Definition zcgbsv_lwork (A X R : desc) : Z :=
  csize (imax_sizes (d_nt A * d_mt A * d_mb A + d_mb A * d_mt A) (d_mt X * d_n X + d_mt R * d_n R)).

Section Mixed.
  Context {N : normed}.
  Variable lassq : list N -> N * N -> N * N.
  Variable nsqrt : N -> N.

  (* compute/zcgesv.c:418-420, 458-459 and 497-498 (also zcposv.c:434-436, 471-472, 508-509,
     zcgbsv.c:419-421, 453-454, 494-495): the norms of the columns of X and R, with workX = work and
     workR = &work[X.mt*X.n]. The index is the exact product; as an int it must not overflow. *)
  Definition column_norms (bX : Z) (X : desc) (bR : Z) (R : desc) (bW : Z) (xnorm rnorm : loc) : list (list (ktask N)) :=
    pdzamax PlasmaColumnwise bX X (bW, 0) xnorm ++ pdzamax PlasmaColumnwise bR R (bW, d_mt X * d_n X) rnorm.

  (* compute/zcgesv.c:426, 458-459: the tasks that use work in plasma_omp_zcgesv *)
  Definition zcgesv_norms (bA : Z) (A : desc) (bX : Z) (X : desc) (bR : Z) (R : desc) (bW : Z)
      (anorm xnorm rnorm : loc) : list (list (ktask N)) :=
    pzlange lassq nsqrt PlasmaInfNorm bA A (bW, 0) anorm ++ column_norms bX X bR R bW xnorm rnorm.

  (* compute/zcposv.c:442, 471-472: the tasks that use work in plasma_omp_zcposv; plasma_pzlanhe
     differs from plasma_pzlansy in the diagonal elements (dg), as in NormTriModel.v *)
  Definition zcposv_norms (dg : N -> N) (uplo : Z) (bA : Z) (A : desc) (bX : Z) (X : desc) (bR : Z) (R : desc) (bW : Z)
      (anorm xnorm rnorm : loc) : list (list (ktask N)) :=
    pzlansy lassq nsqrt dg PlasmaInfNorm uplo bA A (bW, 0) anorm ++ column_norms bX X bR R bW xnorm rnorm.

  (* compute/zcgbsv.c:427, 453-454: the tasks that use work in plasma_omp_zcgbsv *)
  Definition zcgbsv_norms (bA : Z) (A : desc) (bX : Z) (X : desc) (bR : Z) (R : desc) (bW : Z)
      (anorm xnorm rnorm : loc) : list (list (ktask N)) :=
    pzlangb lassq nsqrt PlasmaInfNorm bA A (bW, 0) anorm ++ column_norms bX X bR R bW xnorm rnorm.
End Mixed.
