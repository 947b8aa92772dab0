(* How the drivers size the descriptors they create. *)
From Coq Require Import ZArith.
From Verif Require Import DescModel.
Open Scope Z_scope.

(* compute/zgbtrf.c:101-108 (also zgbsv.c:118-125, zgbtrs.c:139-147, zlangb.c:128-135,
   zcgbsv.c:166-172, zgbmm.c:206-215): general band matrix, m x n *)
Definition gb_create (nb m n kl ku : Z) : create_result :=
  let tku := (ku + kl + nb - 1) / nb in
  let tkl := (kl + nb - 1) / nb in
  let lm := (tku + tkl + 1) * nb in
  general_band_create PlasmaComplexDouble PlasmaGeneral nb nb lm n 0 0 m n kl ku.

(* compute/zpbtrf.c:119-123 (also zpbsv.c, zpbtrs.c:132-138): Hermitian band matrix *)
Definition pb_create (uplo nb n kd : Z) : create_result :=
  let lm := nb * (1 + (kd + nb - 1) / nb) in
  general_band_create PlasmaComplexDouble uplo nb nb lm n 0 0 n n kd kd.

(* compute/zhetrf.c:152-153: band matrix T of the Aasen factorisation, ldt given by the
   caller *)
Definition hetrf_T_create (nb n ldt : Z) : create_result :=
  general_band_create PlasmaComplexDouble PlasmaGeneral nb nb ldt n 0 0 n n nb nb.

(* compute/zgemm.c:212-230 (every dense operand of every driver is created this way):
   a rows x cols matrix in nb x nb tiles *)
Definition ge_create (nb rows cols : Z) : create_result :=
  general_create PlasmaComplexDouble nb nb rows cols 0 0 rows cols.

(* compute/zpotrf.c:114-115 (also zposv.c, zpoinv.c, ztrmm.c, zhetrf.c): packed triangle *)
Definition tr_create (uplo nb n : Z) : create_result :=
  triangular_create PlasmaComplexDouble uplo nb nb n n 0 0 n n.

(* compute/pzgeqrf_tree.c:22-23, pzgelqf_tree.c, pzunmqr_tree.c, pzungqr_tree.c: the macros
   T(m, n) and T2(m, n), the latter used by the kernels that combine two tiles *)
Definition T_addr (T : desc) (m n : Z) : Z := tile_addr T m n.
(* compute/pzgeqrf_tree.c:23: the macro T2(m, n) *)
Definition T2_addr (T : desc) (m n : Z) : Z := tile_addr T m (n + d_nt T / 2).
