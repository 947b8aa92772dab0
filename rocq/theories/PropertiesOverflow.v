(* C47: the address arithmetic of tile storage in 32-bit int and 64-bit size_t. *)
From Coq Require Import ZArith List Bool.
From Verif Require Import Base DescModel DescSpec DescDriverModel OverflowModel OverflowProofs OverflowBandModel OverflowBandProofs.
Open Scope Z_scope.

(* General storage: whenever the dimensions are of type int, one tile has fewer than 2^31 elements
   and the matrix fewer than 2^64 bytes, no operation overflows, and the allocation and the address
   of every tile are the exact ones. *)
Theorem C47_general_storage_does_not_overflow : forall prec mb nb lm ln i j m n A size,
  0 <= i -> 0 <= j -> general_create prec mb nb lm ln i j m n = CrOk A size ->
  lm < 2 ^ 31 -> ln < 2 ^ 31 -> mb * nb < 2 ^ 31 -> size * element_size prec < 2 ^ 64 ->
  general_init32 checked prec mb nb lm ln i j m n = Some A /\
  general_size32 A = size * element_size prec /\
  forall tm tn, 0 <= tm < d_mt A -> 0 <= tn < d_nt A ->
    tile_addr_general32 checked A tm tn = Some (tile_addr A tm tn * element_size prec).
Proof. exact general_fits. Qed.
Print Assumptions C47_general_storage_does_not_overflow.

(* a matrix of 1.2 10^10 elements: the offset of its last tile does not fit in 32 bits *)
Example C47_general_storage_case : exists A size,
  general_create PlasmaComplexDouble 256 256 100000 120000 0 0 100000 120000 = CrOk A size /\
  size * element_size PlasmaComplexDouble < 2 ^ 64 /\
  0 <= 390 < d_mt A /\ 0 <= 468 < d_nt A /\
  2 ^ 31 < tile_addr A 390 468 /\
  tile_addr_general32 checked A 390 468 = Some (tile_addr A 390 468 * 16).
Proof. eexists. eexists. split; [reflexivity|]. repeat split; reflexivity || discriminate. Qed.

(* Packed triangular storage. The same claim, for stored tiles, holds only if the number of
   elements is below 2^31. Missing: larger matrices, where it is false (below). *)
Theorem C47_packed_storage_does_not_overflow_partial : forall prec (upper : bool) nb n A size,
  let uplo := if upper then PlasmaUpper else PlasmaLower in
  triangular_create prec uplo nb nb n n 0 0 n n = CrOk A size ->
  n < 2 ^ 31 -> nb * nb < 2 ^ 31 -> (n / nb) * (n / nb + 1) < 2 ^ 31 -> size < 2 ^ 31 ->
  triangular_init32 checked prec uplo nb nb n n 0 0 n n = Some A /\
  triangular_size32 checked prec nb nb n n = Some (size * element_size prec) /\
  forall tm tn, 0 <= tm < d_mt A -> 0 <= tn < d_nt A -> (if upper then tm <= tn else tn <= tm) ->
    tile_addr_triangle32 checked A tm tn = Some (tile_addr A tm tn * element_size prec).
Proof. exact triangular_fits. Qed.
Print Assumptions C47_packed_storage_does_not_overflow_partial.

Theorem C47_packed_storage_up_to_46340_partial : forall prec (upper : bool) nb n A size,
  let uplo := if upper then PlasmaUpper else PlasmaLower in
  triangular_create prec uplo nb nb n n 0 0 n n = CrOk A size ->
  n <= 46340 -> nb * nb < 2 ^ 31 ->
  triangular_init32 checked prec uplo nb nb n n 0 0 n n = Some A /\
  triangular_size32 checked prec nb nb n n = Some (size * element_size prec) /\
  forall tm tn, 0 <= tm < d_mt A -> 0 <= tn < d_nt A -> (if upper then tm <= tn else tn <= tm) ->
    tile_addr_triangle32 checked A tm tn = Some (tile_addr A tm tn * element_size prec).
Proof. exact triangular_fits_small. Qed.
Print Assumptions C47_packed_storage_up_to_46340_partial.

Example C47_packed_storage_case : exists A size,
  triangular_create PlasmaComplexDouble PlasmaLower 256 256 46340 46340 0 0 46340 46340 = CrOk A size /\
  size < 2 ^ 31 /\ 0 <= 181 < d_mt A /\ 0 <= 180 < d_nt A /\
  tile_addr_triangle32 checked A 181 180 = Some (tile_addr A 181 180 * 16).
Proof. eexists. eexists. split; [reflexivity|]. repeat split; reflexivity || discriminate. Qed.

(* From order 65536 on, whatever the tile size, the computation of the allocation overflows an int. *)
Theorem C47_packed_storage_overflows_from_65536 : forall prec nb n, 0 < nb -> 65536 <= n ->
  triangular_size32 checked prec nb nb n n = None.
Proof. exact triangular_overflow_large. Qed.
Print Assumptions C47_packed_storage_overflows_from_65536.

Example C47_packed_storage_overflow_case : 0 < 256 /\ 65536 <= 100000.
Proof. split; [reflexivity|discriminate]. Qed.

(* So the claim fails for packed storage: a matrix far below 2^64 bytes whose allocation and whose
   tile addresses are undefined. *)
Theorem C47_packed_storage_refuted : exists n nb A size,
  triangular_create PlasmaComplexDouble PlasmaLower nb nb n n 0 0 n n = CrOk A size /\
  n < 2 ^ 31 /\ nb * nb < 2 ^ 31 /\ size * element_size PlasmaComplexDouble < 2 ^ 64 /\
  triangular_size32 checked PlasmaComplexDouble nb nb n n = None /\
  exists tm tn, 0 <= tn <= tm /\ tm < d_mt A /\ tile_addr_triangle32 checked A tm tn = None.
Proof. exact packed_undefined. Qed.
Print Assumptions C47_packed_storage_refuted.

(* Where int arithmetic wraps, there is a matrix for which the allocation is too small: a stored tile
   begins beyond its end. *)
Theorem C47_packed_storage_wrapping_refuted : exists n nb A size bytes tm tn offset,
  triangular_create PlasmaComplexDouble PlasmaLower nb nb n n 0 0 n n = CrOk A size /\
  n < 2 ^ 31 /\ size * element_size PlasmaComplexDouble < 2 ^ 64 /\
  triangular_init32 wrapped PlasmaComplexDouble PlasmaLower nb nb n n 0 0 n n = Some A /\
  triangular_size32 wrapped PlasmaComplexDouble nb nb n n = Some bytes /\
  0 <= tn <= tm /\ tm < d_mt A /\
  tile_addr_triangle32 wrapped A tm tn = Some offset /\ bytes <= offset.
Proof. exact packed_wrapped. Qed.
Print Assumptions C47_packed_storage_wrapping_refuted.

(* Band storage. A stored tile is one within the tile bandwidths of the descriptor. The storage must
   have the rows of tiles the bandwidths ask for (the drivers make it so, below), and the sums of
   bandwidths, rows and a tile side formed on the way must be of type int. *)
Theorem C47_band_storage_does_not_overflow : forall prec uplo mb nb lm ln m n kl ku A size,
  0 <= kl -> 0 <= ku -> general_band_create prec uplo mb nb lm ln 0 0 m n kl ku = CrOk A size ->
  (d_klt A + d_kut A - 1) * mb <= lm ->
  lm < 2 ^ 31 -> ln < 2 ^ 31 -> kl + ku + m < 2 ^ 31 -> mb * nb < 2 ^ 31 -> 2 * kl + ku + Z.max mb nb < 2 ^ 31 ->
  size * element_size prec < 2 ^ 64 ->
  general_band_init32 checked prec uplo mb nb lm ln 0 0 m n kl ku = Some A /\
  general_band_check32 checked A = Some PlasmaSuccess /\
  general_size32 A = size * element_size prec /\
  forall tm tn, 0 <= tm < d_mt A -> 0 <= tn < d_nt A -> tn - tm < d_kut A -> tm - tn < d_klt A ->
    tile_addr_general_band32 checked A tm tn = Some (tile_addr A tm tn * element_size prec).
Proof. exact band_fits. Qed.
Print Assumptions C47_band_storage_does_not_overflow.

(* a rectangular band matrix in 100 x 200 tiles, of 1.5 10^10 elements *)
Example C47_band_storage_case : exists A size,
  general_band_create PlasmaRealFloat PlasmaGeneral 100 200 15000 1000000 0 0 900000 1000000 4000 6000 = CrOk A size /\
  (d_klt A + d_kut A - 1) * 100 <= 15000 /\ size * element_size PlasmaRealFloat < 2 ^ 64 /\
  4980 < d_mt A /\ 4999 < d_nt A /\ 4999 - 4980 < d_kut A /\ 4980 - 4999 < d_klt A /\
  tile_addr_general_band32 checked A 4980 4999 = Some (tile_addr A 4980 4999 * 4) /\ 2 ^ 31 < tile_addr A 4980 4999.
Proof. eexists. eexists. split; [reflexivity|]. repeat split; reflexivity || discriminate. Qed.

(* The condition on kl + ku + m is needed: with tiles of one element the address of a stored tile of a
   matrix of 2^62 bytes overflows. *)
Example C47_band_storage_sum_needed : exists A size,
  let n := 2 ^ 30 + 1 in let ku := 2 ^ 30 in
  general_band_create PlasmaRealFloat PlasmaGeneral 1 1 n n 0 0 n n 0 ku = CrOk A size /\
  (d_klt A + d_kut A - 1) * 1 <= n /\ ku + 1 < 2 ^ 31 /\ size * element_size PlasmaRealFloat < 2 ^ 64 /\
  2 ^ 30 < d_mt A /\ 2 ^ 30 < d_nt A /\ 0 < d_kut A /\ 0 < d_klt A /\
  tile_addr_general_band32 checked A (2 ^ 30) (2 ^ 30) = None.
Proof. eexists. eexists. cbv zeta. split; [reflexivity|]. repeat split; reflexivity || discriminate. Qed.

(* The drivers of general band matrices (compute/zgbtrf.c, zgbsv.c, zlangb.c, zgbmm.c): from the
   number of rows of the storage on, all is exact. *)
Theorem C47_general_band_drivers_do_not_overflow : forall nb m n kl ku A size,
  0 <= kl -> 0 <= ku -> gb_create nb m n kl ku = CrOk A size ->
  n < 2 ^ 31 -> kl + ku + m < 2 ^ 31 -> nb * nb < 2 ^ 31 -> 2 * kl + ku + 3 * nb < 2 ^ 31 -> size * 16 < 2 ^ 64 ->
  exists lm, gb_rows32 checked nb kl ku = Some lm /\
  general_band_init32 checked PlasmaComplexDouble PlasmaGeneral nb nb lm n 0 0 m n kl ku = Some A /\
  general_band_check32 checked A = Some PlasmaSuccess /\
  general_size32 A = size * 16 /\
  forall tm tn, 0 <= tm < d_mt A -> 0 <= tn < d_nt A -> tn - tm < d_kut A -> tm - tn < d_klt A ->
    tile_addr_general_band32 checked A tm tn = Some (tile_addr A tm tn * 16).
Proof. exact gb_fits. Qed.
Print Assumptions C47_general_band_drivers_do_not_overflow.

(* ten million rows and columns, 3001 diagonals: 5 10^10 elements *)
Example C47_general_band_drivers_case : exists A size,
  gb_create 256 10000000 10000000 1000 2000 = CrOk A size /\ 2 ^ 35 < size /\ size * 16 < 2 ^ 64 /\
  d_kut A = 13 /\ d_klt A = 5 /\ 39062 < d_mt A /\ 39062 < d_nt A /\
  tile_addr_general_band32 checked A 39050 39062 = Some (tile_addr A 39050 39062 * 16).
Proof. eexists. eexists. split; [reflexivity|]. repeat split; reflexivity || discriminate. Qed.

(* The drivers of Hermitian band matrices (compute/zpbtrf.c, zpbsv.c, zpbtrs.c). *)
Theorem C47_hermitian_band_drivers_do_not_overflow : forall (upper : bool) nb n kd A size,
  let uplo := if upper then PlasmaUpper else PlasmaLower in
  0 <= kd -> pb_create uplo nb n kd = CrOk A size ->
  2 * kd + n < 2 ^ 31 -> nb * nb < 2 ^ 31 -> 3 * kd + 2 * nb < 2 ^ 31 -> size * 16 < 2 ^ 64 ->
  exists lm, pb_rows32 checked nb kd = Some lm /\
  general_band_init32 checked PlasmaComplexDouble uplo nb nb lm n 0 0 n n kd kd = Some A /\
  general_band_check32 checked A = Some PlasmaSuccess /\
  general_size32 A = size * 16 /\
  forall tm tn, 0 <= tm < d_mt A -> 0 <= tn < d_nt A -> tn - tm < d_kut A -> tm - tn < d_klt A ->
    tile_addr_general_band32 checked A tm tn = Some (tile_addr A tm tn * 16).
Proof. exact pb_fits. Qed.
Print Assumptions C47_hermitian_band_drivers_do_not_overflow.

Example C47_hermitian_band_drivers_case : exists A size,
  pb_create PlasmaLower 256 10000000 3000 = CrOk A size /\ 2 ^ 34 < size /\ size * 16 < 2 ^ 64 /\
  d_kut A = 1 /\ d_klt A = 13 /\ 39062 < d_mt A /\ 39050 < d_nt A /\
  tile_addr_general_band32 checked A 39062 39050 = Some (tile_addr A 39062 39050 * 16).
Proof. eexists. eexists. split; [reflexivity|]. repeat split; reflexivity || discriminate. Qed.
