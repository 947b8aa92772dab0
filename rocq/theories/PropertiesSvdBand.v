(* C64: the copy of a tiled band to band storage in the singular value decomposition. *)
From Coq Require Import ZArith List Bool Lia.
From Verif Require Import Base NumModel TaskModel TaskSpec DescModel DescSpec DescDriverModel
  MatModel MatSpec BandSpec SvdBandModel SvdBandProofs.
Import ListNotations.
Open Scope Z_scope.

(* Every element of the triangle within nb diagonals goes to its place in band storage, and no other
   location changes; for every schedule of the tasks. Upper bands are those of matrices with at least
   as many rows as columns, lower ones the others, as in zgesdd. *)
Theorem C64_tile_band_copy : forall V (upper : bool) nb m n A size b p ld (M : mem V),
  let uplo := if upper then PlasmaUpper else PlasmaLower in
  ge_create nb m n = CrOk A size -> (if upper then n <= m else m <= n) -> nb < ld -> fst p <> b ->
  region_ensures (@pzgecpy_tile2lapack_band V uplo b A p ld) M (fun M' =>
    (forall i j, in_matrix m n i j -> in_band uplo nb i j -> bel M' uplo nb p ld i j = el M b A i j) /\
    (forall l, ~ in_user_band uplo nb p ld (Z.min m n) l -> M' l = M l)).
Proof. exact copy_main. Qed.
Print Assumptions C64_tile_band_copy.

(* a 7 x 5 matrix in 2 x 2 tiles: element (2,4) is in the first of 3 rows of column 4 *)
Example C64_tile_band_copy_upper : exists A,
  ge_create 2 7 5 = CrOk A 35 /\ in_matrix 7 5 2 4 /\ in_band PlasmaUpper 2 2 4 /\
  length (@pzgecpy_tile2lapack_band Z PlasmaUpper 1 A (0, 10) 4) = 5%nat /\
  krun (@pzgecpy_tile2lapack_band Z PlasmaUpper 1 A (0, 10) 4) (fun l => 100 * fst l + snd l) (0, 10 + 0 + 4 * 4)
    = 100 + elem_off A 2 4.
Proof.
  eexists. split; [reflexivity|]. split; [unfold in_matrix; lia|]. split; [left; split; [reflexivity|lia]|]. split; reflexivity.
Qed.

Example C64_tile_band_copy_lower : exists A,
  ge_create 2 5 7 = CrOk A 35 /\ in_matrix 5 7 4 2 /\ in_band PlasmaLower 2 4 2 /\
  length (@pzgecpy_tile2lapack_band Z PlasmaLower 1 A (0, 10) 4) = 5%nat /\
  krun (@pzgecpy_tile2lapack_band Z PlasmaLower 1 A (0, 10) 4) (fun l => 100 * fst l + snd l) (0, 10 + 2 + 2 * 4)
    = 100 + elem_off A 4 2.
Proof.
  eexists. split; [reflexivity|]. split; [unfold in_matrix; lia|]. split; [right; split; [reflexivity|lia]|]. split; reflexivity.
Qed.

(* The band storage of zgesdd, an array of 3 nb + 1 rows and min(m,n) columns at block p: after the
   memset and the copy, rows nb to 2 nb hold the band (the diagonal in row 2 nb of an upper and row nb of
   a lower band) and all other elements are zero. Nothing outside the array changes. *)
Theorem C64_band_storage : forall V (zero : V) nb m n A size b p (M : mem V), ge_create nb m n = CrOk A size -> p <> b ->
  region_ensures (svd_copy nb b A p) (svd_memset zero nb (Z.min m n) p M) (fun M' =>
    (forall r j, 0 <= r < 3 * nb + 1 -> 0 <= j < Z.min m n ->
      let i := j + (r - nb) - (if n <=? m then nb else 0) in
      M' (p, r + j * (3 * nb + 1)) = if (nb <=? r) && (r <=? 2 * nb) && (0 <=? i) && (i <? Z.min m n) then el M b A i j else zero) /\
    (forall l, fst l <> p \/ snd l < 0 \/ (3 * nb + 1) * Z.min m n <= snd l -> M' l = M l)).
Proof. exact svd_main. Qed.
Print Assumptions C64_band_storage.

Example C64_band_storage_case : exists A,
  ge_create 2 7 5 = CrOk A 35 /\
  map (fun r => krun (@svd_copy Z 2 1 A 0) (svd_memset 0 2 5 0 (fun l => 100 * fst l + snd l)) (0, r + 3 * 7)) [0; 1; 2; 3; 4; 5; 6]
    = [0; 0; 100 + elem_off A 1 3; 100 + elem_off A 2 3; 100 + elem_off A 3 3; 0; 0].
Proof. eexists. split; reflexivity. Qed.
