(* The singular value decomposition: the copy of the band that remains after the reduction to band
   form from tiles to band storage (compute/pzgecpy_tile2lapack_band.c, zgesdd.c). *)
From Coq Require Import ZArith List Bool.
From Verif Require Import Base TaskModel TaskSpec DescModel MatModel.
Import ListNotations.
Open Scope Z_scope.

Section SvdBand.
  Context {V : Type}.

  (* compute/pzgecpy_tile2lapack_band.c:22: the macro pA_band *)
  Definition pA_band (p : loc) (lda_band nb m n : Z) : loc := (fst p, snd p + (m + lda_band * (n * nb))).

  (* compute/pzgecpy_tile2lapack_band.c:31-95 plasma_pzgecpy_tile2lapack_band; A(m,n) is the macro of
     line 21. The early return for a failed sequence (lines 36-37) is left out: no task submitted
     before it can fail. *)
  Definition pzgecpy_tile2lapack_band (uplo b : Z) (A : desc) (p : loc) (lda_band : Z) : list (ktask V) :=
    let nb := d_mb A in
    let ldx := lda_band - 1 in
    if uplo =? PlasmaLower then
      flat_map (fun j =>
        omp_zlacpy PlasmaLower (tile_mview A j) (tile_nview A j)
          (tptr b A j j) (tile_mmain A j) (pA_band p lda_band nb 0 j) ldx
        :: (if j <? Z.min (d_mt A) (d_nt A) - 1 then
              [omp_zlacpy PlasmaUpper (tile_mview A (j + 1)) (tile_nview A j)
                 (tptr b A (j + 1) j) (tile_mmain A (j + 1)) (pA_band p lda_band nb nb j) ldx]
            else []))
        (zrange 0 (Z.min (d_mt A) (d_nt A)))
    else if uplo =? PlasmaUpper then
      flat_map (fun j =>
        omp_zlacpy PlasmaUpper (tile_mview A j) (tile_nview A j)
          (tptr b A j j) (tile_mmain A j) (pA_band p lda_band nb nb j) ldx
        :: (if j <? Z.min (d_mt A) (d_nt A) - 1 then
              [omp_zlacpy PlasmaLower (tile_mview A j) (tile_nview A (j + 1))
                 (tptr b A j (j + 1)) (tile_mmain A j) (pA_band p lda_band nb 0 (j + 1)) ldx]
            else []))
        (zrange 0 (Z.min (d_mt A) (d_nt A)))
    else [].

  (* compute/zgesdd.c:400: which side of the diagonal the band is on *)
  Definition svd_uplo (A : desc) : Z := if d_n A <=? d_m A then PlasmaUpper else PlasmaLower.

  (* compute/zgesdd.c:407: the leading dimension of the band storage *)
  Definition svd_lda_band (nb : Z) : Z := 3 * nb + 1.

  (* compute/zgesdd.c:456-462: the band storage, lda_band x min(m,n) elements of block p, set to the
     value of all zero bytes *)
  Definition svd_memset (zero : V) (nb minmn p : Z) (M : mem V) : mem V := fun l =>
    if (fst l =? p) && (0 <=? snd l) && (snd l <? svd_lda_band nb * minmn) then zero else M l.

  (* compute/zgesdd.c:480-482: the copy *)
  Definition svd_copy (nb b : Z) (A : desc) (p : Z) : list (ktask V) :=
    pzgecpy_tile2lapack_band (svd_uplo A) b A (p, nb) (svd_lda_band nb).
End SvdBand.
