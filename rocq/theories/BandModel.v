(* Band matrices: the translation between the user's band array and band tile storage
   (compute/pzpb2desc.c, pzdesc2pb.c, core_blas/core_zlacpy_band.c) and the Cholesky
   factorization of a band matrix (compute/zpbtrf.c, pzpbtrf.c). *)
From Coq Require Import ZArith List Bool.
From Verif Require Import Base NumModel FieldModel TaskModel TaskSpec GuardModel GuardSpec DescModel
  DescDriverModel MatModel LayoutModel RankModel TriModel DriverModel PotrfModel.
Import ListNotations.
Open Scope Z_scope.

(* C loop "for (i = lo; i < hi; i++) body", e.g. core_blas/core_zlacpy_band.c:75-79 *)
Definition loop {S} (lo hi : Z) (body : Z -> S -> S) (s : S) : S :=
  fold_left (fun s i => body i s) (zrange lo hi) s.

(* core_blas/core_zlacpy_band.c:62-73 (the same text at 174-185): first column of tile
   (it,jt) with an element of the band *)
Definition bj_start (uplo it jt nb kl : Z) : Z :=
  if uplo =? PlasmaGeneral then 0
  else if uplo =? PlasmaUpper then 0
  else Z.max 0 ((it - jt) * nb - kl).
(* core_blas/core_zlacpy_band.c:62-73: end of these columns *)
Definition bj_end (uplo it jt m n nb kl ku : Z) : Z :=
  if uplo =? PlasmaGeneral then (if jt <=? it then n else Z.min n ((it - jt) * nb + m + ku + kl + 1))
  else if uplo =? PlasmaUpper then Z.min n ((it - jt) * nb + m + ku + 1)
  else n.
(* core_blas/core_zlacpy_band.c:82-95 (the same text at 190-203): first row of column j
   of tile (it,jt) that belongs to the band *)
Definition bi_start (uplo it jt nb kl ku j : Z) : Z :=
  if uplo =? PlasmaGeneral then (if jt <=? it then 0 else Z.max 0 ((jt - it) * nb + j - ku - kl))
  else if uplo =? PlasmaUpper then Z.max 0 ((jt - it) * nb + j - ku)
  else Z.max 0 ((jt - it) * nb + j).
(* core_blas/core_zlacpy_band.c:82-95: end of these rows *)
Definition bi_end (uplo it jt m nb kl j : Z) : Z :=
  if uplo =? PlasmaGeneral then (if it <=? jt then m else Z.min m ((jt - it) * nb + j + kl + nb + 1))
  else if uplo =? PlasmaUpper then Z.min m ((jt - it) * nb + j + 1)
  else Z.min m ((jt - it) * nb + j + kl + 1).

Section Band.
  Context {N : numbers}.

  (* core_blas/core_zlacpy_band.c:54-112 plasma_core_zlacpy_lapack2tile_band, loop by loop *)
  Definition core_lapack2tile (uplo it jt m n nb kl ku : Z) (A : loc) (lda : Z) (B : loc) (ldb : Z)
      (M : mem N) : mem N :=
    let j0 := bj_start uplo it jt nb kl in
    let j1 := bj_end uplo it jt m n nb kl ku in
    let zero j i M := upd M (at_ B ldb i j) n0 in
    let copy j i M := upd M (at_ B ldb i j) (rd M A lda i j) in
    loop j1 n (fun j => loop 0 m (zero j))
     (loop j0 j1 (fun j M =>
        let i0 := bi_start uplo it jt nb kl ku j in
        let i1 := bi_end uplo it jt m nb kl j in
        loop i1 m (zero j) (loop i0 i1 (copy j) (loop 0 i0 (zero j) M)))
     (loop 0 j0 (fun j => loop 0 m (zero j)) M)).

  (* the band part of a tile stored at p with leading dimension ld: the elements
     core_blas/core_zlacpy_band.c:100-102 reads and 205-207 writes *)
  Definition band_part (uplo it jt m n nb kl ku : Z) (p : loc) (ld : Z) (l : loc) : Prop :=
    exists i j, bj_start uplo it jt nb kl <= j < bj_end uplo it jt m n nb kl ku /\
      bi_start uplo it jt nb kl ku j <= i < bi_end uplo it jt m nb kl j /\ l = at_ p ld i j.

  (* core_blas/core_zlacpy_band.c:115-127 plasma_core_omp_zlacpy_lapack2tile_band. The writes
     given here are those of the tile. Where j_end of line 64 is negative (a last tile row that
     is not full, above the diagonal) lines 107-111 also write before the tile: no task
     implements this description then, so nothing can be proved of a region with such a task
     (C48_general_band_copy_race_refuted has the case). *)
  Definition omp_lapack2tile (uplo it jt m n nb kl ku : Z) (A : loc) (lda : Z) (B : loc) (ldb : Z)
      : ktask N :=
    {| k_deps := [dep_in A; dep_out B];
       k_fun := core_lapack2tile uplo it jt m n nb kl ku A lda B ldb;
       k_reads := band_part uplo it jt m n nb kl ku A lda;
       k_writes := reg B ldb m n everywhere |}.

  (* core_blas/core_zlacpy_band.c:165-209 plasma_core_zlacpy_tile2lapack_band, loop by loop *)
  Definition core_tile2lapack (uplo it jt m n nb kl ku : Z) (B : loc) (ldb : Z) (A : loc) (lda : Z)
      (M : mem N) : mem N :=
    let j0 := bj_start uplo it jt nb kl in
    let j1 := bj_end uplo it jt m n nb kl ku in
    loop j0 j1 (fun j =>
      loop (bi_start uplo it jt nb kl ku j) (bi_end uplo it jt m nb kl j)
        (fun i M => upd M (at_ A lda i j) (rd M B ldb i j))) M.

  (* core_blas/core_zlacpy_band.c:212-224 plasma_core_omp_zlacpy_tile2lapack_band *)
  Definition omp_tile2lapack (uplo it jt m n nb kl ku : Z) (B : loc) (ldb : Z) (A : loc) (lda : Z)
      : ktask N :=
    {| k_deps := [dep_in B; dep_out A];
       k_fun := core_tile2lapack uplo it jt m n nb kl ku B ldb A lda;
       k_reads := band_part uplo it jt m n nb kl ku B ldb;
       k_writes := band_part uplo it jt m n nb kl ku A lda |}.

  (* compute/pzpb2desc.c:21-23: the macros offset and bandA *)
  Definition band_offset (A : desc) : Z :=
    if d_uplo A =? PlasmaUpper then d_ku A else if d_uplo A =? PlasmaLower then 0 else d_ku A + d_kl A.
  (* compute/pzpb2desc.c:23 *)
  Definition bandA (pA : loc) (lda : Z) (A : desc) (m n : Z) : loc :=
    (fst pA, snd pA + (lda * (d_nb A * n) + band_offset A + d_mb A * (m - n))).

  (* compute/pzpb2desc.c:39-50: first tile row of column n *)
  Definition bm_start (A : desc) (n : Z) : Z :=
    if d_uplo A =? PlasmaGeneral then Z.quot (Z.max 0 (n * d_nb A - d_ku A - d_kl A)) (d_nb A)
    else if d_uplo A =? PlasmaUpper then Z.quot (Z.max 0 (n * d_nb A - d_ku A)) (d_nb A)
    else Z.quot (Z.max 0 (n * d_nb A)) (d_nb A).
  (* compute/pzdesc2pb.c:39-50: the same with another bound for PlasmaUpper *)
  Definition bm_start_out (A : desc) (n : Z) : Z :=
    if d_uplo A =? PlasmaGeneral then Z.quot (Z.max 0 (n * d_nb A - d_ku A - d_kl A)) (d_nb A)
    else if d_uplo A =? PlasmaUpper then Z.quot (Z.max 0 (n * d_nb A - d_ku A - d_kl A)) (d_nb A)
    else Z.quot (Z.max 0 (n * d_nb A)) (d_nb A).
  (* compute/pzpb2desc.c:39-50, pzdesc2pb.c:39-50: last tile row of column n *)
  Definition bm_end (A : desc) (n : Z) : Z :=
    if d_uplo A =? PlasmaGeneral then Z.quot (Z.min (d_m A - 1) ((n + 1) * d_nb A + d_kl A - 1)) (d_nb A)
    else if d_uplo A =? PlasmaUpper then Z.quot (Z.min (d_m A - 1) ((n + 1) * d_nb A - 1)) (d_nb A)
    else Z.quot (Z.min (d_m A - 1) ((n + 1) * d_nb A + d_kl A - 1)) (d_nb A).

  (* compute/pzpb2desc.c:53-59: the task that fills tile (m,n) *)
  Definition pb_in (pA : loc) (lda b : Z) (A : desc) (m n : Z) : ktask N :=
    omp_lapack2tile (d_uplo A) m n (Z.min (d_mb A) (d_m A - m * d_mb A)) (Z.min (d_nb A) (d_n A - n * d_nb A))
      (d_mb A) (d_kl A) (d_ku A) (bandA pA lda A m n) (lda - 1) (tptr b A m n) (tile_mmain_band A m n).
  (* compute/pzdesc2pb.c:53-59: the task that copies tile (m,n) back *)
  Definition pb_out (b : Z) (A : desc) (pA : loc) (lda m n : Z) : ktask N :=
    omp_tile2lapack (d_uplo A) m n (Z.min (d_mb A) (d_m A - m * d_mb A)) (Z.min (d_nb A) (d_n A - n * d_nb A))
      (d_mb A) (d_kl A) (d_ku A) (tptr b A m n) (tile_mmain_band A m n) (bandA pA lda A m n) (lda - 1).

  (* compute/pzpb2desc.c:27-63 plasma_pzpb2desc; the early return for a failed sequence is
     left out (no task submitted before it can fail) *)
  Definition pzpb2desc (pA : loc) (lda b : Z) (A : desc) : list (ktask N) :=
    flat_map (fun n => map (fun m => pb_in pA lda b A m n) (zrange (bm_start A n) (bm_end A n + 1)))
      (zrange 0 (d_nt A)).
  (* compute/pzdesc2pb.c:27-63 plasma_pzdesc2pb *)
  Definition pzdesc2pb (b : Z) (A : desc) (pA : loc) (lda : Z) : list (ktask N) :=
    flat_map (fun n => map (fun m => pb_out b A pA lda m n) (zrange (bm_start_out A n) (bm_end A n + 1)))
      (zrange 0 (d_nt A)).
End Band.

Section Pbtrf.
  Context {F : fields}.
  Variable R : roots F.
  Variable rp : F -> F.

  (* compute/pzpbtrf.c:27-121 plasma_pzpbtrf; A(m,n) is the macro of line 21. The early
     return for a failed sequence (lines 31-32) is left out as in pzpotrf. *)
  Definition pzpbtrf (uplo bA : Z) (A : desc) : list (cktask F) :=
    if uplo =? PlasmaLower then
      flat_map (fun k =>
        let mvak := tile_mview A k in
        let ldakk := tile_mmain_band A k k in
        omp_zpotrf R rp PlasmaLower mvak (tptr bA A k k) ldakk (d_nb A * k)
        :: flat_map (fun m =>
             let mvam := tile_mview A m in
             let ldamk := tile_mmain_band A m k in
             let ldamm := tile_mmain_band A m m in
             sure (omp_ztrsm PlasmaRight PlasmaLower PlasmaConjTrans PlasmaNonUnit
               mvam mvak n1 (tptr bA A k k) ldakk (tptr bA A m k) ldamk)
             :: sure (omp_rank_k rp PlasmaConjTrans PlasmaLower PlasmaNoTrans
               mvam (d_mb A) (nopp n1) (tptr bA A m k) ldamk n1 (tptr bA A m m) ldamm)
             :: map (fun n =>
                  sure (omp_zgemm PlasmaNoTrans PlasmaConjTrans mvam (tile_nview A n) mvak
                    (nopp n1) (tptr bA A m k) ldamk (tptr bA A n k) (tile_mmain_band A n k)
                    n1 (tptr bA A m n) (tile_mmain_band A m n)))
                  (zrange (Z.max (k + 1) (m - d_klt A)) m))
             (zrange (k + 1) (Z.min (d_nt A) (k + d_klt A))))
        (zrange 0 (d_mt A))
    else
      flat_map (fun k =>
        let mvak := tile_mview A k in
        let ldakk := tile_mmain_band A k k in
        omp_zpotrf R rp PlasmaUpper mvak (tptr bA A k k) ldakk (d_nb A * k)
        :: flat_map (fun m =>
             let mvam := tile_mview A m in
             let ldakm := tile_mmain_band A k m in
             let ldamm := tile_mmain_band A m m in
             sure (omp_ztrsm PlasmaLeft PlasmaUpper PlasmaConjTrans PlasmaNonUnit
               (d_nb A) mvam n1 (tptr bA A k k) ldakk (tptr bA A k m) ldakm)
             :: sure (omp_rank_k rp PlasmaConjTrans PlasmaUpper PlasmaConjTrans
               mvam (d_mb A) (nopp n1) (tptr bA A k m) ldakm n1 (tptr bA A m m) ldamm)
             :: map (fun n =>
                  sure (omp_zgemm PlasmaConjTrans PlasmaNoTrans (d_mb A) mvam (d_mb A)
                    (nopp n1) (tptr bA A k n) (tile_mmain_band A k n) (tptr bA A k m) ldakm
                    n1 (tptr bA A n m) (tile_mmain_band A n m)))
                  (zrange (Z.max (k + 1) (m - d_kut A)) m))
             (zrange (k + 1) (Z.min (d_nt A) (k + d_kut A))))
        (zrange 0 (d_nt A)).

  (* compute/zpbtrf.c:77-158 plasma_zpbtrf with 202-242 plasma_omp_zpbtrf, zpb2desc.c:27-68
     and zdesc2pb.c:27-68 (their argument checks cannot fail here). Not initialised: property C09;
     tuning: C10. Simplification: the bodies of the translation tasks do not test the
     sequence status (core_blas/core_zlacpy_band.c:121-126, 218-223), here they do; this only changes
     what a failed factorization leaves in the user's band, about which nothing is
     claimed. *)
  Definition zpbtrf (nb uplo n kd : Z) (pAB : loc) (ldab : Z) (bA : Z) : gdriver F :=
    if negb ((uplo =? PlasmaUpper) || (uplo =? PlasmaLower)) then GReturns (-1)
    else if n <? 0 then GReturns (-2)
    else if kd <? 0 then GReturns (-3)
    else if ldab <? kd + 1 then GReturns (-5)
    else if Z.max n 0 =? 0 then GReturns PlasmaSuccess
    else
      with_gdesc (pb_create uplo nb n kd) (fun A =>
        GRuns (map sure (if (d_m A =? 0) || (d_n A =? 0) then [] else pzpb2desc pAB ldab bA A)
               ++ (if d_m A =? 0 then [] else pzpbtrf uplo bA A)
               ++ map sure (if (d_m A =? 0) || (d_n A =? 0) then [] else pzdesc2pb bA A pAB ldab))).
End Pbtrf.
