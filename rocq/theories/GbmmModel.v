(* Multiplication with a general band matrix: compute/zgbmm.c, compute/pzgemm.c (band branch),
   compute/pzgb2desc.c. *)
From Coq Require Import ZArith List Bool.
From Verif Require Import Base NumModel TaskModel TaskSpec DescModel DescDriverModel MatModel
  LayoutModel DriverModel.
Import ListNotations.
Open Scope Z_scope.

Section Gbmm.
  Context {N : numbers}.

  (* compute/pzgb2desc.c:53-61: the task that fills tile (m,n) of a band matrix from the full
     array. PlasmaGeneralBand has no character constant for LAPACK (include/plasma_core_blas.h:46-48),
     lapack_const gives NUL, for which LAPACK zlacpy copies all elements; so does uplo_sel. *)
  Definition copy_in_band (pA : loc) (lda b : Z) (A : desc) (m n : Z) : ktask N :=
    omp_zlacpy PlasmaGeneralBand (cp_y2 A m - cp_y1 A m) (cp_x2 A n - cp_x1 A n)
      (cp_user pA lda A m n) lda (cp_tile b A m n) (tile_mmain_band A m n).

  (* compute/pzgb2desc.c:22-65 plasma_pzgb2desc; the early return for a failed sequence is left
     out as in pzge2desc *)
  Definition pzgb2desc (pA : loc) (lda b : Z) (A : desc) : list (ktask N) :=
    flat_map (fun m => flat_map (fun n =>
      if (d_klt A <=? m - n) || (1 + Z.quot (d_ku A + d_nb A - 1) (d_nb A) <=? n - m) then []
      else [copy_in_band pA lda b A m n]) (zrange 0 (d_nt A))) (zrange 0 (d_mt A)).

  (* compute/zgb2desc.c:27-72 plasma_omp_zgb2desc (its argument checks cannot fail for created
     descriptors, C07) *)
  Definition omp_async_zgb2desc (pA : loc) (lda b : Z) (A : desc) : list (ktask N) :=
    if (d_m A =? 0) || (d_n A =? 0) then []
    else if d_type A =? PlasmaGeneral then pzge2desc pA lda b A
    else pzgb2desc pA lda b A.

  (* core_blas/core_zgemm.c:105-136 plasma_core_omp_zgemm called with alpha = 0
     (compute/pzgemm.c:195-209, 235-248, 276-290, 316-329): cblas_zgemm does not reference A and
     B then, so that the tile of A, which may not exist, is not read *)
  Definition omp_zgemm_zero (m n : Z) (A : loc) (B : loc) (beta : N) (C : loc) (ldc : Z) : ktask N :=
    {| k_deps := [dep_in A; dep_in B; dep_inout C];
       k_fun := fun M => mset C ldc m n everywhere (fun i j => nmul beta (rd M C ldc i j)) M;
       k_reads := reg C ldc m n everywhere;
       k_writes := reg C ldc m n everywhere |}.

  (* compute/pzgemm.c:137-333, part of plasma_pzgemm, branch A.type == PlasmaGeneralBand: the tasks for
     tile (m,n) of C *)
  Definition pzgemm_band_tile (transa transb : Z) (alpha : N) (bA : Z) (A : desc) (bB : Z) (B : desc)
      (beta : N) (bC : Z) (C : desc) (m n : Z) : list (ktask N) :=
    let mvcm := tile_mview C m in
    let ldcm := tile_mmain C m in
    let nvcn := tile_nview C n in
    let inner_k := if transa =? PlasmaNoTrans then d_n A else d_m A in
    if neqb alpha n0 || (inner_k =? 0) then
      let ldam := Z.max 1 (tile_mmain A 0) in
      let ldbk := Z.max 1 (tile_mmain B 0) in
      [omp_zgemm transa transb mvcm nvcn 0 alpha (tptr bA A 0 0) ldam (tptr bB B 0 0) ldbk
         beta (tptr bC C m n) ldcm]
    else if transa =? PlasmaNoTrans then
      let k_start := Z.quot (Z.max 0 (m * d_nb A - d_kl A)) (d_nb A) in
      let k_end := Z.quot (Z.min (d_n A - 1) ((m + 1) * d_nb A + d_ku A - 1)) (d_nb A) in
      if transb =? PlasmaNoTrans then
        map (fun k =>
          let ldam := tile_mmain_band A m k in
          let nvak := tile_nview A k in
          let ldbk := tile_mmain B k in
          let zbeta := if k =? k_start then beta else n1 in
          omp_zgemm transa transb mvcm nvcn nvak alpha (tptr bA A m k) ldam
            (tptr bB B k n) ldbk zbeta (tptr bC C m n) ldcm) (zrange k_start (k_end + 1))
        ++ (if k_end <? k_start
            then [omp_zgemm_zero mvcm nvcn (tptr bA A m 0) (tptr bB B 0 n) beta (tptr bC C m n) ldcm]
            else [])
      else
        let ldbn := tile_mmain B n in
        map (fun k =>
          let ldam := tile_mmain_band A m k in
          let nvak := tile_nview A k in
          let zbeta := if k =? k_start then beta else n1 in
          omp_zgemm transa transb mvcm nvcn nvak alpha (tptr bA A m k) ldam
            (tptr bB B n k) ldbn zbeta (tptr bC C m n) ldcm) (zrange k_start (k_end + 1))
        ++ (if k_end <? k_start
            then [omp_zgemm_zero mvcm nvcn (tptr bA A m 0) (tptr bB B n 0) beta (tptr bC C m n) ldcm]
            else [])
    else
      let k_start := Z.quot (Z.max 0 (m * d_mb A - d_ku A)) (d_mb A) in
      let k_end := Z.quot (Z.min (d_m A - 1) ((m + 1) * d_mb A + d_kl A - 1)) (d_mb A) in
      if transb =? PlasmaNoTrans then
        map (fun k =>
          let ldak := tile_mmain_band A k m in
          let mvak := tile_mview A k in
          let ldbk := tile_mmain B k in
          let zbeta := if k =? k_start then beta else n1 in
          omp_zgemm transa transb mvcm nvcn mvak alpha (tptr bA A k m) ldak
            (tptr bB B k n) ldbk zbeta (tptr bC C m n) ldcm) (zrange k_start (k_end + 1))
        ++ (if k_end <? k_start
            then [omp_zgemm_zero mvcm nvcn (tptr bA A 0 m) (tptr bB B 0 n) beta (tptr bC C m n) ldcm]
            else [])
      else
        let ldbn := tile_mmain B n in
        map (fun k =>
          let ldak := tile_mmain_band A k m in
          let mvak := tile_mview A k in
          let zbeta := if k =? k_start then beta else n1 in
          omp_zgemm transa transb mvcm nvcn mvak alpha (tptr bA A k m) ldak
            (tptr bB B n k) ldbn zbeta (tptr bC C m n) ldcm) (zrange k_start (k_end + 1))
        ++ (if k_end <? k_start
            then [omp_zgemm_zero mvcm nvcn (tptr bA A 0 m) (tptr bB B n 0) beta (tptr bC C m n) ldcm]
            else []).

  (* compute/pzgemm.c:31-335 plasma_pzgemm for a band matrix A *)
  Definition pzgemm_band (transa transb : Z) (alpha : N) (bA : Z) (A : desc) (bB : Z) (B : desc)
      (beta : N) (bC : Z) (C : desc) : list (ktask N) :=
    flat_map (fun m => flat_map (fun n => pzgemm_band_tile transa transb alpha bA A bB B beta bC C m n)
                         (zrange 0 (d_nt C))) (zrange 0 (d_mt C)).

  (* compute/zgbmm.c:337-404 plasma_omp_zgbmm (its argument checks cannot fail for created
     descriptors, C07) *)
  Definition omp_async_zgbmm (transa transb : Z) (alpha : N) (bA : Z) (A : desc) (bB : Z) (B : desc)
      (beta : N) (bC : Z) (C : desc) : list (ktask N) :=
    let k := if transa =? PlasmaNoTrans then d_n A else d_m A in
    if (d_m C =? 0) || (d_n C =? 0) || ((neqb alpha n0 || (k =? 0)) && neqb beta n1) then []
    else pzgemm_band transa transb alpha bA A bB B beta bC C.

  (* compute/zgbmm.c:112-273 plasma_zgbmm. nb is plasma->nb; bA, bB, bC the blocks malloc
     returns for the three tile matrices. Not initialised: property C09; tuning: C10. *)
  Definition zgbmm (nb transa transb m n k kl ku : Z) (alpha : N) (pA : loc) (lda : Z) (pB : loc) (ldb : Z)
      (beta : N) (pC : loc) (ldc : Z) (bA bB bC : Z) : driver N :=
    let is_trans t := (t =? PlasmaNoTrans) || (t =? PlasmaTrans) || (t =? PlasmaConjTrans) in
    if negb (is_trans transa) then Returns (-1)
    else if negb (is_trans transb) then Returns (-2)
    else if m <? 0 then Returns (-3)
    else if n <? 0 then Returns (-4)
    else if k <? 0 then Returns (-5)
    else if (kl <? 0) || (m - 1 <? kl) then Returns (-6)
    else if (ku <? 0) || (k - 1 <? ku) then Returns (-7)
    else
      let am := if transa =? PlasmaNoTrans then m else k in
      let an := if transa =? PlasmaNoTrans then k else m in
      let bm := if transb =? PlasmaNoTrans then k else n in
      let bn := if transb =? PlasmaNoTrans then n else k in
      if lda <? Z.max 1 am then Returns (-8)
      else if ldb <? Z.max 1 bm then Returns (-10)
      else if ldc <? Z.max 1 m then Returns (-13)
      else if (m =? 0) || (n =? 0) || ((neqb alpha n0 || (k =? 0)) && neqb beta n1)
           then Returns PlasmaSuccess
      else
        with_desc (gb_create nb am an kl ku) (fun A =>
        with_desc (ge_create nb bm bn) (fun B =>
        with_desc (ge_create nb m n) (fun C =>
          Runs (omp_async_zgb2desc pA lda bA A ++ omp_async_zgb2desc pB ldb bB B
                ++ omp_async_zgb2desc pC ldc bC C
                ++ omp_async_zgbmm transa transb alpha bA A bB B beta bC C
                ++ pzdesc2ge bC C pC ldc)))).
End Gbmm.
