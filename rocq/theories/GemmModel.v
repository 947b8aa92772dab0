(* Matrix multiply: compute/zgemm.c, compute/pzgemm.c. *)
From Coq Require Import ZArith List Bool.
From Verif Require Import Base NumModel TaskModel TaskSpec DescModel DescDriverModel MatModel
  LayoutModel DriverModel.
Import ListNotations.
Open Scope Z_scope.

Section Gemm.
  Context {N : numbers}.

  (* compute/pzgemm.c:31-138 plasma_pzgemm, branch A.type == PlasmaGeneral: the tasks for
     tile (m,n) of C. bA, bB, bC are the storage blocks of the tile matrices. *)
  Definition pzgemm_tile (transa transb : Z) (alpha : N) (bA : Z) (A : desc) (bB : Z) (B : desc)
      (beta : N) (bC : Z) (C : desc) (m n : Z) : list (ktask N) :=
    let mvcm := tile_mview C m in
    let ldcm := tile_mmain C m in
    let nvcn := tile_nview C n in
    let inner_k := if transa =? PlasmaNoTrans then d_n A else d_m A in
    if neqb alpha n0 || (inner_k =? 0) then
      let ldam := Z.max 1 (tile_mmain A 0) in
      let ldbk := Z.max 1 (tile_mmain B 0) in
      [omp_zgemm transa transb mvcm nvcn 0 alpha (tptr bA A 0 0) ldam (tptr bB B 0 0) ldbk
         beta (tptr bC C m n) ldcm]
    else if transa =? PlasmaNoTrans then
      let ldam := tile_mmain A m in
      if transb =? PlasmaNoTrans then
        map (fun k =>
          let nvak := tile_nview A k in
          let ldbk := tile_mmain B k in
          let zbeta := if k =? 0 then beta else n1 in
          omp_zgemm transa transb mvcm nvcn nvak alpha (tptr bA A m k) ldam
            (tptr bB B k n) ldbk zbeta (tptr bC C m n) ldcm) (zrange 0 (d_nt A))
      else
        let ldbn := tile_mmain B n in
        map (fun k =>
          let nvak := tile_nview A k in
          let zbeta := if k =? 0 then beta else n1 in
          omp_zgemm transa transb mvcm nvcn nvak alpha (tptr bA A m k) ldam
            (tptr bB B n k) ldbn zbeta (tptr bC C m n) ldcm) (zrange 0 (d_nt A))
    else
      if transb =? PlasmaNoTrans then
        map (fun k =>
          let mvak := tile_mview A k in
          let ldak := tile_mmain A k in
          let ldbk := tile_mmain B k in
          let zbeta := if k =? 0 then beta else n1 in
          omp_zgemm transa transb mvcm nvcn mvak alpha (tptr bA A k m) ldak
            (tptr bB B k n) ldbk zbeta (tptr bC C m n) ldcm) (zrange 0 (d_mt A))
      else
        let ldbn := tile_mmain B n in
        map (fun k =>
          let mvak := tile_mview A k in
          let ldak := tile_mmain A k in
          let zbeta := if k =? 0 then beta else n1 in
          omp_zgemm transa transb mvcm nvcn mvak alpha (tptr bA A k m) ldak
            (tptr bB B n k) ldbn zbeta (tptr bC C m n) ldcm) (zrange 0 (d_mt A)).

  (* compute/pzgemm.c:31-136 plasma_pzgemm for a general (dense) A; the band branch is
     modelled in GbmmModel.v *)
  Definition pzgemm (transa transb : Z) (alpha : N) (bA : Z) (A : desc) (bB : Z) (B : desc)
      (beta : N) (bC : Z) (C : desc) : list (ktask N) :=
    flat_map (fun m => flat_map (fun n => pzgemm_tile transa transb alpha bA A bB B beta bC C m n)
                         (zrange 0 (d_nt C))) (zrange 0 (d_mt C)).

  (* compute/zgemm.c:315-381 plasma_omp_zgemm; the argument and descriptor checks, which
     cannot fail when called from plasma_zgemm (C07_create_passes_check), are left out *)
  Definition omp_async_zgemm (transa transb : Z) (alpha : N) (bA : Z) (A : desc) (bB : Z) (B : desc)
      (beta : N) (bC : Z) (C : desc) : list (ktask N) :=
    let k := if transa =? PlasmaNoTrans then d_n A else d_m A in
    if (d_m C =? 0) || (d_n C =? 0) || ((neqb alpha n0 || (k =? 0)) && neqb beta n1) then []
    else pzgemm transa transb alpha bA A bB B beta bC C.

  (* compute/zgemm.c:102-283 plasma_zgemm. nb is plasma->nb; bA, bB, bC the blocks malloc
     returns for the three tile matrices. Not initialised: property C09. *)
  Definition zgemm (nb transa transb m n k : Z) (alpha : N) (pA : loc) (lda : Z) (pB : loc) (ldb : Z)
      (beta : N) (pC : loc) (ldc : Z) (bA bB bC : Z) : driver N :=
    let is_trans t := (t =? PlasmaNoTrans) || (t =? PlasmaTrans) || (t =? PlasmaConjTrans) in
    if negb (is_trans transa) then Returns (-1)
    else if negb (is_trans transb) then Returns (-2)
    else if m <? 0 then Returns (-3)
    else if n <? 0 then Returns (-4)
    else if k <? 0 then Returns (-5)
    else
      let am := if transa =? PlasmaNoTrans then m else k in
      let an := if transa =? PlasmaNoTrans then k else m in
      let bm := if transb =? PlasmaNoTrans then k else n in
      let bn := if transb =? PlasmaNoTrans then n else k in
      if lda <? Z.max 1 am then Returns (-8)
      else if ldb <? Z.max 1 bm then Returns (-10)
      else if ldc <? Z.max 1 m then Returns (-13)
      else if (m =? 0) || (n =? 0) || ((neqb alpha n0 || (k =? 0)) && neqb beta n1)
           then Returns PlasmaSuccess
      else
        with_desc (ge_create nb am an) (fun A =>
        with_desc (ge_create nb bm bn) (fun B =>
        with_desc (ge_create nb m n) (fun C =>
          Runs (pzge2desc pA lda bA A ++ pzge2desc pB ldb bB B ++ pzge2desc pC ldc bC C
                ++ omp_async_zgemm transa transb alpha bA A bB B beta bC C
                ++ pzdesc2ge bC C pC ldc)))).
End Gemm.
