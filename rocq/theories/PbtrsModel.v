(* Systems with a Hermitian positive definite band matrix: compute/pztbsm.c, zpbtrs.c,
   zpbsv.c. *)
From Coq Require Import ZArith List Bool.
From Verif Require Import Base NumModel FieldModel TaskModel TaskSpec GuardModel GuardSpec DescModel
  DescDriverModel MatModel LayoutModel LasetModel RankModel TriModel DriverModel PotrfModel BandModel.
Import ListNotations.
Open Scope Z_scope.

Section Pbtrs.
  Context {F : fields}.

  (* compute/pztbsm.c:27-211 plasma_pztbsm with ipiv NULL (the row interchanges of lines 121-132
     and 187-199 belong to zgbtrs); A(m,n) and B(m,n) are the macros of lines 21-22. Nothing
     is done for PlasmaRight (lines 205-209). The early return for a failed sequence (lines
     35-36) is left out as in pzpotrf: the tasks test the status themselves. *)
  Definition pztbsm (side uplo trans diag : Z) (alpha : F) (bA : Z) (A : desc) (bB : Z) (B : desc)
      : list (ktask F) :=
    let mt := d_mt B in
    let nt := d_nt B in
    if side =? PlasmaLeft then
     if uplo =? PlasmaUpper then
      if trans =? PlasmaNoTrans then
      flat_map (fun k =>
        let lalpha := if k =? 0 then alpha else n1 in
        map (fun n =>
          omp_ztrsm side uplo trans diag (tile_mview B (mt - k - 1)) (tile_nview B n) lalpha
            (tptr bA A (mt - k - 1) (mt - k - 1)) (tile_mmain A (mt - k - 1)) (tptr bB B (mt - k - 1) n) (tile_mmain B (mt - k - 1)))
          (zrange 0 nt)
        ++ flat_map (fun m => map (fun n =>
             omp_zgemm PlasmaNoTrans PlasmaNoTrans (d_mb B) (tile_nview B n) (tile_mview B (mt - k - 1)) (nopp n1)
               (tptr bA A m (mt - k - 1)) (tile_mmain A m) (tptr bB B (mt - k - 1) n) (tile_mmain B (mt - k - 1))
               lalpha (tptr bB B m n) (tile_mmain B m))
             (zrange 0 nt)) (zrange (Z.max 0 (mt - k - 1 - d_kut A + 1)) (mt - k - 1)))
        (zrange 0 mt)
      else
      flat_map (fun k =>
        let lalpha := if k =? 0 then alpha else n1 in
        map (fun n =>
          omp_ztrsm side uplo trans diag (tile_mview B k) (tile_nview B n) lalpha
            (tptr bA A k k) (tile_mmain A k) (tptr bB B k n) (tile_mmain B k))
          (zrange 0 nt)
        ++ flat_map (fun m => map (fun n =>
             omp_zgemm trans PlasmaNoTrans (tile_mview B m) (tile_nview B n) (d_mb B) (nopp n1)
               (tptr bA A k m) (tile_mmain A k) (tptr bB B k n) (tile_mmain B k)
               lalpha (tptr bB B m n) (tile_mmain B m))
             (zrange 0 nt)) (zrange (k + 1) (Z.min (d_mt A) (k + d_kut A))))
        (zrange 0 mt)
     else
      if trans =? PlasmaNoTrans then
      flat_map (fun k =>
        let lalpha := if k =? 0 then alpha else n1 in
        map (fun n =>
          omp_ztrsm side uplo trans diag (tile_mview B k) (tile_nview B n) lalpha
            (tptr bA A k k) (tile_mmain A k) (tptr bB B k n) (tile_mmain B k))
          (zrange 0 nt)
        ++ flat_map (fun m => map (fun n =>
             omp_zgemm PlasmaNoTrans PlasmaNoTrans (tile_mview B m) (tile_nview B n) (d_mb B) (nopp n1)
               (tptr bA A m k) (tile_mmain A m) (tptr bB B k n) (tile_mmain B k)
               lalpha (tptr bB B m n) (tile_mmain B m))
             (zrange 0 nt)) (zrange (k + 1) (Z.min (k + d_klt A) (d_mt A))))
        (zrange 0 mt)
      else
      flat_map (fun k =>
        let lalpha := if k =? 0 then alpha else n1 in
        flat_map (fun m => map (fun n =>
             omp_zgemm trans PlasmaNoTrans (tile_mview B (mt - k - 1)) (tile_nview B n) (tile_mview B m) (nopp n1)
               (tptr bA A m (mt - k - 1)) (tile_mmain A m) (tptr bB B m n) (tile_mmain B m)
               lalpha (tptr bB B (mt - k - 1) n) (tile_mmain B (mt - k - 1)))
             (zrange 0 nt)) (zrange (mt - k - 1 + 1) (Z.min (mt - k - 1 + d_klt A) (d_mt A)))
        ++ map (fun n =>
          omp_ztrsm side uplo trans diag (tile_mview B (mt - k - 1)) (tile_nview B n) lalpha
            (tptr bA A (mt - k - 1) (mt - k - 1)) (tile_mmain A (mt - k - 1)) (tptr bB B (mt - k - 1) n) (tile_mmain B (mt - k - 1)))
          (zrange 0 nt))
        (zrange 0 mt)
    else [].

  (* the two triangular solves with the Cholesky factor, compute/zpbtrs.c:277-294 and
     compute/zpbsv.c:285-301 *)
  Definition two_band_solves (uplo bA : Z) (A : desc) (bB : Z) (B : desc) : list (ktask F) :=
    pztbsm PlasmaLeft uplo (if uplo =? PlasmaUpper then PlasmaConjTrans else PlasmaNoTrans) PlasmaNonUnit
      n1 bA A bB B
    ++ pztbsm PlasmaLeft uplo (if uplo =? PlasmaUpper then PlasmaNoTrans else PlasmaConjTrans) PlasmaNonUnit
      n1 bA A bB B.

  (* compute/zpbtrs.c:81-182 plasma_zpbtrs with 236-295 plasma_omp_zpbtrs and the quick return
     of zpb2desc.c:62-64 (their other argument checks cannot fail here). Not initialised: property
     C09; tuning: C10. *)
  Definition zpbtrs (nb uplo n kd nrhs : Z) (pAB : loc) (ldab : Z) (pB : loc) (ldb : Z) (bA bB : Z) : driver F :=
    if negb ((uplo =? PlasmaUpper) || (uplo =? PlasmaLower)) then Returns (-1)
    else if n <? 0 then Returns (-2)
    else if kd <? 0 then Returns (-4)
    else if nrhs <? 0 then Returns (-5)
    else if ldab <? Z.max 1 (1 + kd) then Returns (-7)
    else if ldb <? Z.max 1 n then Returns (-10)
    else if Z.max n nrhs =? 0 then Returns PlasmaSuccess
    else
      with_desc (pb_create uplo nb n kd) (fun A =>
      with_desc (ge_create nb n nrhs) (fun B =>
        Runs ((if (d_m A =? 0) || (d_n A =? 0) then [] else pzpb2desc pAB ldab bA A) ++ pzge2desc pB ldb bB B
              ++ (if (d_n A =? 0) || (d_n B =? 0) then [] else two_band_solves uplo bA A bB B)
              ++ pzdesc2ge bB B pB ldb))).

  Variable R : roots F.
  Variable rp : F -> F.

  (* compute/zpbsv.c:92-193 plasma_zpbsv with 242-302 plasma_omp_zpbsv and the quick returns
     of zpb2desc.c:62-64 and zdesc2pb.c:62-64 (their other argument checks cannot fail here). B
     is created with ldb rows, of which the first n are used (lines 153-154). Not initialised:
     property C09; tuning: C10. Simplification: the translation tasks of the band test the
     sequence status, as in zpbtrf. *)
  Definition zpbsv (nb uplo n kd nrhs : Z) (pAB : loc) (ldab : Z) (pB : loc) (ldb : Z) (bA bB : Z) : gdriver F :=
    if negb ((uplo =? PlasmaUpper) || (uplo =? PlasmaLower)) then GReturns (-1)
    else if n <? 0 then GReturns (-2)
    else if kd <? 0 then GReturns (-3)
    else if nrhs <? 0 then GReturns (-4)
    else if ldab <? kd + 1 then GReturns (-6)
    else if ldb <? Z.max 1 n then GReturns (-8)
    else if Z.min n nrhs =? 0 then GReturns PlasmaSuccess
    else
      with_gdesc (pb_create uplo nb n kd) (fun A =>
      with_gdesc (general_create PlasmaComplexDouble nb nb ldb nrhs 0 0 n nrhs) (fun B =>
        GRuns (map sure ((if (d_m A =? 0) || (d_n A =? 0) then [] else pzpb2desc pAB ldab bA A)
                         ++ pzge2desc pB ldb bB B)
               ++ (if (d_n A =? 0) || (d_n B =? 0) then []
                   else pzpbtrf R rp uplo bA A ++ map sure (two_band_solves uplo bA A bB B))
               ++ map sure ((if (d_m A =? 0) || (d_n A =? 0) then [] else pzdesc2pb bA A pAB ldab)
                            ++ pzdesc2ge bB B pB ldb)))).
End Pbtrs.
