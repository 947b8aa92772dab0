(* The inverse of a general matrix from its LU factorization: compute/zgetri.c,
   compute/zgetri_aux.c, compute/pzgetri_aux.c. *)
From Coq Require Import ZArith List Bool.
From Verif Require Import Base NumModel FieldModel TaskModel TaskSpec GuardModel GuardSpec DescModel
  DescDriverModel MatModel LayoutModel GemmModel LasetModel EwModel TriModel DriverModel PotrfModel TrtriModel SwpModel.
Import ListNotations.
Open Scope Z_scope.

Section Getri.
  Context {F : fields}.

  (* compute/pzgetri_aux.c:27-102 plasma_pzgetri_aux; A(m,n) and W(m) are the macros of lines
     21-22. The early return for a failed sequence (lines 30-31) is left out as in pzpotrf. *)
  Definition pzgetri_aux (bA : Z) (A : desc) (bW : Z) (W : desc) : list (ktask F) :=
    flat_map (fun k =>
      let mvak := tile_mview A k in
      let nvak := tile_nview A k in
      let ldak := tile_mmain A k in
      let ldakn := tile_mmain A k in
      let ldwk := tile_mmain W k in
      [omp_zlacpy_t PlasmaLower PlasmaNoTrans mvak nvak (tptr bA A k k) ldak (tptr bW W k 0) ldwk;
       omp_zlaset PlasmaLower ldak ldakn 1 0 (nvak - 1) (nvak - 1) n0 n0 (tptr bA A k k)]
      ++ flat_map (fun m =>
           let mvam := tile_mview A m in
           let ldam := tile_mmain A m in
           let ldwm := tile_mmain W m in
           [omp_zlacpy_t PlasmaGeneral PlasmaNoTrans mvam nvak (tptr bA A m k) ldam (tptr bW W m 0) ldwm;
            omp_zlaset PlasmaGeneral ldam ldakn 0 0 mvam nvak n0 n0 (tptr bA A m k)])
           (zrange (k + 1) (d_mt A))
      ++ flat_map (fun m =>
           let mvam := tile_mview A m in
           let ldam := tile_mmain A m in
           map (fun n =>
             omp_zgemm PlasmaNoTrans PlasmaNoTrans mvam nvak (tile_nview A n)
               (nopp n1) (tptr bA A m n) ldam (tptr bW W n 0) (tile_mmain W n)
               n1 (tptr bA A m k) ldam)
             (zrange (k + 1) (d_nt A)))
           (zrange 0 (d_mt A))
      ++ map (fun m =>
           omp_ztrsm PlasmaRight PlasmaLower PlasmaNoTrans PlasmaUnit (tile_mview A m) nvak
             n1 (tptr bW W k 0) ldwk (tptr bA A m k) (tile_mmain A m))
           (zrange 0 (d_mt A)))
      (zdown (d_mt A)).

  (* compute/zgetri_aux.c:53-127 plasma_zgetri_aux with 171-211 plasma_omp_zgetri_aux (its
     argument checks cannot fail here). Not initialised: property C09. *)
  Definition zgetri_aux (nb n : Z) (pA : loc) (lda : Z) (bA bW : Z) : driver F :=
    if n <? 0 then Returns (-1)
    else if lda <? Z.max 1 n then Returns (-3)
    else if n =? 0 then Returns PlasmaSuccess
    else
      with_desc (ge_create nb n n) (fun A =>
      with_desc (ge_create nb n nb) (fun W =>
        Runs (pzge2desc pA lda bA A
              ++ (if d_n A =? 0 then [] else pzgetri_aux bA A bW W)
              ++ pzdesc2ge bA A pA lda))).

  (* compute/zgetri.c:58-135 plasma_zgetri with 182-227 plasma_omp_zgetri (its argument checks
     cannot fail here). Not initialised: property C09; tuning: C10. The array ipiv, at pI, is
     given by its contents. The tasks of plasma_core_omp_zlaset and plasma_pzgeswp do not look at the
     status of the sequence; here they do, which makes a difference only to the tiles, and after
     a failure to the part of the user's matrix that is still copied back. *)
  Definition zgetri (nb n : Z) (pA : loc) (lda : Z) (pI : loc) (ipiv : Z -> Z) (bA bW : Z) : gdriver F :=
    if n <? 0 then GReturns (-1)
    else if lda <? Z.max 1 n then GReturns (-3)
    else if Z.max n 0 =? 0 then GReturns PlasmaSuccess
    else
      with_gdesc (ge_create nb n n) (fun A =>
      with_gdesc (ge_create nb n nb) (fun W =>
        GRuns (map sure (pzge2desc pA lda bA A)
               ++ (if d_n A =? 0 then []
                   else pztrtri PlasmaUpper PlasmaNonUnit bA A
                        ++ map sure (pzgetri_aux bA A bW W
                                     ++ pzgeswp PlasmaColumnwise bA A pI ipiv (-1)))
               ++ map sure (pzdesc2ge bA A pA lda)))).
End Getri.
