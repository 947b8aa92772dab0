(* Inverse of a triangular matrix, product of a triangular matrix and its conjugate transpose,
   and the inverse of a Hermitian positive definite matrix: compute/ztrtri.c, pztrtri.c,
   zlauum.c, pzlauum.c, zpotri.c, zpoinv.c, core_blas/core_ztrtri.c, core_zlauum.c. *)
From Coq Require Import ZArith List Bool.
From Verif Require Import Base NumModel FieldModel TaskModel TaskSpec GuardModel GuardSpec DescModel
  DescDriverModel MatModel LayoutModel RankModel LasetModel TriModel DriverModel PotrfModel.
Import ListNotations.
Open Scope Z_scope.

Section Trtri.
  Context {F : fields}.

  (* the test of LAPACK ztrtri (core_blas/core_ztrtri.c:63-65): the number, from 1, of the
     first zero on the diagonal; 0 if there is none or the diagonal is not stored *)
  Definition core_ztrtri_info (diag n : Z) (A : loc) (lda : Z) (M : mem F) : Z :=
    if diag =? PlasmaUnit then 0
    else match find (fun i => neqb (rd M A lda i i) n0) (zrange 0 n) with
         | Some i => i + 1
         | None => 0
         end.

  (* the elements of a triangular matrix that are stored: the triangle uplo, without its
     diagonal if diag is PlasmaUnit. core_blas/core_ztrtri.c:63-65 *)
  Definition tri_sel (uplo diag : Z) (i j : Z) : bool :=
    uplo_sel uplo i j && negb ((diag =? PlasmaUnit) && (i =? j)).

  (* core_blas/core_ztrtri.c:58-66 plasma_core_ztrtri: calls LAPACK ztrtri, whose effect is
     trusted. Nothing is changed if a diagonal element is zero; otherwise column j of the
     inverse solves A*x = e_j. LAPACK may use a blocked algorithm; in exact arithmetic the
     result is the same. *)
  Definition core_ztrtri (uplo diag n : Z) (A : loc) (lda : Z) (M : mem F) : mem F :=
    if core_ztrtri_info diag n A lda M =? 0 then
      mset A lda n n (tri_sel uplo diag)
        (fun i j => solve_along (fun r l => tri_rd M uplo diag A lda r l) []
                      (if uplo =? PlasmaUpper then zdown n else zrange 0 n)
                      (fun r => if r =? j then n1 else n0) i) M
    else M.

  (* core_blas/core_ztrtri.c:69-84 plasma_core_omp_ztrtri *)
  Definition omp_ztrtri (uplo diag n : Z) (A : loc) (lda iinfo : Z) : cktask F :=
    {| ck_task :=
         {| k_deps := [dep_inout A];
            k_fun := core_ztrtri uplo diag n A lda;
            k_reads := reg A lda n n (uplo_sel uplo);
            k_writes := reg A lda n n (tri_sel uplo diag) |};
       ck_info := fun M => let info := core_ztrtri_info diag n A lda M in
                           if info =? 0 then 0 else iinfo + info;
       ck_may_fail := true |}.

  (* compute/pztrtri.c:27-129 plasma_pztrtri; A(m,n) is the macro of line 21. The early
     return for a failed sequence (lines 32-33) is left out as in pzpotrf. *)
  Definition pztrtri (uplo diag bA : Z) (A : desc) : list (cktask F) :=
    if uplo =? PlasmaLower then
      flat_map (fun k =>
        let mvak := tile_mview A k in
        let nvak := tile_nview A k in
        let ldak := tile_mmain A k in
        map (fun m =>
          sure (omp_ztrsm PlasmaRight uplo PlasmaNoTrans diag (tile_mview A m) nvak
            (nopp n1) (tptr bA A k k) ldak (tptr bA A m k) (tile_mmain A m)))
          (zrange (k + 1) (d_mt A))
        ++ flat_map (fun m => map (fun n =>
             sure (omp_zgemm PlasmaNoTrans PlasmaNoTrans (tile_mview A m) (tile_nview A n) (Z.min nvak mvak)
               n1 (tptr bA A m k) (tile_mmain A m) (tptr bA A k n) ldak
               n1 (tptr bA A m n) (tile_mmain A m)))
             (zrange 0 k)) (zrange (k + 1) (d_mt A))
        ++ map (fun n =>
             sure (omp_ztrsm PlasmaLeft uplo PlasmaNoTrans diag mvak (tile_nview A n)
               n1 (tptr bA A k k) ldak (tptr bA A k n) ldak))
             (zrange 0 k)
        ++ [omp_ztrtri uplo diag nvak (tptr bA A k k) ldak (d_nb A * k)])
        (zrange 0 (d_nt A))
    else
      flat_map (fun k =>
        let mvak := tile_mview A k in
        let nvak := tile_nview A k in
        let ldak := tile_mmain A k in
        map (fun n =>
          sure (omp_ztrsm PlasmaLeft uplo PlasmaNoTrans diag mvak (tile_nview A n)
            (nopp n1) (tptr bA A k k) ldak (tptr bA A k n) ldak))
          (zrange (k + 1) (d_nt A))
        ++ flat_map (fun m =>
             map (fun n =>
               sure (omp_zgemm PlasmaNoTrans PlasmaNoTrans (tile_mview A m) (tile_nview A n) (Z.min nvak mvak)
                 n1 (tptr bA A m k) (tile_mmain A m) (tptr bA A k n) ldak
                 n1 (tptr bA A m n) (tile_mmain A m)))
               (zrange (k + 1) (d_nt A))
             ++ [sure (omp_ztrsm PlasmaRight uplo PlasmaNoTrans diag (tile_mview A m) nvak
                   n1 (tptr bA A k k) ldak (tptr bA A m k) (tile_mmain A m))])
             (zrange 0 k)
        ++ [omp_ztrtri uplo diag mvak (tptr bA A k k) ldak (d_nb A * k)])
        (zrange 0 (d_mt A)).

  (* compute/ztrtri.c:70-147 plasma_ztrtri with 201-248 plasma_omp_ztrtri (its argument checks
     cannot fail here). Not initialised: property C09; tuning: C10. *)
  Definition ztrtri (nb uplo diag n : Z) (pA : loc) (lda : Z) (bA : Z) : gdriver F :=
    if negb (uplo =? PlasmaUpper) && negb (uplo =? PlasmaLower) then GReturns (-1)
    else if negb (diag =? PlasmaUnit) && negb (diag =? PlasmaNonUnit) then GReturns (-2)
    else if n <? 0 then GReturns (-3)
    else if lda <? Z.max 1 n then GReturns (-5)
    else if Z.max n 0 =? 0 then GReturns PlasmaSuccess
    else
      with_gdesc (ge_create nb n n) (fun A =>
        GRuns (map sure (pzge2desc pA lda bA A)
               ++ (if d_n A =? 0 then [] else pztrtri uplo diag bA A)
               ++ map sure (pzdesc2ge bA A pA lda))).

  Variable rp : F -> F.

  (* the triangular matrix LAPACK zlauum works on: the diagonal is taken to be real
     (core_blas/core_zlauum.c:62-63; the real part as in core_rank_k, RankModel.v) *)
  Definition lauum_rd (M : mem F) (uplo : Z) (A : loc) (lda i j : Z) : F :=
    if uplo_sel uplo i j then if i =? j then rp (rd M A lda i j) else rd M A lda i j else n0.

  (* core_blas/core_zlauum.c:57-64 plasma_core_zlauum: calls LAPACK zlauum, whose effect is
     trusted: the triangle of U*U^H or L^H*L. Its diagonal is a sum of squares of absolute
     values, stored as a real number. *)
  Definition core_zlauum (uplo n : Z) (A : loc) (lda : Z) (M : mem F) : mem F :=
    mset A lda n n (uplo_sel uplo)
      (fun i j =>
        let v := if uplo =? PlasmaLower
                 then nsum (fun l => nmul (nconj (lauum_rd M uplo A lda l i)) (lauum_rd M uplo A lda l j)) 0 n
                 else nsum (fun l => nmul (lauum_rd M uplo A lda i l) (nconj (lauum_rd M uplo A lda j l))) 0 n in
        if i =? j then rp v else v) M.

  (* core_blas/core_zlauum.c:67-82 plasma_core_omp_zlauum: LAPACK zlauum fails only for
     illegal arguments, which are not passed here *)
  Definition omp_zlauum (uplo n : Z) (A : loc) (lda : Z) : ktask F :=
    {| k_deps := [dep_inout A];
       k_fun := core_zlauum uplo n A lda;
       k_reads := reg A lda n n (uplo_sel uplo);
       k_writes := reg A lda n n (uplo_sel uplo) |}.

  (* compute/pzlauum.c:27-128 plasma_pzlauum; A(m,n) is the macro of line 21. The early
     return for a failed sequence (lines 31-32) is left out as in pzpotrf. *)
  Definition pzlauum (uplo bA : Z) (A : desc) : list (ktask F) :=
    if uplo =? PlasmaLower then
      flat_map (fun k =>
        let mvak := tile_mview A k in
        let nvak := tile_nview A k in
        let ldak := tile_mmain A k in
        flat_map (fun n =>
          let mvan := tile_mview A n in
          let nvan := tile_nview A n in
          let ldan := tile_mmain A n in
          omp_rank_k rp PlasmaConjTrans uplo PlasmaConjTrans (Z.min mvan nvan) (Z.min mvak nvan)
            n1 (tptr bA A k n) ldak n1 (tptr bA A n n) ldan
          :: map (fun m =>
               omp_zgemm PlasmaConjTrans PlasmaNoTrans (tile_mview A m) nvan mvak
                 n1 (tptr bA A k m) ldak (tptr bA A k n) ldak
                 n1 (tptr bA A m n) (tile_mmain A m))
               (zrange (n + 1) k))
          (zrange 0 k)
        ++ map (fun n =>
             omp_ztrmm PlasmaLeft uplo PlasmaConjTrans PlasmaNonUnit mvak (tile_nview A n)
               n1 (tptr bA A k k) ldak (tptr bA A k n) ldak)
             (zrange 0 k)
        ++ [omp_zlauum uplo (Z.min mvak nvak) (tptr bA A k k) ldak])
        (zrange 0 (d_mt A))
    else
      flat_map (fun k =>
        let mvak := tile_mview A k in
        let nvak := tile_nview A k in
        let ldak := tile_mmain A k in
        flat_map (fun m =>
          let mvam := tile_mview A m in
          let nvam := tile_nview A m in
          let ldam := tile_mmain A m in
          omp_rank_k rp PlasmaConjTrans uplo PlasmaNoTrans (Z.min mvam nvam) (Z.min mvam nvak)
            n1 (tptr bA A m k) ldam n1 (tptr bA A m m) ldam
          :: map (fun n =>
               omp_zgemm PlasmaNoTrans PlasmaConjTrans mvam (tile_nview A n) nvak
                 n1 (tptr bA A m k) ldam (tptr bA A n k) (tile_mmain A n)
                 n1 (tptr bA A m n) ldam)
               (zrange (m + 1) k))
          (zrange 0 k)
        ++ map (fun m =>
             omp_ztrmm PlasmaRight uplo PlasmaConjTrans PlasmaNonUnit (tile_mview A m) nvak
               n1 (tptr bA A k k) ldak (tptr bA A m k) (tile_mmain A m))
             (zrange 0 k)
        ++ [omp_zlauum uplo (Z.min mvak nvak) (tptr bA A k k) ldak])
        (zrange 0 (d_mt A)).

  (* compute/zlauum.c:67-140 plasma_zlauum with 184-224 plasma_omp_zlauum (its argument checks
     cannot fail here). Not initialised: property C09; tuning: C10. *)
  Definition zlauum (nb uplo n : Z) (pA : loc) (lda : Z) (bA : Z) : driver F :=
    if negb (uplo =? PlasmaUpper) && negb (uplo =? PlasmaLower) then Returns (-1)
    else if n <? 0 then Returns (-2)
    else if lda <? Z.max 1 n then Returns (-4)
    else if Z.max n 0 =? 0 then Returns PlasmaSuccess
    else
      with_desc (ge_create nb n n) (fun A =>
        Runs (pzge2desc pA lda bA A
              ++ (if d_n A =? 0 then [] else pzlauum uplo bA A)
              ++ pzdesc2ge bA A pA lda)).

  (* compute/zpotri.c:65-140 plasma_zpotri with 187-231 plasma_omp_zpotri (its argument checks
     cannot fail here). Not initialised: property C09; tuning: C10. *)
  Definition zpotri (nb uplo n : Z) (pA : loc) (lda : Z) (bA : Z) : gdriver F :=
    if negb (uplo =? PlasmaUpper) && negb (uplo =? PlasmaLower) then GReturns (-1)
    else if n <? 0 then GReturns (-2)
    else if lda <? Z.max 1 n then GReturns (-4)
    else if Z.max n 0 =? 0 then GReturns PlasmaSuccess
    else
      with_gdesc (ge_create nb n n) (fun A =>
        GRuns (map sure (pzge2desc pA lda bA A)
               ++ (if d_n A =? 0 then []
                   else pztrtri uplo PlasmaNonUnit bA A ++ map sure (pzlauum uplo bA A))
               ++ map sure (pzdesc2ge bA A pA lda))).

  Variable R : roots F.

  (* compute/zpoinv.c:67-143 plasma_zpoinv with 187-234 plasma_omp_zpoinv (its argument checks
     cannot fail here). Not initialised: property C09; tuning: C10. *)
  Definition zpoinv (nb uplo n : Z) (pA : loc) (lda : Z) (bA : Z) : gdriver F :=
    if negb (uplo =? PlasmaUpper) && negb (uplo =? PlasmaLower) then GReturns (-1)
    else if n <? 0 then GReturns (-2)
    else if lda <? Z.max 1 n then GReturns (-4)
    else if Z.max n 0 =? 0 then GReturns PlasmaSuccess
    else
      with_gdesc (tr_create uplo nb n) (fun A =>
        GRuns (map sure (pztr2desc pA lda bA A)
               ++ (if d_n A =? 0 then []
                   else pzpotrf R rp uplo bA A ++ pztrtri uplo PlasmaNonUnit bA A
                        ++ map sure (pzlauum uplo bA A))
               ++ map sure (pzdesc2tr bA A pA lda))).
End Trtri.
