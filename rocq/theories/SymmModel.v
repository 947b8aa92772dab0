(* Symmetric and Hermitian matrix multiply: compute/zsymm.c, zhemm.c, pzsymm.c, pzhemm.c. The
   two versions differ only in the transposition (PlasmaTrans or PlasmaConjTrans), called ct
   here, and in the kernel name. *)
From Coq Require Import ZArith List Bool.
From Verif Require Import Base NumModel TaskModel TaskSpec DescModel DescDriverModel MatModel
  LayoutModel DriverModel.
Import ListNotations.
Open Scope Z_scope.

Section Symm.
  Context {N : numbers}.

  (* element (i,j) of the symmetric (Hermitian) matrix of which only the triangle uplo is
     stored, as cblas_zsymm (cblas_zhemm) reads it; rp: what is used of a diagonal element,
     the real part for cblas_zhemm and everything for cblas_zsymm. core_blas/core_zsymm.c:87-92,
     core_zhemm.c:87-92 *)
  Definition sym_rd (M : mem N) (rp : N -> N) (ct uplo : Z) (A : loc) (lda i j : Z) : N :=
    if i =? j then rp (rd M A lda i i)
    else if uplo_sel uplo i j then rd M A lda i j
    else op_rd M ct A lda i j.

  (* core_blas/core_zsymm.c:81-93 and core_zhemm.c:81-93 *)
  Definition core_sym_mm (rp : N -> N) (ct side uplo m n : Z) (alpha : N) (A : loc) (lda : Z)
      (B : loc) (ldb : Z) (beta : N) (C : loc) (ldc : Z) (M : mem N) : mem N :=
    mset C ldc m n everywhere
      (fun i j =>
        nadd (nmul alpha
                (if side =? PlasmaLeft
                 then nsum (fun l => nmul (sym_rd M rp ct uplo A lda i l) (rd M B ldb l j)) 0 m
                 else nsum (fun l => nmul (rd M B ldb i l) (sym_rd M rp ct uplo A lda l j)) 0 n))
             (nmul beta (rd M C ldc i j))) M.

  (* core_blas/core_zsymm.c:96-121, core_zhemm.c:96-121 *)
  Definition omp_sym_mm (rp : N -> N) (ct side uplo m n : Z) (alpha : N) (A : loc) (lda : Z)
      (B : loc) (ldb : Z) (beta : N) (C : loc) (ldc : Z) : ktask N :=
    let ak := if side =? PlasmaLeft then m else n in
    {| k_deps := [dep_in A; dep_in B; dep_inout C];
       k_fun := core_sym_mm rp ct side uplo m n alpha A lda B ldb beta C ldc;
       k_reads := fun l => reg A lda ak ak (uplo_sel uplo) l \/ reg B ldb m n everywhere l
                           \/ reg C ldc m n everywhere l;
       k_writes := reg C ldc m n everywhere |}.

  (* compute/pzsymm.c:40-208, pzhemm.c:40-208: the loop over k for the tile (m,n) of C *)
  Definition psym_mm_tile (rp : N -> N) (ct side uplo : Z) (alpha : N) (bA : Z) (A : desc) (bB : Z) (B : desc)
      (beta : N) (bC : Z) (C : desc) (m n : Z) : list (ktask N) :=
    let mvcm := tile_mview C m in
    let ldcm := tile_mmain C m in
    let nvcn := tile_nview C n in
    if side =? PlasmaLeft then
      let ldam := tile_mmain A m in
      if uplo =? PlasmaLower then
        map (fun k =>
          let mvck := tile_mview C k in
          let ldak := tile_mmain A k in
          let ldbk := tile_mmain B k in
          let zbeta := if k =? 0 then beta else n1 in
          if k <? m then
            omp_zgemm PlasmaNoTrans PlasmaNoTrans mvcm nvcn mvck alpha (tptr bA A m k) ldam
              (tptr bB B k n) ldbk zbeta (tptr bC C m n) ldcm
          else if k =? m then
            omp_sym_mm rp ct side uplo mvcm nvcn alpha (tptr bA A k k) ldak
              (tptr bB B k n) ldbk zbeta (tptr bC C m n) ldcm
          else
            omp_zgemm ct PlasmaNoTrans mvcm nvcn mvck alpha (tptr bA A k m) ldak
              (tptr bB B k n) ldbk zbeta (tptr bC C m n) ldcm)
          (zrange 0 (d_mt C))
      else
        map (fun k =>
          let mvck := tile_mview C k in
          let ldak := tile_mmain A k in
          let ldbk := tile_mmain B k in
          let zbeta := if k =? 0 then beta else n1 in
          if k <? m then
            omp_zgemm ct PlasmaNoTrans mvcm nvcn mvck alpha (tptr bA A k m) ldak
              (tptr bB B k n) ldbk zbeta (tptr bC C m n) ldcm
          else if k =? m then
            omp_sym_mm rp ct side uplo mvcm nvcn alpha (tptr bA A k k) ldak
              (tptr bB B k n) ldbk zbeta (tptr bC C m n) ldcm
          else
            omp_zgemm PlasmaNoTrans PlasmaNoTrans mvcm nvcn mvck alpha (tptr bA A m k) ldam
              (tptr bB B k n) ldbk zbeta (tptr bC C m n) ldcm)
          (zrange 0 (d_mt C))
    else
      let ldan := tile_mmain A n in
      let ldbm := tile_mmain B m in
      if uplo =? PlasmaLower then
        map (fun k =>
          let nvck := tile_nview C k in
          let ldak := tile_mmain A k in
          let zbeta := if k =? 0 then beta else n1 in
          if k <? n then
            omp_zgemm PlasmaNoTrans ct mvcm nvcn nvck alpha (tptr bB B m k) ldbm
              (tptr bA A n k) ldan zbeta (tptr bC C m n) ldcm
          else if n =? k then
            omp_sym_mm rp ct side uplo mvcm nvcn alpha (tptr bA A k k) ldak
              (tptr bB B m k) ldbm zbeta (tptr bC C m n) ldcm
          else
            omp_zgemm PlasmaNoTrans PlasmaNoTrans mvcm nvcn nvck alpha (tptr bB B m k) ldbm
              (tptr bA A k n) ldak zbeta (tptr bC C m n) ldcm)
          (zrange 0 (d_nt C))
      else
        map (fun k =>
          let nvck := tile_nview C k in
          let ldak := tile_mmain A k in
          let zbeta := if k =? 0 then beta else n1 in
          if k <? n then
            omp_zgemm PlasmaNoTrans PlasmaNoTrans mvcm nvcn nvck alpha (tptr bB B m k) ldbm
              (tptr bA A k n) ldak zbeta (tptr bC C m n) ldcm
          else if n =? k then
            omp_sym_mm rp ct side uplo mvcm nvcn alpha (tptr bA A k k) ldak
              (tptr bB B m k) ldbm zbeta (tptr bC C m n) ldcm
          else
            omp_zgemm PlasmaNoTrans ct mvcm nvcn nvck alpha (tptr bB B m k) ldbm
              (tptr bA A n k) ldan zbeta (tptr bC C m n) ldcm)
          (zrange 0 (d_nt C)).

  (* compute/pzsymm.c:29-211 plasma_pzsymm, pzhemm.c:29-211 plasma_pzhemm *)
  Definition psym_mm (rp : N -> N) (ct side uplo : Z) (alpha : N) (bA : Z) (A : desc) (bB : Z) (B : desc)
      (beta : N) (bC : Z) (C : desc) : list (ktask N) :=
    flat_map (fun m => flat_map (psym_mm_tile rp ct side uplo alpha bA A bB B beta bC C m)
                         (zrange 0 (d_nt C))) (zrange 0 (d_mt C)).

  (* compute/zsymm.c:96-222 plasma_zsymm with 279-342 plasma_omp_zsymm (ct = PlasmaTrans);
     compute/zhemm.c:94-221 with 275-338 (ct = PlasmaConjTrans). Not initialised: property
     C09; tuning: C10. *)
  Definition sym_mm (rp : N -> N) (ct nb side uplo m n : Z) (alpha : N) (pA : loc) (lda : Z)
      (pB : loc) (ldb : Z) (beta : N) (pC : loc) (ldc : Z) (bA bB bC : Z) : driver N :=
    if negb ((side =? PlasmaLeft) || (side =? PlasmaRight)) then Returns (-1)
    else if negb ((uplo =? PlasmaLower) || (uplo =? PlasmaUpper)) then Returns (-2)
    else if m <? 0 then Returns (-3)
    else if n <? 0 then Returns (-4)
    else
      let am := if side =? PlasmaLeft then m else n in
      if lda <? Z.max 1 am then Returns (-7)
      else if ldb <? Z.max 1 m then Returns (-9)
      else if ldc <? Z.max 1 m then Returns (-12)
      else if (m =? 0) || (n =? 0) || (neqb alpha n0 && neqb beta n1) then Returns PlasmaSuccess
      else
        with_desc (ge_create nb am am) (fun A =>
        with_desc (ge_create nb m n) (fun B =>
        with_desc (ge_create nb m n) (fun C =>
          Runs (pzge2desc pA lda bA A ++ pzge2desc pB ldb bB B ++ pzge2desc pC ldc bC C
                ++ (if (d_m C =? 0) || (d_n C =? 0) || ((neqb alpha n0 || (d_n A =? 0)) && neqb beta n1) then []
                    else psym_mm rp ct side uplo alpha bA A bB B beta bC C)
                ++ pzdesc2ge bC C pC ldc)))).

  (* compute/zsymm.c:96-222 *)
  Definition zsymm := sym_mm (fun x => x) PlasmaTrans.
  (* compute/zhemm.c:94-221 *)
  Definition zhemm (rp : N -> N) := sym_mm rp PlasmaConjTrans.
End Symm.
