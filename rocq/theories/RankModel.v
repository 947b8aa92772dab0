(* Rank-k and rank-2k updates: compute/zsyrk.c, zherk.c, zsyr2k.c, zher2k.c and the
   corresponding pz*.c. The symmetric and the Hermitian files differ only in the
   transposition (PlasmaTrans or PlasmaConjTrans), called ct here, and in conj(alpha). *)
From Coq Require Import ZArith List Bool.
From Verif Require Import Base NumModel TaskModel TaskSpec DescModel DescDriverModel MatModel
  LayoutModel DriverModel.
Import ListNotations.
Open Scope Z_scope.

Section Rank.
  Context {N : numbers}.

  (* the second factor of op(A)*op(A)^T (^H): its operation on the stored A. Argument of
     plasma_core_omp_zgemm in compute/pzsyrk.c:66-67,86-87,121-122,142-143 *)
  Definition rank_t2 (ct trans : Z) : Z := if trans =? PlasmaNoTrans then ct else PlasmaNoTrans.

  (* core_blas/core_zsyrk.c:74-84 (ct = PlasmaTrans) and core_zherk.c:74-84
     (ct = PlasmaConjTrans): cblas_zsyrk/cblas_zherk, whose effect on the selected triangle
     is trusted. cblas_zherk also clears the imaginary part of the diagonal: that is rp,
     about which nothing is assumed except that it keeps real numbers (x = conj x); rp is
     the identity for cblas_zsyrk. *)
  Definition core_rank_k (rp : N -> N) (ct uplo trans n k : Z) (alpha : N) (A : loc) (lda : Z)
      (beta : N) (C : loc) (ldc : Z) (M : mem N) : mem N :=
    mset C ldc n n (uplo_sel uplo)
      (fun i j =>
        let v := nadd (nmul alpha (nsum (fun l => nmul (op_rd M trans A lda i l)
                                                       (op_rd M (rank_t2 ct trans) A lda l j)) 0 k))
                      (nmul beta (rd M C ldc i j)) in
        if i =? j then rp v else v) M.

  (* core_blas/core_zsyrk.c:87-109, core_zherk.c:87-108 *)
  Definition omp_rank_k (rp : N -> N) (ct uplo trans n k : Z) (alpha : N) (A : loc) (lda : Z)
      (beta : N) (C : loc) (ldc : Z) : ktask N :=
    {| k_deps := [dep_in A; dep_inout C];
       k_fun := core_rank_k rp ct uplo trans n k alpha A lda beta C ldc;
       k_reads := fun l => op_reg trans A lda n k l \/ reg C ldc n n (uplo_sel uplo) l;
       k_writes := reg C ldc n n (uplo_sel uplo) |}.

  (* core_blas/core_zsyr2k.c:86-98 (alpha2 = alpha) and core_zher2k.c:90-102
     (alpha2 = conj(alpha)); rp as above *)
  Definition core_rank_2k (rp : N -> N) (ct uplo trans n k : Z) (alpha alpha2 : N) (A : loc) (lda : Z)
      (B : loc) (ldb : Z) (beta : N) (C : loc) (ldc : Z) (M : mem N) : mem N :=
    mset C ldc n n (uplo_sel uplo)
      (fun i j =>
        let v :=
          nadd (nadd (nmul alpha (nsum (fun l => nmul (op_rd M trans A lda i l)
                                                      (op_rd M (rank_t2 ct trans) B ldb l j)) 0 k))
                     (nmul alpha2 (nsum (fun l => nmul (op_rd M trans B ldb i l)
                                                       (op_rd M (rank_t2 ct trans) A lda l j)) 0 k)))
               (nmul beta (rd M C ldc i j)) in
        if i =? j then rp v else v) M.

  (* core_blas/core_zsyr2k.c:101-131, core_zher2k.c:105-135 *)
  Definition omp_rank_2k (rp : N -> N) (ct uplo trans n k : Z) (alpha alpha2 : N) (A : loc) (lda : Z)
      (B : loc) (ldb : Z) (beta : N) (C : loc) (ldc : Z) : ktask N :=
    {| k_deps := [dep_in A; dep_in B; dep_inout C];
       k_fun := core_rank_2k rp ct uplo trans n k alpha alpha2 A lda B ldb beta C ldc;
       k_reads := fun l => op_reg trans A lda n k l \/ op_reg trans B ldb n k l
                           \/ reg C ldc n n (uplo_sel uplo) l;
       k_writes := reg C ldc n n (uplo_sel uplo) |}.

  (* compute/pzsyrk.c:28-155 plasma_pzsyrk (ct = PlasmaTrans), compute/pzherk.c:28-155
     plasma_pzherk (ct = PlasmaConjTrans), iteration n of the outer loop *)
  Definition prank_k_col (rp : N -> N) (ct uplo trans : Z) (alpha : N) (bA : Z) (A : desc) (beta : N)
      (bC : Z) (C : desc) (n : Z) : list (ktask N) :=
    let nvcn := tile_nview C n in
    let ldan := tile_mmain A n in
    let ldcn := tile_mmain C n in
    if trans =? PlasmaNoTrans then
      map (fun k =>
        let nvak := tile_nview A k in
        let zbeta := if k =? 0 then beta else n1 in
        omp_rank_k rp ct uplo trans nvcn nvak alpha (tptr bA A n k) ldan zbeta (tptr bC C n n) ldcn)
        (zrange 0 (d_nt A)) ++
      (if uplo =? PlasmaLower then
         flat_map (fun m =>
           let mvcm := tile_mview C m in
           let ldam := tile_mmain A m in
           let ldcm := tile_mmain C m in
           map (fun k =>
             let nvak := tile_nview A k in
             let zbeta := if k =? 0 then beta else n1 in
             omp_zgemm trans ct mvcm nvcn nvak alpha (tptr bA A m k) ldam
               (tptr bA A n k) ldan zbeta (tptr bC C m n) ldcm)
             (zrange 0 (d_nt A))) (zrange (n + 1) (d_mt C))
       else
         flat_map (fun m =>
           let mvcm := tile_mview C m in
           let ldam := tile_mmain A m in
           map (fun k =>
             let nvak := tile_nview A k in
             let zbeta := if k =? 0 then beta else n1 in
             omp_zgemm trans ct nvcn mvcm nvak alpha (tptr bA A n k) ldan
               (tptr bA A m k) ldam zbeta (tptr bC C n m) ldcn)
             (zrange 0 (d_nt A))) (zrange (n + 1) (d_mt C)))
    else
      map (fun k =>
        let mvak := tile_mview A k in
        let ldak := tile_mmain A k in
        let zbeta := if k =? 0 then beta else n1 in
        omp_rank_k rp ct uplo trans nvcn mvak alpha (tptr bA A k n) ldak zbeta (tptr bC C n n) ldcn)
        (zrange 0 (d_mt A)) ++
      (if uplo =? PlasmaLower then
         flat_map (fun m =>
           let mvcm := tile_mview C m in
           let ldcm := tile_mmain C m in
           map (fun k =>
             let mvak := tile_mview A k in
             let ldak := tile_mmain A k in
             let zbeta := if k =? 0 then beta else n1 in
             omp_zgemm trans PlasmaNoTrans mvcm nvcn mvak alpha (tptr bA A k m) ldak
               (tptr bA A k n) ldak zbeta (tptr bC C m n) ldcm)
             (zrange 0 (d_mt A))) (zrange (n + 1) (d_mt C))
       else
         flat_map (fun m =>
           let mvcm := tile_mview C m in
           map (fun k =>
             let mvak := tile_mview A k in
             let ldak := tile_mmain A k in
             let zbeta := if k =? 0 then beta else n1 in
             omp_zgemm trans PlasmaNoTrans nvcn mvcm mvak alpha (tptr bA A k n) ldak
               (tptr bA A k m) ldak zbeta (tptr bC C n m) ldcn)
             (zrange 0 (d_mt A))) (zrange (n + 1) (d_mt C))).

  (* compute/pzsyrk.c:37-154, compute/pzherk.c:37-154: the outer loop *)
  Definition prank_k (rp : N -> N) (ct uplo trans : Z) (alpha : N) (bA : Z) (A : desc) (beta : N)
      (bC : Z) (C : desc) : list (ktask N) :=
    flat_map (prank_k_col rp ct uplo trans alpha bA A beta bC C) (zrange 0 (d_nt C)).

  (* compute/pzsyr2k.c:29-192 plasma_pzsyr2k, compute/pzher2k.c:29-192 plasma_pzher2k,
     iteration n of the outer loop. Note the leading dimensions ldam, ldan of A used for
     tiles of B in the branch PlasmaNoTrans (pzsyr2k.c:80, 108). *)
  Definition prank_2k_col (rp : N -> N) (ct uplo trans : Z) (alpha alpha2 : N) (bA : Z) (A : desc) (bB : Z) (B : desc)
      (beta : N) (bC : Z) (C : desc) (n : Z) : list (ktask N) :=
    let nvcn := tile_nview C n in
    let ldan := tile_mmain A n in
    let ldbn := tile_mmain B n in
    let ldcn := tile_mmain C n in
    if trans =? PlasmaNoTrans then
      map (fun k =>
        let nvak := tile_nview A k in
        let zbeta := if k =? 0 then beta else n1 in
        omp_rank_2k rp ct uplo trans nvcn nvak alpha alpha2 (tptr bA A n k) ldan (tptr bB B n k) ldbn
          zbeta (tptr bC C n n) ldcn)
        (zrange 0 (d_nt A)) ++
      (if uplo =? PlasmaLower then
         flat_map (fun m =>
           let mvcm := tile_mview C m in
           let ldam := tile_mmain A m in
           let ldcm := tile_mmain C m in
           flat_map (fun k =>
             let nvak := tile_nview A k in
             let zbeta := if k =? 0 then beta else n1 in
             [omp_zgemm trans ct mvcm nvcn nvak alpha (tptr bA A m k) ldam
                (tptr bB B n k) ldbn zbeta (tptr bC C m n) ldcm;
              omp_zgemm trans ct mvcm nvcn nvak alpha2 (tptr bB B m k) ldam
                (tptr bA A n k) ldan n1 (tptr bC C m n) ldcm])
             (zrange 0 (d_nt A))) (zrange (n + 1) (d_mt C))
       else
         flat_map (fun m =>
           let mvcm := tile_mview C m in
           let ldam := tile_mmain A m in
           let ldbm := tile_mmain B m in
           flat_map (fun k =>
             let nvak := tile_nview A k in
             let zbeta := if k =? 0 then beta else n1 in
             [omp_zgemm trans ct nvcn mvcm nvak alpha (tptr bA A n k) ldan
                (tptr bB B m k) ldbm zbeta (tptr bC C n m) ldcn;
              omp_zgemm trans ct nvcn mvcm nvak alpha2 (tptr bB B n k) ldan
                (tptr bA A m k) ldam n1 (tptr bC C n m) ldcn])
             (zrange 0 (d_nt A))) (zrange (n + 1) (d_mt C)))
    else
      map (fun k =>
        let mvak := tile_mview A k in
        let ldak := tile_mmain A k in
        let ldbk := tile_mmain B k in
        let zbeta := if k =? 0 then beta else n1 in
        omp_rank_2k rp ct uplo trans nvcn mvak alpha alpha2 (tptr bA A k n) ldak (tptr bB B k n) ldbk
          zbeta (tptr bC C n n) ldcn)
        (zrange 0 (d_mt A)) ++
      (if uplo =? PlasmaLower then
         flat_map (fun m =>
           let mvcm := tile_mview C m in
           let ldcm := tile_mmain C m in
           flat_map (fun k =>
             let mvak := tile_mview A k in
             let ldak := tile_mmain A k in
             let ldbk := tile_mmain B k in
             let zbeta := if k =? 0 then beta else n1 in
             [omp_zgemm trans PlasmaNoTrans mvcm nvcn mvak alpha (tptr bA A k m) ldak
                (tptr bB B k n) ldbk zbeta (tptr bC C m n) ldcm;
              omp_zgemm trans PlasmaNoTrans mvcm nvcn mvak alpha2 (tptr bB B k m) ldbk
                (tptr bA A k n) ldak n1 (tptr bC C m n) ldcm])
             (zrange 0 (d_mt A))) (zrange (n + 1) (d_mt C))
       else
         flat_map (fun m =>
           let mvcm := tile_mview C m in
           flat_map (fun k =>
             let mvak := tile_mview A k in
             let ldak := tile_mmain A k in
             let ldbk := tile_mmain B k in
             let zbeta := if k =? 0 then beta else n1 in
             [omp_zgemm trans PlasmaNoTrans nvcn mvcm mvak alpha (tptr bA A k n) ldak
                (tptr bB B k m) ldbk zbeta (tptr bC C n m) ldcn;
              omp_zgemm trans PlasmaNoTrans nvcn mvcm mvak alpha2 (tptr bB B k n) ldbk
                (tptr bA A k m) ldak n1 (tptr bC C n m) ldcn])
             (zrange 0 (d_mt A))) (zrange (n + 1) (d_mt C))).

  (* compute/pzsyr2k.c:39-191, compute/pzher2k.c:39-191: the outer loop *)
  Definition prank_2k (rp : N -> N) (ct uplo trans : Z) (alpha alpha2 : N) (bA : Z) (A : desc) (bB : Z) (B : desc)
      (beta : N) (bC : Z) (C : desc) : list (ktask N) :=
    flat_map (prank_2k_col rp ct uplo trans alpha alpha2 bA A bB B beta bC C) (zrange 0 (d_nt C)).

  (* compute/zsyrk.c:89-203 plasma_zsyrk with 263-320 plasma_omp_zsyrk (ct = PlasmaTrans);
     compute/zherk.c:87-201 with 261-318 (ct = PlasmaConjTrans; alpha and beta are real).
     Not initialised: property C09; tuning: property C10. The second quick return, in the
     asynchronous function, repeats the first. *)
  Definition rank_k (rp : N -> N) (ct nb uplo trans n k : Z) (alpha : N) (pA : loc) (lda : Z)
      (beta : N) (pC : loc) (ldc : Z) (bA bC : Z) : driver N :=
    if negb ((uplo =? PlasmaUpper) || (uplo =? PlasmaLower)) then Returns (-1)
    else if negb ((trans =? PlasmaNoTrans) || (trans =? ct)) then Returns (-2)
    else if n <? 0 then Returns (-3)
    else if k <? 0 then Returns (-4)
    else
      let am := if trans =? PlasmaNoTrans then n else k in
      let an := if trans =? PlasmaNoTrans then k else n in
      if lda <? Z.max 1 am then Returns (-7)
      else if ldc <? Z.max 1 n then Returns (-10)
      else if (n =? 0) || ((neqb alpha n0 || (k =? 0)) && neqb beta n1) then Returns PlasmaSuccess
      else
        with_desc (ge_create nb am an) (fun A =>
        with_desc (ge_create nb n n) (fun C =>
          Runs (pzge2desc pA lda bA A ++ pzge2desc pC ldc bC C
                ++ (let k := if trans =? PlasmaNoTrans then d_n A else d_m A in
                    if (d_m C =? 0) || ((neqb alpha n0 || (k =? 0)) && neqb beta n1) then []
                    else prank_k rp ct uplo trans alpha bA A beta bC C)
                ++ pzdesc2ge bC C pC ldc))).

  (* compute/zsyrk.c:89-203 *)
  Definition zsyrk := rank_k (fun x => x) PlasmaTrans.
  (* compute/zherk.c:87-201 *)
  Definition zherk (rp : N -> N) := rank_k rp PlasmaConjTrans.

  (* compute/zsyr2k.c:101-237 plasma_zsyr2k with 300-362 plasma_omp_zsyr2k; compute/zher2k.c:
     101-237 with 302-364 *)
  Definition rank_2k (rp : N -> N) (ct nb uplo trans n k : Z) (alpha alpha2 : N) (pA : loc) (lda : Z)
      (pB : loc) (ldb : Z) (beta : N) (pC : loc) (ldc : Z) (bA bB bC : Z) : driver N :=
    if negb ((uplo =? PlasmaUpper) || (uplo =? PlasmaLower)) then Returns (-1)
    else if negb ((trans =? PlasmaNoTrans) || (trans =? ct)) then Returns (-2)
    else if n <? 0 then Returns (-3)
    else if k <? 0 then Returns (-4)
    else
      let am := if trans =? PlasmaNoTrans then n else k in
      let an := if trans =? PlasmaNoTrans then k else n in
      if lda <? Z.max 1 am then Returns (-7)
      else if ldb <? Z.max 1 am then Returns (-9)
      else if ldc <? Z.max 1 n then Returns (-12)
      else if (n =? 0) || ((neqb alpha n0 || (k =? 0)) && neqb beta n1) then Returns PlasmaSuccess
      else
        with_desc (ge_create nb am an) (fun A =>
        with_desc (ge_create nb am an) (fun B =>
        with_desc (ge_create nb n n) (fun C =>
          Runs (pzge2desc pA lda bA A ++ pzge2desc pB ldb bB B ++ pzge2desc pC ldc bC C
                ++ (let k := if trans =? PlasmaNoTrans then d_n A else d_m A in
                    if (d_m C =? 0) || ((neqb alpha n0 || (k =? 0)) && neqb beta n1) then []
                    else prank_2k rp ct uplo trans alpha alpha2 bA A bB B beta bC C)
                ++ pzdesc2ge bC C pC ldc)))).

  (* compute/zsyr2k.c:101-237 *)
  Definition zsyr2k (nb uplo trans n k : Z) (alpha : N) :=
    rank_2k (fun x => x) PlasmaTrans nb uplo trans n k alpha alpha.
  (* compute/zher2k.c:101-237 *)
  Definition zher2k (rp : N -> N) (nb uplo trans n k : Z) (alpha : N) :=
    rank_2k rp PlasmaConjTrans nb uplo trans n k alpha (nconj alpha).
End Rank.
