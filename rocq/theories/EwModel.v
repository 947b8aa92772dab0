(* Element-wise operations: compute/zgeadd.c, ztradd.c, zlacpy.c, zlascl.c, zlaset.c. *)
From Coq Require Import ZArith List Bool.
From Verif Require Import Base NumModel FieldModel TaskModel TaskSpec DescModel DescDriverModel
  MatModel LayoutModel DriverModel LasetModel.
Import ListNotations.
Open Scope Z_scope.

(* e.g. compute/zgeadd.c:103-105: transa is one of the three legal values *)
Definition ew_trans (t : Z) : bool := (t =? PlasmaNoTrans) || (t =? PlasmaTrans) || (t =? PlasmaConjTrans).
(* e.g. compute/ztradd.c:108-109 *)
Definition ew_uplo (u : Z) : bool := (u =? PlasmaUpper) || (u =? PlasmaLower).
(* e.g. compute/zlacpy.c:87-89 *)
Definition ew_uplo3 (u : Z) : bool := (u =? PlasmaGeneral) || (u =? PlasmaUpper) || (u =? PlasmaLower).

Section Ew.
  Context {N : numbers}.

  (* core_blas/core_zgeadd.c:80-111: the argument checks (the pointers are not NULL) *)
  Definition core_zgeadd_check (transa m n lda ldb : Z) : Z :=
    if negb (ew_trans transa) then -1
    else if m <? 0 then -2
    else if n <? 0 then -3
    else if ((transa =? PlasmaNoTrans) && (lda <? Z.max 1 m) && (0 <? m))
            || (negb (transa =? PlasmaNoTrans) && (lda <? Z.max 1 n) && (0 <? n)) then -6
    else if (ldb <? Z.max 1 m) && (0 <? m) then -9
    else 0.

  (* core_blas/core_zgeadd.c:113-136: B := beta*B + alpha*op(A); nothing is done if a check
     failed (the task then reports PlasmaErrorInternal, core_zgeadd.c:157-160: the theorems
     show that no check fails for the tiles of a matrix) *)
  Definition core_zgeadd (transa m n : Z) (alpha : N) (A : loc) (lda : Z) (beta : N) (B : loc) (ldb : Z)
      (M : mem N) : mem N :=
    if negb (core_zgeadd_check transa m n lda ldb =? 0) then M
    else if (m =? 0) || (n =? 0) || (neqb alpha n0 && neqb beta n1) then M
    else mset B ldb m n everywhere
           (fun i j => nadd (nmul beta (rd M B ldb i j)) (nmul alpha (op_rd M transa A lda i j))) M.

  (* core_blas/core_zgeadd.c:140-163 plasma_core_omp_zgeadd; the test of sequence->status is
     left out as in omp_zgemm *)
  Definition omp_zgeadd (transa m n : Z) (alpha : N) (A : loc) (lda : Z) (beta : N) (B : loc) (ldb : Z)
      : ktask N :=
    {| k_deps := [dep_in A; dep_inout B];
       k_fun := core_zgeadd transa m n alpha A lda beta B ldb;
       k_reads := fun l => op_reg transa A lda m n l \/ reg B ldb m n everywhere l;
       k_writes := reg B ldb m n everywhere |}.

  (* core_blas/core_ztradd.c:85-127: the argument checks *)
  Definition core_ztradd_check (uplo transa m n lda ldb : Z) : Z :=
    if negb (ew_uplo uplo) then -1
    else if negb (ew_trans transa) then -2
    else if m <? 0 then -3
    else if n <? 0 then -4
    else if ((transa =? PlasmaNoTrans) && (lda <? Z.max 1 m) && (0 <? m))
            || (negb (transa =? PlasmaNoTrans) && (lda <? Z.max 1 n) && (0 <? n)) then -7
    else if (ldb <? Z.max 1 m) && (0 <? m) then -10
    else 0.

  (* core_blas/core_ztradd.c:129-182: the same for the elements j <= i < m (lower) or
     0 <= i < imin(j+1, m) (upper) *)
  Definition core_ztradd (uplo transa m n : Z) (alpha : N) (A : loc) (lda : Z) (beta : N) (B : loc) (ldb : Z)
      (M : mem N) : mem N :=
    if negb (core_ztradd_check uplo transa m n lda ldb =? 0) then M
    else if (m =? 0) || (n =? 0) || (neqb alpha n0 && neqb beta n1) then M
    else mset B ldb m n (fun i j => if uplo =? PlasmaLower then j <=? i else i <? Z.min (j + 1) m)
           (fun i j => nadd (nmul beta (rd M B ldb i j)) (nmul alpha (op_rd M transa A lda i j))) M.

  (* core_blas/core_ztradd.c:186-209 plasma_core_omp_ztradd. The footprint read is given as
     the whole tiles. *)
  Definition omp_ztradd (uplo transa m n : Z) (alpha : N) (A : loc) (lda : Z) (beta : N) (B : loc) (ldb : Z)
      : ktask N :=
    {| k_deps := [dep_in A; dep_inout B];
       k_fun := core_ztradd uplo transa m n alpha A lda beta B ldb;
       k_reads := fun l => op_reg transa A lda m n l \/ reg B ldb m n everywhere l;
       k_writes := reg B ldb m n (fun i j => if uplo =? PlasmaLower then j <=? i else i <? Z.min (j + 1) m) |}.

  (* core_blas/core_zlacpy.c:60-111 plasma_core_zlacpy with both transpositions: element (i,j) of
     the m x n matrix A goes to (i,j) or (j,i) of B. For a transposed lower triangle the C
     loop runs to j <= imin(i, n), one element too far when m > n; plasma_zlacpy refuses
     m <> n (compute/zlacpy.c:105-108), and the model stops at j < n. Any uplo other than the
     three legal ones copies everything here, nothing in C when transposed. *)
  Definition core_zlacpy_t (uplo transa m n : Z) (A : loc) (lda : Z) (B : loc) (ldb : Z)
      (M : mem N) : mem N :=
    if transa =? PlasmaNoTrans then core_zlacpy uplo m n A lda B ldb M
    else if transa =? PlasmaTrans
         then mset B ldb n m (fun j i => uplo_sel uplo i j) (fun j i => rd M A lda i j) M
         else mset B ldb n m (fun j i => uplo_sel uplo i j) (fun j i => nconj (rd M A lda i j)) M.

  (* core_blas/core_zlacpy.c:114-129 plasma_core_omp_zlacpy *)
  Definition omp_zlacpy_t (uplo transa m n : Z) (A : loc) (lda : Z) (B : loc) (ldb : Z) : ktask N :=
    {| k_deps := [dep_in A; dep_out B];
       k_fun := core_zlacpy_t uplo transa m n A lda B ldb;
       k_reads := reg A lda m n (uplo_sel uplo);
       k_writes := if transa =? PlasmaNoTrans then reg B ldb m n (uplo_sel uplo)
                   else reg B ldb n m (fun j i => uplo_sel uplo i j) |}.

  (* compute/pzgeadd.c:28-73 plasma_pzgeadd *)
  Definition pzgeadd (transa : Z) (alpha : N) (bA : Z) (A : desc) (beta : N) (bB : Z) (B : desc)
      : list (ktask N) :=
    if transa =? PlasmaNoTrans then
      flat_map (fun m =>
        let mvbm := tile_mview B m in
        let ldam := tile_mmain A m in
        let ldbm := tile_mmain B m in
        map (fun n =>
          let nvbn := tile_nview B n in
          omp_zgeadd transa mvbm nvbn alpha (tptr bA A m n) ldam beta (tptr bB B m n) ldbm)
        (zrange 0 (d_nt B))) (zrange 0 (d_mt B))
    else
      flat_map (fun m =>
        let mvbm := tile_mview B m in
        let ldbm := tile_mmain B m in
        map (fun n =>
          let nvbn := tile_nview B n in
          let ldan := tile_mmain A n in
          omp_zgeadd transa mvbm nvbn alpha (tptr bA A n m) ldan beta (tptr bB B m n) ldbm)
        (zrange 0 (d_nt B))) (zrange 0 (d_mt B)).

  (* compute/pztradd.c:28-155 plasma_pztradd *)
  Definition pztradd (uplo transa : Z) (alpha : N) (bA : Z) (A : desc) (beta : N) (bB : Z) (B : desc)
      : list (ktask N) :=
    if uplo =? PlasmaLower then
      if transa =? PlasmaNoTrans then
        flat_map (fun n =>
          let mvbn := tile_mview B n in
          let nvbn := tile_nview B n in
          let ldan := tile_mmain A n in
          let ldbn := tile_mmain B n in
          omp_ztradd uplo transa mvbn nvbn alpha (tptr bA A n n) ldan beta (tptr bB B n n) ldbn
          :: map (fun m =>
               let mvbm := tile_mview B m in
               let ldam := tile_mmain A m in
               let ldbm := tile_mmain B m in
               omp_zgeadd transa mvbm nvbn alpha (tptr bA A m n) ldam beta (tptr bB B m n) ldbm)
             (zrange (n + 1) (d_mt B))) (zrange 0 (Z.min (d_mt B) (d_nt B)))
      else
        flat_map (fun n =>
          let mvbn := tile_mview B n in
          let nvbn := tile_nview B n in
          let ldan := tile_mmain A n in
          let ldbn := tile_mmain B n in
          omp_ztradd uplo transa mvbn nvbn alpha (tptr bA A n n) ldan beta (tptr bB B n n) ldbn
          :: map (fun m =>
               let mvbm := tile_mview B m in
               let ldbm := tile_mmain B m in
               omp_zgeadd transa mvbm nvbn alpha (tptr bA A n m) ldan beta (tptr bB B m n) ldbm)
             (zrange (n + 1) (d_mt B))) (zrange 0 (Z.min (d_mt B) (d_nt B)))
    else if uplo =? PlasmaUpper then
      if transa =? PlasmaNoTrans then
        flat_map (fun m =>
          let mvbm := tile_mview B m in
          let nvbm := tile_nview B m in
          let ldam := tile_mmain A m in
          let ldbm := tile_mmain B m in
          omp_ztradd uplo transa mvbm nvbm alpha (tptr bA A m m) ldam beta (tptr bB B m m) ldbm
          :: map (fun n =>
               let nvbn := tile_nview B n in
               omp_zgeadd transa mvbm nvbn alpha (tptr bA A m n) ldam beta (tptr bB B m n) ldbm)
             (zrange (m + 1) (d_nt B))) (zrange 0 (Z.min (d_mt B) (d_nt B)))
      else
        flat_map (fun m =>
          let mvbm := tile_mview B m in
          let nvbm := tile_nview B m in
          let ldam := tile_mmain A m in
          let ldbm := tile_mmain B m in
          omp_ztradd uplo transa mvbm nvbm alpha (tptr bA A m m) ldam beta (tptr bB B m m) ldbm
          :: map (fun n =>
               let nvbn := tile_nview B n in
               let ldan := tile_mmain A n in
               omp_zgeadd transa mvbm nvbn alpha (tptr bA A n m) ldan beta (tptr bB B m n) ldbm)
             (zrange (m + 1) (d_nt B))) (zrange 0 (Z.min (d_mt B) (d_nt B)))
    else [].

  (* compute/pzlacpy.c:26-144 plasma_pzlacpy: the task for a tile off the diagonal, or in the
     general case, pzlacpy.c:54-72, 94-112, 125-143 *)
  Definition lacpy_tile (transa bA : Z) (A : desc) (bB : Z) (B : desc) (m n : Z) : ktask N :=
    if transa =? PlasmaNoTrans
    then omp_zlacpy_t PlasmaGeneral transa (tile_mview A m) (tile_nview A n)
           (tptr bA A m n) (tile_mmain A m) (tptr bB B m n) (tile_mmain B m)
    else omp_zlacpy_t PlasmaGeneral transa (tile_mview A m) (tile_nview A n)
           (tptr bA A m n) (tile_mmain A m) (tptr bB B n m) (tile_mmain B n).
  (* compute/pzlacpy.c:26-144 plasma_pzlacpy *)
  Definition pzlacpy (uplo transa bA : Z) (A : desc) (bB : Z) (B : desc) : list (ktask N) :=
    if uplo =? PlasmaUpper then
      flat_map (fun m =>
        (if m <? d_nt A
         then [omp_zlacpy_t PlasmaUpper transa (tile_mview A m) (tile_nview A m)
                 (tptr bA A m m) (tile_mmain A m) (tptr bB B m m) (tile_mmain B m)]
         else []) ++
        map (lacpy_tile transa bA A bB B m) (zrange (m + 1) (d_nt A))) (zrange 0 (d_mt A))
    else if uplo =? PlasmaLower then
      flat_map (fun m =>
        (if m <? d_nt A
         then [omp_zlacpy_t PlasmaLower transa (tile_mview A m) (tile_nview A m)
                 (tptr bA A m m) (tile_mmain A m) (tptr bB B m m) (tile_mmain B m)]
         else []) ++
        map (lacpy_tile transa bA A bB B m) (zrange 0 (Z.min m (d_nt A)))) (zrange 0 (d_mt A))
    else
      flat_map (fun m => map (lacpy_tile transa bA A bB B m) (zrange 0 (d_nt A))) (zrange 0 (d_mt A)).

  (* compute/zgeadd.c:268-320 plasma_omp_zgeadd (its checks pass for created descriptors, C07) *)
  Definition omp_async_zgeadd (transa : Z) (alpha : N) (bA : Z) (A : desc) (beta : N) (bB : Z) (B : desc)
      : list (ktask N) :=
    let am := if transa =? PlasmaNoTrans then d_m A else d_n A in
    if (neqb alpha n0 || (am =? 0)) && neqb beta n1 then []
    else pzgeadd transa alpha bA A beta bB B.

  (* compute/zgeadd.c:90-211 plasma_zgeadd. Both matrices are translated back. *)
  Definition zgeadd (nb transa m n : Z) (alpha : N) (pA : loc) (lda : Z) (beta : N) (pB : loc) (ldb : Z)
      (bA bB : Z) : driver N :=
    if negb (ew_trans transa) then Returns (-1)
    else if m <? 0 then Returns (-2)
    else if n <? 0 then Returns (-3)
    else
      let am := if transa =? PlasmaNoTrans then m else n in
      let an := if transa =? PlasmaNoTrans then n else m in
      if lda <? Z.max 1 am then Returns (-6)
      else if ldb <? Z.max 1 m then Returns (-9)
      else if (m =? 0) || (n =? 0) || (neqb alpha n0 && neqb beta n1) then Returns PlasmaSuccess
      else
        with_desc (ge_create nb am an) (fun A =>
        with_desc (ge_create nb m n) (fun B =>
          Runs (pzge2desc pA lda bA A ++ pzge2desc pB ldb bB B
                ++ omp_async_zgeadd transa alpha bA A beta bB B
                ++ pzdesc2ge bA A pA lda ++ pzdesc2ge bB B pB ldb))).

  (* compute/ztradd.c:283-341 plasma_omp_ztradd *)
  Definition omp_async_ztradd (uplo transa : Z) (alpha : N) (bA : Z) (A : desc) (beta : N) (bB : Z) (B : desc)
      : list (ktask N) :=
    let am := if transa =? PlasmaNoTrans then d_m A else d_n A in
    if (neqb alpha n0 || (am =? 0)) && neqb beta n1 then []
    else pztradd uplo transa alpha bA A beta bB B.

  (* compute/ztradd.c:95-221 plasma_ztradd *)
  Definition ztradd (nb uplo transa m n : Z) (alpha : N) (pA : loc) (lda : Z) (beta : N) (pB : loc) (ldb : Z)
      (bA bB : Z) : driver N :=
    if negb (ew_uplo uplo) then Returns (-1)
    else if negb (ew_trans transa) then Returns (-2)
    else if m <? 0 then Returns (-3)
    else if n <? 0 then Returns (-4)
    else
      let am := if transa =? PlasmaNoTrans then m else n in
      let an := if transa =? PlasmaNoTrans then n else m in
      if lda <? Z.max 1 am then Returns (-7)
      else if ldb <? Z.max 1 m then Returns (-10)
      else if (m =? 0) || (n =? 0) || (neqb alpha n0 && neqb beta n1) then Returns PlasmaSuccess
      else
        with_desc (ge_create nb am an) (fun A =>
        with_desc (ge_create nb m n) (fun B =>
          Runs (pzge2desc pA lda bA A ++ pzge2desc pB ldb bB B
                ++ omp_async_ztradd uplo transa alpha bA A beta bB B
                ++ pzdesc2ge bA A pA lda ++ pzdesc2ge bB B pB ldb))).

  (* compute/zlacpy.c:74-179 plasma_zlacpy (plasma_omp_zlacpy, zlacpy.c:234-288, adds nothing) *)
  Definition zlacpy (nb uplo transa m n : Z) (pA : loc) (lda : Z) (pB : loc) (ldb : Z) (bA bB : Z)
      : driver N :=
    if negb (ew_uplo3 uplo) then Returns (-1)
    else if negb (ew_trans transa) then Returns (-2)
    else if m <? 0 then Returns (-3)
    else if n <? 0 then Returns (-4)
    else if negb (transa =? PlasmaNoTrans) && negb (m =? n) then Returns (-3)
    else if lda <? Z.max 1 m then Returns (-6)
    else if ldb <? Z.max 1 (if transa =? PlasmaNoTrans then m else n) then Returns (-8)
    else if Z.min n m =? 0 then Returns PlasmaSuccess
    else
      with_desc (ge_create nb m n) (fun A =>
      with_desc (ge_create nb m n) (fun B =>
        Runs (pzge2desc pA lda bA A ++ pzge2desc pB ldb bB B
              ++ pzlacpy uplo transa bA A bB B
              ++ pzdesc2ge bB B pB ldb))).

  (* compute/zlaset.c:22-104 plasma_zlaset (plasma_omp_zlaset, zlaset.c:107-150, adds nothing).
     The code -5 for lda is what the C code returns, although lda is argument 7. *)
  Definition zlaset (nb uplo m n : Z) (alpha beta : N) (pA : loc) (lda : Z) (bA : Z) : driver N :=
    if negb (ew_uplo3 uplo) then Returns (-1)
    else if m <? 0 then Returns (-2)
    else if n <? 0 then Returns (-3)
    else if lda <? Z.max 1 m then Returns (-5)
    else if Z.min n m =? 0 then Returns PlasmaSuccess
    else
      with_desc (ge_create nb m n) (fun A =>
        Runs (pzge2desc pA lda bA A ++ pzlaset uplo alpha beta bA A ++ pzdesc2ge bA A pA lda)).
End Ew.

Section Lascl.
  Context {F : fields}.

  (* core_blas/core_zlascl.c:19-34 plasma_core_zlascl: LAPACK zlascl multiplies the selected
     elements by cto/cfrom (in steps that avoid overflow; exact arithmetic here). kl and ku are
     not read for these types. *)
  Definition core_zlascl (uplo : Z) (cfrom cto : F) (m n : Z) (A : loc) (lda : Z) (M : mem F) : mem F :=
    mset A lda m n (uplo_sel uplo) (fun i j => nmul (nmul cto (finv cfrom)) (rd M A lda i j)) M.

  (* core_blas/core_zlascl.c:37-51 plasma_core_omp_zlascl *)
  Definition omp_zlascl (uplo : Z) (cfrom cto : F) (m n : Z) (A : loc) (lda : Z) : ktask F :=
    {| k_deps := [dep_inout A];
       k_fun := core_zlascl uplo cfrom cto m n A lda;
       k_reads := reg A lda m n (uplo_sel uplo);
       k_writes := reg A lda m n (uplo_sel uplo) |}.

  (* compute/pzlascl.c:22-105 plasma_pzlascl *)
  Definition pzlascl (uplo : Z) (cfrom cto : F) (bA : Z) (A : desc) : list (ktask F) :=
    let tile u m n := omp_zlascl u cfrom cto (tile_mview A m) (tile_nview A n) (tptr bA A m n) (tile_mmain A m) in
    if uplo =? PlasmaUpper then
      flat_map (fun m =>
        (if m <? d_nt A then [tile PlasmaUpper m m] else []) ++
        map (tile PlasmaGeneral m) (zrange (m + 1) (d_nt A))) (zrange 0 (d_mt A))
    else if uplo =? PlasmaLower then
      flat_map (fun m =>
        (if m <? d_nt A then [tile PlasmaLower m m] else []) ++
        map (tile PlasmaGeneral m) (zrange 0 (Z.min m (d_nt A)))) (zrange 0 (d_mt A))
    else
      flat_map (fun m => map (tile PlasmaGeneral m) (zrange 0 (d_nt A))) (zrange 0 (d_mt A)).

  (* compute/zlascl.c:24-114 plasma_zlascl (plasma_omp_zlascl, zlascl.c:117-170, adds nothing);
     cfrom and cto are not NaN in exact arithmetic *)
  Definition zlascl (nb uplo : Z) (cfrom cto : F) (m n : Z) (pA : loc) (lda : Z) (bA : Z) : driver F :=
    if negb (ew_uplo3 uplo) then Returns (-1)
    else if neqb cfrom n0 then Returns (-2)
    else if m <? 0 then Returns (-4)
    else if n <? 0 then Returns (-5)
    else if lda <? Z.max 1 m then Returns (-7)
    else if Z.min n m =? 0 then Returns PlasmaSuccess
    else
      with_desc (ge_create nb m n) (fun A =>
        Runs (pzge2desc pA lda bA A ++ pzlascl uplo cfrom cto bA A ++ pzdesc2ge bA A pA lda)).
End Lascl.
