(* Triangular multiply and triangular solve: compute/ztrmm.c, pztrmm.c, ztrsm.c, pztrsm.c. *)
From Coq Require Import ZArith List Bool.
From Verif Require Import Base NumModel FieldModel TaskModel TaskSpec DescModel DescDriverModel MatModel
  LayoutModel LasetModel DriverModel.
Import ListNotations.
Open Scope Z_scope.

(* C loop "for (k = n-1; k > -1; k--)", e.g. compute/pztrmm.c:75 *)
Definition zdown (n : Z) : list Z := rev (zrange 0 n).

Section Trmm.
  Context {N : numbers}.

  (* element (i,j) of the triangular matrix stored in the triangle uplo of A, with implicit
     ones on the diagonal if diag is PlasmaUnit, as BLAS ztrmm and ztrsm read it.
     core_blas/core_ztrmm.c:103-109, core_ztrsm.c:94-99 *)
  Definition tri_rd (M : mem N) (uplo diag : Z) (A : loc) (lda i j : Z) : N :=
    if (diag =? PlasmaUnit) && (i =? j) then n1
    else if uplo_sel uplo i j then rd M A lda i j
    else n0.

  (* op of it. core_blas/core_ztrmm.c:103-109, core_ztrsm.c:94-99 *)
  Definition op_tri (M : mem N) (trans uplo diag : Z) (A : loc) (lda i j : Z) : N :=
    if trans =? PlasmaNoTrans then tri_rd M uplo diag A lda i j
    else if trans =? PlasmaTrans then tri_rd M uplo diag A lda j i
    else nconj (tri_rd M uplo diag A lda j i).

  (* core_blas/core_ztrmm.c:96-110 plasma_core_ztrmm: calls cblas_ztrmm, whose effect
     (B := alpha*op(A)*B or alpha*B*op(A)) is trusted *)
  Definition core_ztrmm (side uplo trans diag m n : Z) (alpha : N) (A : loc) (lda : Z)
      (B : loc) (ldb : Z) (M : mem N) : mem N :=
    mset B ldb m n everywhere
      (fun i j =>
        nmul alpha
          (if side =? PlasmaLeft
           then nsum (fun l => nmul (op_tri M trans uplo diag A lda i l) (rd M B ldb l j)) 0 m
           else nsum (fun l => nmul (rd M B ldb i l) (op_tri M trans uplo diag A lda l j)) 0 n)) M.

  (* core_blas/core_ztrmm.c:113-133 plasma_core_omp_ztrmm. The test of sequence->status is
     left out as in omp_zgemm. *)
  Definition omp_ztrmm (side uplo trans diag m n : Z) (alpha : N) (A : loc) (lda : Z)
      (B : loc) (ldb : Z) : ktask N :=
    let k := if side =? PlasmaLeft then m else n in
    {| k_deps := [dep_in A; dep_inout B];
       k_fun := core_ztrmm side uplo trans diag m n alpha A lda B ldb;
       k_reads := fun l => reg A lda k k (uplo_sel uplo) l \/ reg B ldb m n everywhere l;
       k_writes := reg B ldb m n everywhere |}.

  (* compute/pztrmm.c:28-294 plasma_pztrmm; A(m,n) and B(m,n) are the macros of lines 20-21 *)
  Definition pztrmm (side uplo trans diag : Z) (alpha : N) (bA : Z) (A : desc) (bB : Z) (B : desc)
      : list (ktask N) :=
    if side =? PlasmaLeft then
     if uplo =? PlasmaUpper then
      if trans =? PlasmaNoTrans then
      flat_map (fun m =>
        flat_map (fun n =>
          omp_ztrmm side uplo trans diag (tile_mview B m) (tile_nview B n) alpha
            (tptr bA A m m) (tile_mmain A m) (tptr bB B m n) (tile_mmain B m)
          :: map (fun k =>
               omp_zgemm trans PlasmaNoTrans (tile_mview B m) (tile_nview B n) (tile_nview A k) alpha
                 (tptr bA A m k) (tile_mmain A m) (tptr bB B k n) (tile_mmain B k)
                 n1 (tptr bB B m n) (tile_mmain B m)) (zrange (m + 1) (d_mt A)))
          (zrange 0 (d_nt B)))
        (zrange 0 (d_mt B))
      else
      flat_map (fun m =>
        flat_map (fun n =>
          omp_ztrmm side uplo trans diag (tile_mview B m) (tile_nview B n) alpha
            (tptr bA A m m) (tile_mmain A m) (tptr bB B m n) (tile_mmain B m)
          :: map (fun k =>
               omp_zgemm trans PlasmaNoTrans (tile_mview B m) (tile_nview B n) (d_mb B) alpha
                 (tptr bA A k m) (tile_mmain A k) (tptr bB B k n) (tile_mmain B k)
                 n1 (tptr bB B m n) (tile_mmain B m)) (zrange 0 m))
          (zrange 0 (d_nt B)))
        (zdown (d_mt B))
     else
      if trans =? PlasmaNoTrans then
      flat_map (fun m =>
        flat_map (fun n =>
          omp_ztrmm side uplo trans diag (tile_mview B m) (tile_nview B n) alpha
            (tptr bA A m m) (tile_mmain A m) (tptr bB B m n) (tile_mmain B m)
          :: map (fun k =>
               omp_zgemm trans PlasmaNoTrans (tile_mview B m) (tile_nview B n) (d_mb B) alpha
                 (tptr bA A m k) (tile_mmain A m) (tptr bB B k n) (tile_mmain B k)
                 n1 (tptr bB B m n) (tile_mmain B m)) (zrange 0 m))
          (zrange 0 (d_nt B)))
        (zdown (d_mt B))
      else
      flat_map (fun m =>
        flat_map (fun n =>
          omp_ztrmm side uplo trans diag (tile_mview B m) (tile_nview B n) alpha
            (tptr bA A m m) (tile_mmain A m) (tptr bB B m n) (tile_mmain B m)
          :: map (fun k =>
               omp_zgemm trans PlasmaNoTrans (tile_mview B m) (tile_nview B n) (tile_mview A k) alpha
                 (tptr bA A k m) (tile_mmain A k) (tptr bB B k n) (tile_mmain B k)
                 n1 (tptr bB B m n) (tile_mmain B m)) (zrange (m + 1) (d_mt A)))
          (zrange 0 (d_nt B)))
        (zrange 0 (d_mt B))
    else
     if uplo =? PlasmaUpper then
      if trans =? PlasmaNoTrans then
      flat_map (fun n =>
        flat_map (fun m =>
          omp_ztrmm side uplo trans diag (tile_mview B m) (tile_nview B n) alpha
            (tptr bA A n n) (tile_mmain A n) (tptr bB B m n) (tile_mmain B m)
          :: map (fun k =>
               omp_zgemm PlasmaNoTrans trans (tile_mview B m) (tile_nview B n) (d_mb B) alpha
                 (tptr bB B m k) (tile_mmain B m) (tptr bA A k n) (tile_mmain A k)
                 n1 (tptr bB B m n) (tile_mmain B m)) (zrange 0 n))
          (zrange 0 (d_mt B)))
        (zdown (d_nt B))
      else
      flat_map (fun n =>
        flat_map (fun m =>
          omp_ztrmm side uplo trans diag (tile_mview B m) (tile_nview B n) alpha
            (tptr bA A n n) (tile_mmain A n) (tptr bB B m n) (tile_mmain B m)
          :: map (fun k =>
               omp_zgemm PlasmaNoTrans trans (tile_mview B m) (tile_nview B n) (tile_nview A k) alpha
                 (tptr bB B m k) (tile_mmain B m) (tptr bA A n k) (tile_mmain A n)
                 n1 (tptr bB B m n) (tile_mmain B m)) (zrange (n + 1) (d_mt A)))
          (zrange 0 (d_mt B)))
        (zrange 0 (d_nt B))
     else
      if trans =? PlasmaNoTrans then
      flat_map (fun n =>
        flat_map (fun m =>
          omp_ztrmm side uplo trans diag (tile_mview B m) (tile_nview B n) alpha
            (tptr bA A n n) (tile_mmain A n) (tptr bB B m n) (tile_mmain B m)
          :: map (fun k =>
               omp_zgemm PlasmaNoTrans trans (tile_mview B m) (tile_nview B n) (tile_nview A k) alpha
                 (tptr bB B m k) (tile_mmain B m) (tptr bA A k n) (tile_mmain A k)
                 n1 (tptr bB B m n) (tile_mmain B m)) (zrange (n + 1) (d_mt A)))
          (zrange 0 (d_mt B)))
        (zrange 0 (d_nt B))
      else
      flat_map (fun n =>
        flat_map (fun m =>
          omp_ztrmm side uplo trans diag (tile_mview B m) (tile_nview B n) alpha
            (tptr bA A n n) (tile_mmain A n) (tptr bB B m n) (tile_mmain B m)
          :: map (fun k =>
               omp_zgemm PlasmaNoTrans trans (tile_mview B m) (tile_nview B n) (d_mb B) alpha
                 (tptr bB B m k) (tile_mmain B m) (tptr bA A n k) (tile_mmain A n)
                 n1 (tptr bB B m n) (tile_mmain B m)) (zrange 0 n))
          (zrange 0 (d_mt B)))
        (zdown (d_nt B)).

  (* compute/ztrmm.c:111-226 plasma_ztrmm with 294-366 plasma_omp_ztrmm (its argument checks
     cannot fail here). Not initialised: property C09; tuning: C10. *)
  Definition ztrmm (nb side uplo transa diag m n : Z) (alpha : N) (pA : loc) (lda : Z)
      (pB : loc) (ldb : Z) (bA bB : Z) : driver N :=
    if negb ((side =? PlasmaLeft) || (side =? PlasmaRight)) then Returns (-1)
    else if negb ((uplo =? PlasmaUpper) || (uplo =? PlasmaLower)) then Returns (-2)
    else if negb ((transa =? PlasmaConjTrans) || (transa =? PlasmaNoTrans) || (transa =? PlasmaTrans))
      then Returns (-3)
    else if negb ((diag =? PlasmaUnit) || (diag =? PlasmaNonUnit)) then Returns (-4)
    else if m <? 0 then Returns (-5)
    else if n <? 0 then Returns (-6)
    else
      let k := if side =? PlasmaLeft then m else n in
      if lda <? Z.max 1 k then Returns (-8)
      else if ldb <? Z.max 1 m then Returns (-10)
      else if Z.min m n =? 0 then Returns PlasmaSuccess
      else
        with_desc (tr_create uplo nb k) (fun A =>
        with_desc (ge_create nb m n) (fun B =>
          Runs (pztr2desc pA lda bA A ++ pzge2desc pB ldb bB B
                ++ (if (d_m A =? 0) || (d_n A =? 0) || (d_m B =? 0) || (d_n B =? 0) then []
                    else if neqb alpha n0 then pzlaset PlasmaGeneral n0 n0 bB B
                    else pztrmm side uplo transa diag alpha bA A bB B)
                ++ pzdesc2ge bB B pB ldb))).
End Trmm.

Section Trsm.
  Context {F : fields}.

  (* Substitution, the algorithm inside BLAS ztrsm: unknowns are found in the order todo, each
     from its equation and the unknowns found before (done). Solves T x = b, b being the
     initial x. core_blas/core_ztrsm.c:94-99 *)
  Fixpoint solve_along (T : Z -> Z -> F) (done todo : list Z) (x : Z -> F) : Z -> F :=
    match todo with
    | [] => x
    | r :: rest =>
        let v := nmul (finv (T r r))
                   (nsub (x r) (fold_right (fun l s => nadd (nmul (T r l) (x l)) s) n0 done)) in
        solve_along T (r :: done) rest (fun i => if i =? r then v else x i)
    end.

  (* op(A) is upper triangular. core_blas/core_ztrsm.c:94-99 *)
  Definition op_up (uplo trans : Z) : bool := Bool.eqb (uplo =? PlasmaUpper) (trans =? PlasmaNoTrans).

  (* core_blas/core_ztrsm.c:88-100 plasma_core_ztrsm: calls cblas_ztrsm, whose effect is
     trusted: op(A)*X = alpha*B is solved column by column, X*op(A) = alpha*B row by row *)
  Definition core_ztrsm (side uplo trans diag m n : Z) (alpha : F) (A : loc) (lda : Z)
      (B : loc) (ldb : Z) (M : mem F) : mem F :=
    mset B ldb m n everywhere
      (fun i j =>
        if side =? PlasmaLeft
        then solve_along (fun r l => op_tri M trans uplo diag A lda r l) []
               (if op_up uplo trans then zdown m else zrange 0 m)
               (fun r => nmul alpha (rd M B ldb r j)) i
        else solve_along (fun r l => op_tri M trans uplo diag A lda l r) []
               (if op_up uplo trans then zrange 0 n else zdown n)
               (fun r => nmul alpha (rd M B ldb i r)) j) M.

  (* core_blas/core_ztrsm.c:103-127 plasma_core_omp_ztrsm *)
  Definition omp_ztrsm (side uplo trans diag m n : Z) (alpha : F) (A : loc) (lda : Z)
      (B : loc) (ldb : Z) : ktask F :=
    let ak := if side =? PlasmaLeft then m else n in
    {| k_deps := [dep_in A; dep_inout B];
       k_fun := core_ztrsm side uplo trans diag m n alpha A lda B ldb;
       k_reads := fun l => reg A lda ak ak (uplo_sel uplo) l \/ reg B ldb m n everywhere l;
       k_writes := reg B ldb m n everywhere |}.

  (* compute/pztrsm.c:28-311 plasma_pztrsm; A(m,n) and B(m,n) are the macros of lines 21-22 *)
  Definition pztrsm (side uplo trans diag : Z) (alpha : F) (bA : Z) (A : desc) (bB : Z) (B : desc)
      : list (ktask F) :=
    let mt := d_mt B in
    let nt := d_nt B in
    if side =? PlasmaLeft then
     if uplo =? PlasmaUpper then
      if trans =? PlasmaNoTrans then
      flat_map (fun k =>
        let lalpha := if k =? 0 then alpha else n1 in
        map (fun n =>
          omp_ztrsm side uplo trans diag (tile_mview B (mt - k - 1)) (tile_nview B n) lalpha
            (tptr bA A (mt - k - 1) (mt - k - 1)) (tile_mmain A (mt - k - 1)) (tptr bB B (mt - k - 1) n) (tile_mmain B (mt - k - 1)))
          (zrange 0 nt)
        ++ flat_map (fun m => map (fun n =>
             omp_zgemm PlasmaNoTrans PlasmaNoTrans (d_mb B) (tile_nview B n) (tile_mview B (mt - k - 1)) (nopp n1)
               (tptr bA A (mt - 1 - m) (mt - k - 1)) (tile_mmain A (mt - 1 - m)) (tptr bB B (mt - k - 1) n) (tile_mmain B (mt - k - 1))
               lalpha (tptr bB B (mt - 1 - m) n) (tile_mmain B (mt - 1 - m)))
             (zrange 0 nt)) (zrange (k + 1) mt))
        (zrange 0 mt)
      else
      flat_map (fun k =>
        let lalpha := if k =? 0 then alpha else n1 in
        map (fun n =>
          omp_ztrsm side uplo trans diag (tile_mview B k) (tile_nview B n) lalpha
            (tptr bA A k k) (tile_mmain A k) (tptr bB B k n) (tile_mmain B k))
          (zrange 0 nt)
        ++ flat_map (fun m => map (fun n =>
             omp_zgemm trans PlasmaNoTrans (tile_mview B m) (tile_nview B n) (d_mb B) (nopp n1)
               (tptr bA A k m) (tile_mmain A k) (tptr bB B k n) (tile_mmain B k)
               lalpha (tptr bB B m n) (tile_mmain B m))
             (zrange 0 nt)) (zrange (k + 1) mt))
        (zrange 0 mt)
     else
      if trans =? PlasmaNoTrans then
      flat_map (fun k =>
        let lalpha := if k =? 0 then alpha else n1 in
        map (fun n =>
          omp_ztrsm side uplo trans diag (tile_mview B k) (tile_nview B n) lalpha
            (tptr bA A k k) (tile_mmain A k) (tptr bB B k n) (tile_mmain B k))
          (zrange 0 nt)
        ++ flat_map (fun m => map (fun n =>
             omp_zgemm PlasmaNoTrans PlasmaNoTrans (tile_mview B m) (tile_nview B n) (d_mb B) (nopp n1)
               (tptr bA A m k) (tile_mmain A m) (tptr bB B k n) (tile_mmain B k)
               lalpha (tptr bB B m n) (tile_mmain B m))
             (zrange 0 nt)) (zrange (k + 1) mt))
        (zrange 0 mt)
      else
      flat_map (fun k =>
        let lalpha := if k =? 0 then alpha else n1 in
        map (fun n =>
          omp_ztrsm side uplo trans diag (tile_mview B (mt - k - 1)) (tile_nview B n) lalpha
            (tptr bA A (mt - k - 1) (mt - k - 1)) (tile_mmain A (mt - k - 1)) (tptr bB B (mt - k - 1) n) (tile_mmain B (mt - k - 1)))
          (zrange 0 nt)
        ++ flat_map (fun m => map (fun n =>
             omp_zgemm trans PlasmaNoTrans (d_mb B) (tile_nview B n) (tile_mview B (mt - k - 1)) (nopp n1)
               (tptr bA A (mt - k - 1) (mt - 1 - m)) (tile_mmain A (mt - k - 1)) (tptr bB B (mt - k - 1) n) (tile_mmain B (mt - k - 1))
               lalpha (tptr bB B (mt - 1 - m) n) (tile_mmain B (mt - 1 - m)))
             (zrange 0 nt)) (zrange (k + 1) mt))
        (zrange 0 mt)
    else
     if uplo =? PlasmaUpper then
      if trans =? PlasmaNoTrans then
      flat_map (fun k =>
        let lalpha := if k =? 0 then alpha else n1 in
        map (fun m =>
          omp_ztrsm side uplo trans diag (tile_mview B m) (tile_nview B k) lalpha
            (tptr bA A k k) (tile_mmain A k) (tptr bB B m k) (tile_mmain B m))
          (zrange 0 mt)
        ++ flat_map (fun m => map (fun n =>
             omp_zgemm PlasmaNoTrans PlasmaNoTrans (tile_mview B m) (tile_nview B n) (d_mb B) (nopp n1)
               (tptr bB B m k) (tile_mmain B m) (tptr bA A k n) (tile_mmain A k)
               lalpha (tptr bB B m n) (tile_mmain B m))
             (zrange (k + 1) nt)) (zrange 0 mt))
        (zrange 0 nt)
      else
      flat_map (fun k =>
        flat_map (fun m =>
          omp_ztrsm side uplo trans diag (tile_mview B m) (tile_nview B (nt - k - 1)) alpha
            (tptr bA A (nt - k - 1) (nt - k - 1)) (tile_mmain A (nt - k - 1)) (tptr bB B m (nt - k - 1)) (tile_mmain B m)
          :: map (fun n =>
               omp_zgemm PlasmaNoTrans trans (tile_mview B m) (d_nb B) (tile_nview B (nt - k - 1)) (nopp (finv alpha))
                 (tptr bB B m (nt - k - 1)) (tile_mmain B m) (tptr bA A (nt - 1 - n) (nt - k - 1)) (tile_mmain A (nt - 1 - n))
                 n1 (tptr bB B m (nt - 1 - n)) (tile_mmain B m)) (zrange (k + 1) nt))
          (zrange 0 mt))
        (zrange 0 nt)
     else
      if trans =? PlasmaNoTrans then
      flat_map (fun k =>
        let lalpha := if k =? 0 then alpha else n1 in
        flat_map (fun m =>
          omp_ztrsm side uplo trans diag (tile_mview B m) (tile_nview B (nt - k - 1)) lalpha
            (tptr bA A (nt - k - 1) (nt - k - 1)) (tile_mmain A (nt - k - 1)) (tptr bB B m (nt - k - 1)) (tile_mmain B m)
          :: map (fun n =>
               omp_zgemm PlasmaNoTrans PlasmaNoTrans (tile_mview B m) (d_nb B) (tile_nview B (nt - k - 1)) (nopp n1)
                 (tptr bB B m (nt - k - 1)) (tile_mmain B m) (tptr bA A (nt - 1 - k) (nt - 1 - n)) (tile_mmain A (nt - k - 1))
                 lalpha (tptr bB B m (nt - 1 - n)) (tile_mmain B m)) (zrange (k + 1) nt))
          (zrange 0 mt))
        (zrange 0 nt)
      else
      flat_map (fun k =>
        flat_map (fun m =>
          omp_ztrsm side uplo trans diag (tile_mview B m) (tile_nview B k) alpha
            (tptr bA A k k) (tile_mmain A k) (tptr bB B m k) (tile_mmain B m)
          :: map (fun n =>
               omp_zgemm PlasmaNoTrans trans (tile_mview B m) (tile_nview B n) (d_mb B) (nopp (finv alpha))
                 (tptr bB B m k) (tile_mmain B m) (tptr bA A n k) (tile_mmain A n)
                 n1 (tptr bB B m n) (tile_mmain B m)) (zrange (k + 1) nt))
          (zrange 0 mt))
        (zrange 0 nt).

  (* Is -1.0/alpha evaluated? compute/pztrsm.c:238 and 301, in loops that run when B has a tile
     and more than one tile column *)
  Definition pztrsm_divides (side trans : Z) (B : desc) : bool :=
    negb (side =? PlasmaLeft) && negb (trans =? PlasmaNoTrans) && (0 <? d_mt B) && (1 <? d_nt B).

  (* compute/ztrsm.c:104-226 plasma_ztrsm with 290-361 plasma_omp_ztrsm. Not initialised:
     property C09; tuning: C10. None: the routine divides by zero. *)
  Definition ztrsm (nb side uplo transa diag m n : Z) (alpha : F) (pA : loc) (lda : Z)
      (pB : loc) (ldb : Z) (bA bB : Z) : option (driver F) :=
    if negb ((side =? PlasmaLeft) || (side =? PlasmaRight)) then Some (Returns (-1))
    else if negb ((uplo =? PlasmaUpper) || (uplo =? PlasmaLower)) then Some (Returns (-2))
    else if negb ((transa =? PlasmaConjTrans) || (transa =? PlasmaNoTrans) || (transa =? PlasmaTrans))
      then Some (Returns (-3))
    else if negb ((diag =? PlasmaUnit) || (diag =? PlasmaNonUnit)) then Some (Returns (-4))
    else if m <? 0 then Some (Returns (-5))
    else if n <? 0 then Some (Returns (-6))
    else
      let an := if side =? PlasmaLeft then m else n in
      if lda <? Z.max 1 an then Some (Returns (-8))
      else if ldb <? Z.max 1 m then Some (Returns (-10))
      else if (m =? 0) || (n =? 0) then Some (Returns PlasmaSuccess)
      else
        match ge_create nb an an with
        | CrError code => Some (Returns code)
        | CrOk A _ =>
          match ge_create nb m n with
          | CrError code => Some (Returns code)
          | CrOk B _ =>
            if (d_m B =? 0) || (d_n B =? 0)
            then Some (Runs (pzge2desc pA lda bA A ++ pzge2desc pB ldb bB B ++ pzdesc2ge bB B pB ldb))
            else if pztrsm_divides side transa B && neqb alpha n0 then None
            else Some (Runs (pzge2desc pA lda bA A ++ pzge2desc pB ldb bB B
                             ++ pztrsm side uplo transa diag alpha bA A bB B
                             ++ pzdesc2ge bB B pB ldb))
          end
        end.
End Trsm.
