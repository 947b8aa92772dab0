(* Cholesky factorization: compute/zpotrf.c, pzpotrf.c, core_blas/core_zpotrf.c. *)
From Coq Require Import ZArith List Bool.
From Verif Require Import Base NumModel FieldModel TaskModel TaskSpec GuardModel GuardSpec DescModel
  DescDriverModel MatModel LayoutModel RankModel LasetModel TriModel DriverModel.
Import ListNotations.
Open Scope Z_scope.

(* Square roots of pivots as LAPACK zpotrf takes them (core_blas/core_zpotrf.c:55-58):
   None for a pivot that is not positive, otherwise a real number whose square is the
   pivot. Which numbers have a root is left open. *)
Record roots (F : fields) := mkroots {
  rt : F -> option F;
  rt_sq : forall d r, rt d = Some r -> nmul r r = d;
  rt_real : forall d r, rt d = Some r -> nconj r = r;
  rt_nz : forall d r, rt d = Some r -> r <> n0;
  rt_one : (n1 : F) <> n0 }.
Arguments rt {F} _ _.

(* A synchronous routine whose tasks can fail (e.g. compute/zpotrf.c:74-147): it returns a
   code at once, or runs tasks and returns the sequence status. *)
Inductive gdriver (V : Type) :=
| GReturns (code : Z)
| GRuns (ks : list (cktask V)).
Arguments GReturns {V} _.
Arguments GRuns {V} _.

(* creation of a tile matrix, e.g. compute/zpotrf.c:110-116 *)
Definition with_gdesc {V} (r : create_result) (f : desc -> gdriver V) : gdriver V :=
  match r with
  | CrError code => GReturns code
  | CrOk A _ => f A
  end.

Section Potrf.
  Context {F : fields}.
  Variable R : roots F.
  Variable rp : F -> F.

  (* One column of the Cholesky factorization in place, inside LAPACK zpotrf
     (core_blas/core_zpotrf.c:55-58): X holds the factor in columns before j and the
     matrix in the others, info is the result so far. rp takes the real part of the pivot
     (see core_rank_k in RankModel.v). Simplification: LAPACK stops at the first pivot that
     is not positive; here the remaining columns are computed with 1 for its root. Nothing
     is claimed about the contents of a matrix whose factorization failed. *)
  Definition potf2_step (s : (Z -> Z -> F) * Z) (j : Z) : (Z -> Z -> F) * Z :=
    let X := fst s in
    let d := rp (nsub (X j j) (nsum (fun l => nmul (X j l) (nconj (X j l))) 0 j)) in
    let r := match rt R d with Some r => r | None => n1 end in
    (fun i c =>
       if (c =? j) && (j <=? i) then
         if i =? j then r
         else nmul (finv r) (nsub (X i j) (nsum (fun l => nmul (X i l) (nconj (X j l))) 0 j))
       else X i c,
     if snd s =? 0 then match rt R d with Some _ => 0 | None => j + 1 end else snd s).

  (* the whole factorization of the n x n matrix whose lower triangle is S: the factor and
     info. core_blas/core_zpotrf.c:55-58. LAPACK may use a blocked algorithm; in exact
     arithmetic the result is the same. *)
  Definition potf2 (n : Z) (S : Z -> Z -> F) : (Z -> Z -> F) * Z :=
    fold_left potf2_step (zrange 0 n) (S, 0).

  (* the lower triangle of the Hermitian matrix whose triangle uplo is stored at p.
     core_blas/core_zpotrf.c:55-58 *)
  Definition low_rd (M : mem F) (uplo : Z) (p : loc) (ld i j : Z) : F :=
    if uplo =? PlasmaLower then rd M p ld i j else nconj (rd M p ld j i).

  (* core_blas/core_zpotrf.c:51-59 plasma_core_zpotrf: calls LAPACK zpotrf, whose effect is
     trusted. A = U^H*U is the factorization by L = U^H. *)
  Definition core_zpotrf (uplo n : Z) (A : loc) (lda : Z) (M : mem F) : mem F :=
    mset A lda n n (uplo_sel uplo)
      (fun i j =>
         let L := fst (potf2 n (low_rd M uplo A lda)) in
         if uplo =? PlasmaLower then L i j else nconj (L j i)) M.
  (* core_blas/core_zpotrf.c:51-59: the value returned by LAPACK zpotrf *)
  Definition core_zpotrf_info (uplo n : Z) (A : loc) (lda : Z) (M : mem F) : Z :=
    snd (potf2 n (low_rd M uplo A lda)).

  (* core_blas/core_zpotrf.c:62-84 plasma_core_omp_zpotrf *)
  Definition omp_zpotrf (uplo n : Z) (A : loc) (lda iinfo : Z) : cktask F :=
    {| ck_task :=
         {| k_deps := [dep_inout A];
            k_fun := core_zpotrf uplo n A lda;
            k_reads := reg A lda n n (uplo_sel uplo);
            k_writes := reg A lda n n (uplo_sel uplo) |};
       ck_info := fun M => let info := core_zpotrf_info uplo n A lda M in
                           if info =? 0 then 0 else iinfo + info;
       ck_may_fail := true |}.

  (* compute/pzpotrf.c:26-125 plasma_pzpotrf; A(m,n) is the macro of line 20. The early
     return for a failed sequence (lines 30-31) is left out: a task that is not submitted
     because the status is already set would have done nothing. *)
  Definition pzpotrf (uplo bA : Z) (A : desc) : list (cktask F) :=
    if uplo =? PlasmaLower then
      flat_map (fun k =>
        let mvak := tile_mview A k in
        let ldak := tile_mmain A k in
        omp_zpotrf PlasmaLower mvak (tptr bA A k k) ldak (d_nb A * k)
        :: map (fun m =>
             let mvam := tile_mview A m in
             let ldam := tile_mmain A m in
             sure (omp_ztrsm PlasmaRight PlasmaLower PlasmaConjTrans PlasmaNonUnit
               mvam (d_mb A) n1 (tptr bA A k k) ldak (tptr bA A m k) ldam))
             (zrange (k + 1) (d_mt A))
        ++ flat_map (fun m =>
             let mvam := tile_mview A m in
             let ldam := tile_mmain A m in
             sure (omp_rank_k rp PlasmaConjTrans PlasmaLower PlasmaNoTrans
               mvam (d_mb A) (nopp n1) (tptr bA A m k) ldam n1 (tptr bA A m m) ldam)
             :: map (fun n =>
                  let ldan := tile_mmain A n in
                  sure (omp_zgemm PlasmaNoTrans PlasmaConjTrans mvam (d_mb A) (d_mb A)
                    (nopp n1) (tptr bA A m k) ldam (tptr bA A n k) ldan
                    n1 (tptr bA A m n) ldam))
                  (zrange (k + 1) m))
             (zrange (k + 1) (d_mt A)))
        (zrange 0 (d_mt A))
    else
      flat_map (fun k =>
        let nvak := tile_nview A k in
        let ldak := tile_mmain A k in
        omp_zpotrf PlasmaUpper nvak (tptr bA A k k) ldak (d_nb A * k)
        :: map (fun m =>
             let nvam := tile_nview A m in
             sure (omp_ztrsm PlasmaLeft PlasmaUpper PlasmaConjTrans PlasmaNonUnit
               (d_nb A) nvam n1 (tptr bA A k k) ldak (tptr bA A k m) ldak))
             (zrange (k + 1) (d_nt A))
        ++ flat_map (fun m =>
             let nvam := tile_nview A m in
             let ldam := tile_mmain A m in
             sure (omp_rank_k rp PlasmaConjTrans PlasmaUpper PlasmaConjTrans
               nvam (d_mb A) (nopp n1) (tptr bA A k m) ldak n1 (tptr bA A m m) ldam)
             :: map (fun n =>
                  let ldan := tile_mmain A n in
                  sure (omp_zgemm PlasmaConjTrans PlasmaNoTrans (d_mb A) nvam (d_mb A)
                    (nopp n1) (tptr bA A k n) ldak (tptr bA A k m) ldak
                    n1 (tptr bA A n m) ldan))
                  (zrange (k + 1) m))
             (zrange (k + 1) (d_nt A)))
        (zrange 0 (d_nt A)).

  (* compute/zpotrf.c:74-147 plasma_zpotrf with 206-246 plasma_omp_zpotrf (its argument
     checks cannot fail here). Not initialised: property C09; tuning: C10. *)
  Definition zpotrf (nb uplo n : Z) (pA : loc) (lda : Z) (bA : Z) : gdriver F :=
    if negb ((uplo =? PlasmaUpper) || (uplo =? PlasmaLower)) then GReturns (-1)
    else if n <? 0 then GReturns (-2)
    else if lda <? Z.max 1 n then GReturns (-4)
    else if Z.max n 0 =? 0 then GReturns PlasmaSuccess
    else
      with_gdesc (tr_create uplo nb n) (fun A =>
        GRuns (map sure (pztr2desc pA lda bA A)
               ++ (if d_m A =? 0 then [] else pzpotrf uplo bA A)
               ++ map sure (pzdesc2tr bA A pA lda))).
End Potrf.
