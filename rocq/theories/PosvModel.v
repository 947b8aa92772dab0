(* Systems with a Hermitian positive definite matrix: compute/zpotrs.c, zposv.c. *)
From Coq Require Import ZArith List Bool.
From Verif Require Import Base NumModel FieldModel TaskModel TaskSpec GuardModel GuardSpec DescModel
  DescDriverModel MatModel LayoutModel LasetModel TriModel DriverModel PotrfModel.
Import ListNotations.
Open Scope Z_scope.

Section Posv.
  Context {F : fields}.

  (* the two triangular solves with the Cholesky factor, compute/zpotrs.c:269-282 and
     compute/zposv.c:288-300 *)
  Definition two_solves (uplo bA : Z) (A : desc) (bB : Z) (B : desc) : list (ktask F) :=
    pztrsm PlasmaLeft uplo (if uplo =? PlasmaUpper then PlasmaConjTrans else PlasmaNoTrans) PlasmaNonUnit
      n1 bA A bB B
    ++ pztrsm PlasmaLeft uplo (if uplo =? PlasmaUpper then PlasmaNoTrans else PlasmaConjTrans) PlasmaNonUnit
      n1 bA A bB B.

  (* compute/zpotrs.c:77-172 plasma_zpotrs with 226-283 plasma_omp_zpotrs (its argument
     checks cannot fail here). Not initialised: property C09; tuning: C10. *)
  Definition zpotrs (nb uplo n nrhs : Z) (pA : loc) (lda : Z) (pB : loc) (ldb : Z) (bA bB : Z) : driver F :=
    if negb ((uplo =? PlasmaUpper) || (uplo =? PlasmaLower)) then Returns (-1)
    else if n <? 0 then Returns (-2)
    else if nrhs <? 0 then Returns (-3)
    else if lda <? Z.max 1 n then Returns (-5)
    else if ldb <? Z.max 1 n then Returns (-7)
    else if Z.max n nrhs =? 0 then Returns PlasmaSuccess
    else
      with_desc (ge_create nb n n) (fun A =>
      with_desc (ge_create nb n nrhs) (fun B =>
        Runs (pzge2desc pA lda bA A ++ pzge2desc pB ldb bB B
              ++ (if (d_n A =? 0) || (d_n B =? 0) then [] else two_solves uplo bA A bB B)
              ++ pzdesc2ge bB B pB ldb))).

  Variable R : roots F.
  Variable rp : F -> F.

  (* compute/zposv.c:90-186 plasma_zposv with 244-301 plasma_omp_zposv (its argument checks
     cannot fail here). Not initialised: property C09; tuning: C10. *)
  Definition zposv (nb uplo n nrhs : Z) (pA : loc) (lda : Z) (pB : loc) (ldb : Z) (bA bB : Z) : gdriver F :=
    if negb ((uplo =? PlasmaUpper) || (uplo =? PlasmaLower)) then GReturns (-1)
    else if n <? 0 then GReturns (-2)
    else if nrhs <? 0 then GReturns (-3)
    else if lda <? Z.max 1 n then GReturns (-5)
    else if ldb <? Z.max 1 n then GReturns (-7)
    else if Z.min n nrhs =? 0 then GReturns PlasmaSuccess
    else
      with_gdesc (tr_create uplo nb n) (fun A =>
      with_gdesc (ge_create nb n nrhs) (fun B =>
        GRuns (map sure (pztr2desc pA lda bA A ++ pzge2desc pB ldb bB B)
               ++ (if (d_n A =? 0) || (d_n B =? 0) then []
                   else pzpotrf R rp uplo bA A ++ map sure (two_solves uplo bA A bB B))
               ++ map sure (pzdesc2tr bA A pA lda ++ pzdesc2ge bB B pB ldb)))).
End Posv.
