(* Systems with a general matrix, from its LU factorization: compute/zgetrs.c. *)
From Coq Require Import ZArith List Bool.
From Verif Require Import Base NumModel FieldModel TaskModel TaskSpec DescModel
  DescDriverModel MatModel LayoutModel LasetModel TriModel DriverModel SwpModel.
Import ListNotations.
Open Scope Z_scope.

Section Getrs.
  Context {F : fields}.

  (* compute/zgetrs.c:124-194 plasma_omp_zgetrs (its argument checks, 128-163, cannot fail for
     created descriptors, C07). The array ipiv, at pI, is given by its contents. *)
  Definition omp_async_zgetrs (trans : Z) (bA : Z) (A : desc) (pI : loc) (ipiv : Z -> Z) (bB : Z) (B : desc)
      : list (ktask F) :=
    if (d_n A =? 0) || (d_n B =? 0) then []
    else if trans =? PlasmaNoTrans then
      pzgeswp PlasmaRowwise bB B pI ipiv 1
      ++ pztrsm PlasmaLeft PlasmaLower PlasmaNoTrans PlasmaUnit n1 bA A bB B
      ++ pztrsm PlasmaLeft PlasmaUpper PlasmaNoTrans PlasmaNonUnit n1 bA A bB B
    else
      pztrsm PlasmaLeft PlasmaUpper trans PlasmaNonUnit n1 bA A bB B
      ++ pztrsm PlasmaLeft PlasmaLower trans PlasmaUnit n1 bA A bB B
      ++ pzgeswp PlasmaRowwise bB B pI ipiv (-1).

  (* compute/zgetrs.c:25-119 plasma_zgetrs. Not initialised: property C09; tuning: C10. The
     barrier initialised in line 71 is not used by any of the tasks. *)
  Definition zgetrs (nb trans n nrhs : Z) (pA : loc) (lda : Z) (pI : loc) (ipiv : Z -> Z)
      (pB : loc) (ldb : Z) (bA bB : Z) : driver F :=
    if negb (trans =? PlasmaNoTrans) && negb (trans =? PlasmaTrans) && negb (trans =? PlasmaConjTrans)
    then Returns (-1)
    else if n <? 0 then Returns (-1)
    else if nrhs <? 0 then Returns (-2)
    else if lda <? Z.max 1 n then Returns (-4)
    else if ldb <? Z.max 1 n then Returns (-7)
    else if Z.min n nrhs =? 0 then Returns PlasmaSuccess
    else
      with_desc (ge_create nb n n) (fun A =>
      with_desc (ge_create nb n nrhs) (fun B =>
        Runs (pzge2desc pA lda bA A ++ pzge2desc pB ldb bB B
              ++ omp_async_zgetrs trans bA A pI ipiv bB B
              ++ pzdesc2ge bB B pB ldb))).
End Getrs.
