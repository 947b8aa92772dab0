(* The LU factorization of a general band matrix: compute/zgbtrf.c. *)
From Coq Require Import ZArith List Bool.
From Verif Require Import Base NumModel FieldModel TaskModel TaskSpec DescModel DescDriverModel MatModel
  GuardSpec BandModel GetrfModel GesvModel GbtrfModel.
Import ListNotations.
Open Scope Z_scope.

(* A routine with three parallel regions (compute/zgbtrf.c:122-141). Tasks of the second may fail.
   The third creates no task then (compute/pzdesc2pb.c:32-34), and the code returned is the status of
   the sequence (compute/zgbtrf.c:147-148). *)
Inductive bdriver (V : Type) :=
| BReturns (code : Z)
| BRuns (first : list (ktask V)) (main : list (cktask V)) (last : list (ktask V)).
Arguments BReturns {V} code.
Arguments BRuns {V} first main last.

Section Gbtrf.
  Context {F : fields}.
  (* the comparison of absolute values of core_blas/core_zgetrf.c:56-57 (and 65-66, 79-80) *)
  Variable bigger : F -> F -> bool.

  (* compute/zgbtrf.c:55-149 plasma_zgbtrf, with 186-216 plasma_omp_zgbtrf and the quick returns of
     zpb2desc.c:62-64 and zdesc2pb.c:62-64 (the other argument checks of these cannot fail here).
     bA is the block of the tile matrix. Not initialised: property C09; tuning: C10. *)
  Definition zgbtrf (nb ib mpt m n kl ku : Z) (pAB : loc) (ldab : Z) (pI : loc) (bA : Z) : bdriver (cell F) :=
    if m <? 0 then BReturns (-1)
    else if n <? 0 then BReturns (-2)
    else if kl <? 0 then BReturns (-3)
    else if ku <? 0 then BReturns (-4)
    else if ldab <? Z.max 1 (1 + kl + ku) then BReturns (-6)
    else
      match gb_create nb m n kl ku with
      | CrError code => BReturns code
      | CrOk A _ =>
        BRuns (map on_cells (if (d_m A =? 0) || (d_n A =? 0) then [] else pzpb2desc pAB ldab bA A))
              (pzgbtrf bigger bA A pI ib mpt)
              (map on_cells (if (d_m A =? 0) || (d_n A =? 0) then [] else pzdesc2pb bA A pAB ldab))
      end.
End Gbtrf.
