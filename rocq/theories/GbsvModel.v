(* Systems with a general band matrix: compute/zgbsv.c. *)
From Coq Require Import ZArith List Bool.
From Verif Require Import Base NumModel FieldModel TaskModel TaskSpec DescModel DescDriverModel MatModel
  LayoutModel DriverModel GuardSpec BandModel PbtrsModel GetrfModel GesvModel GbtrsModel GbtrfModel.
Import ListNotations.
Open Scope Z_scope.

(* A routine with tasks that may fail followed by a taskwait (compute/zgbsv.c:145-174). If one has
   failed, the statements behind the taskwait do nothing (compute/pztbsm.c:128, the tasks of
   core_blas look at the status, compute/pzdesc2pb.c:32-34, compute/pzdesc2ge.c:28-30); otherwise rest are
   the lists of tasks they generate, each waited for before the next. *)
Inductive sdriver (V : Type) :=
| SReturns (code : Z)
| SRuns (first : list (ktask V)) (main : list (cktask V)) (rest : mem V -> list (list (ktask V))).
Arguments SReturns {V} code.
Arguments SRuns {V} first main rest.

Section Gbsv.
  Context {F : fields}.
  (* the comparison of absolute values of core_blas/core_zgetrf.c:56-57 (and 65-66, 79-80) *)
  Variable bigger : F -> F -> bool.

  (* compute/zgbsv.c:254-265: the two solves of plasma_omp_zgbsv; with PlasmaUpper plasma_pztbsm does
     not look at ipiv (compute/pztbsm.c:39-108) *)
  Definition gbsv_solves (bA : Z) (A : desc) (ipiv : Z -> Z) (bB : Z) (B : desc) : list (item F) :=
    tbsm_lower PlasmaNoTrans PlasmaUnit n1 bA A bB B ipiv
    ++ map Task (pztbsm PlasmaLeft PlasmaUpper PlasmaNoTrans PlasmaNonUnit n1 bA A bB B).

  (* compute/zgbsv.c:63-175 plasma_zgbsv with 215-266 plasma_omp_zgbsv. The first thing plasma_pztbsm
     does is to wait for the tasks of plasma_pzgbtrf (compute/pztbsm.c:127). From then on nothing
     writes ipiv, so that the model takes its contents there. bA and bB are the blocks of the tile
     matrices. Not initialised: property C09; tuning: C10. *)
  Definition zgbsv (nb ib mpt n kl ku nrhs : Z) (pAB : loc) (ldab : Z) (pI : loc) (pB : loc) (ldb : Z) (bA bB : Z)
      : sdriver (cell F) :=
    if n <? 0 then SReturns (-1)
    else if kl <? 0 then SReturns (-2)
    else if ku <? 0 then SReturns (-3)
    else if nrhs <? 0 then SReturns (-4)
    else if ldab <? Z.max 1 (1 + kl + ku) then SReturns (-6)
    else if ldb <? Z.max 1 n then SReturns (-8)
    else if Z.min n nrhs =? 0 then SReturns PlasmaSuccess
    else
      match gb_create nb n n kl ku with
      | CrError code => SReturns code
      | CrOk A _ =>
        match ge_create nb n nrhs with
        | CrError code => SReturns code
        | CrOk B _ =>
          SRuns (map on_cells (pzpb2desc pAB ldab bA A ++ pzge2desc pB ldb bB B))
                (pzgbtrf bigger bA A pI ib mpt)
                (fun M => map (map on_cells) (waits [] (gbsv_solves bA A (ipiv_rd M pI) bB B))
                          ++ [map on_cells (pzdesc2pb bA A pAB ldab ++ pzdesc2ge bB B pB ldb)])
        end
      end.
End Gbsv.
