(* compute/zcposv.c at the level of tasks; the loop alone, for all three routines, is in RefineModel.v. *)
From Coq Require Import ZArith List Bool.
From Verif Require Import Base NumModel FieldModel TaskModel TaskSpec GuardModel GuardSpec DescModel
  DescDriverModel MatModel LayoutModel TriModel DriverModel PotrfModel PosvModel SymmModel EwModel
  NormModel NormTriModel LagModel SwpModel.
Import ListNotations.
Open Scope Z_scope.

(* Task lists separated by "#pragma omp taskwait" (e.g. compute/pdzamax.c:49). Routines do not
   wait at their end: the last tasks of one and the first of the next run together
   (compute/zcposv.c:442-474). *)
Definition join {T} (p q : list (list T)) : list (list T) :=
  removelast p ++ (last p [] ++ hd [] q) :: tl q.

(* What the master thread does between the first task and the end of the parallel region
   (compute/zcposv.c:240-255): wait for tasks and go on according to what is in memory, or set
   *iter and submit the last tasks. *)
Inductive rprog (V : Type) :=
| RStop (iter : Z) (ks : list (cktask V))
| RWait (ph : list (list (cktask V))) (next : mem V -> rprog V).
Arguments RStop {V} _ _.
Arguments RWait {V} _ _.

(* compute/zcposv.c:253 plasma_omp_zdesc2ge is called when plasma_omp_zcposv has returned *)
Fixpoint rafter {V} (p : rprog V) (out : list (cktask V)) : rprog V :=
  match p with
  | RStop iter ks => RStop iter (ks ++ out)
  | RWait ph next => RWait ph (fun M => rafter (next M) out)
  end.

(* compute/zcposv.c:116-271: the code returned without running tasks, or what is run; *iter is the
   argument of RStop *)
Inductive xdriver (V : Type) :=
| XReturns (iter : option Z) (code : Z)
| XRuns (p : rprog V).
Arguments XReturns {V} _ _.
Arguments XRuns {V} _.

(* a descriptor that has been created, e.g. compute/zcposv.c:171-176 *)
Definition with_xdesc {V} (r : create_result) (f : desc -> xdriver V) : xdriver V :=
  match r with CrOk A _ => f A | CrError c => XReturns (Some 0) c end.

Section RefineTask.
  Context {N : normed}.
  Variables (lassq : list N -> N * N -> N * N) (nsqrt : N -> N).
  Variables (narrow widen : N -> N) (fits : N -> bool).
  Variables (R : roots N) (rp dg : N -> N).
  (* LAPACKE_dlamch_work('E') and sqrt((double)A.n), compute/zcposv.c:440, 476 *)
  Variables (eps : N) (sqrt_n : Z -> N).
  (* plasma_pcpotrf on As, compute/zcposv.c:452, and the two plasma_pctrsm on As and Xs,
     compute/zcposv.c:455-460, 490-495: generated from compute/pzpotrf.c and pztrsm.c. Their
     arithmetic is that of single precision, which is not modelled: any lists of tasks. *)
  Variables (factor_s solve_s : list (cktask N)).
  (* The tile matrices. X, B, R and Xs have the same shape and so the same descriptor X; As has
     that of A (compute/zcposv.c:171-224). *)
  Variables (uplo bA bS : Z) (A : desc) (bB bX bR bXs : Z) (X : desc).
  Variables (bW : Z) (anorm xnorm rnorm : loc).

  (* compute/zcposv.c:435 *)
  Definition workX : loc := (bW, 0).
  (* compute/zcposv.c:436 *)
  Definition workR : loc := (bW, d_mt X * d_n X).

  (* R = B - A*X, then the largest entries of the columns of X and R: compute/zcposv.c:466-472 and
     502-509 *)
  Definition residual : list (list (cktask N)) :=
    join [map sure (pzlacpy PlasmaGeneral PlasmaNoTrans bB X bR X
                    ++ psym_mm rp PlasmaConjTrans PlasmaLeft uplo (nopp n1) bA A bX X n1 bR X)]
      (join (map (map sure) (pdzamax PlasmaColumnwise bX X workX xnorm))
            (map (map sure) (pdzamax PlasmaColumnwise bR X workR rnorm))).

  (* compute/zcposv.c:442-472, up to the first taskwait of plasma_omp_zcposv *)
  Definition first_steps : list (list (cktask N)) :=
    join (map (map sure) (pzlansy lassq nsqrt dg PlasmaInfNorm uplo bA A workX anorm))
      (join [pzlag2c narrow fits bB X bXs X ++ pzlag2c narrow fits bA A bS A ++ factor_s ++ solve_s
             ++ map sure (pclag2z widen bXs X bX X)]
         residual).

  (* compute/zcposv.c:487-509: one pass of the loop up to its taskwait *)
  Definition one_step : list (list (cktask N)) :=
    join [pzlag2c narrow fits bR X bXs X ++ solve_s ++ map sure (pclag2z widen bXs X bR X)
          ++ map sure (pzgeadd PlasmaNoTrans n1 bR X n1 bX X)]
      residual.

  (* compute/zcposv.c:275-287 conv; the loop stops at the first column with
     Rnorm[i] > Xnorm[i]*cte *)
  Definition conv_at (cte : N) (M : mem N) : bool :=
    forallb (fun j => negb (nltb (nmul (M (pplus xnorm j)) cte) (M (pplus rnorm j)))) (zrange 0 (d_n X)).

  (* compute/zcposv.c:527-538 *)
  Definition fall_back : list (cktask N) :=
    pzpotrf R rp uplo bA A
    ++ map sure (pzlacpy PlasmaGeneral PlasmaNoTrans bB X bX X ++ two_solves uplo bA A bX X).

  (* compute/zcposv.c:485-538: left passes are left, iiter is the loop counter; itermax = 30
     (line 370) is in omp_zcposv_tasks *)
  Fixpoint refinement (cte : N) (left : nat) (iiter : Z) : rprog N :=
    match left with
    | O => RStop (- 30 - 1) fall_back
    | S l => RWait one_step (fun M =>
               if conv_at cte M then RStop (iiter + 1) [] else refinement cte l (iiter + 1))
    end.

  (* compute/zcposv.c:476: cte = Anorm*eps*sqrt(n) *)
  Definition cte_of (M : mem N) : N := nmul (nmul (M anorm) eps) (sqrt_n (d_n A)).

  (* compute/zcposv.c:363-539 plasma_omp_zcposv; its argument checks cannot fail here *)
  Definition omp_zcposv_tasks : rprog N :=
    if (d_n A =? 0) || (d_n X =? 0) then RStop 0 []
    else RWait first_steps (fun M =>
      if conv_at (cte_of M) M then RStop 0 [] else refinement (cte_of M) 30 0).
End RefineTask.

Section Driver.
  Context {N : normed}.
  Variables (lassq : list N -> N * N -> N * N) (nsqrt : N -> N).
  Variables (narrow widen : N -> N) (fits : N -> bool) (R : roots N) (rp dg : N -> N).
  Variables (eps : N) (sqrt_n : Z -> N).
  (* the single precision routines for the tile matrices As and Xs in the blocks given
     (compute/zcposv.c:452-460) *)
  Variables (factor_s solve_s : Z -> Z -> desc -> Z -> desc -> list (cktask N)).

  (* the first tasks of compute/zcposv.c:245-246 run together with the first ones of
     plasma_omp_zcposv *)
  Definition rbefore (ks : list (cktask N)) (p : rprog N) : rprog N :=
    match p with
    | RStop iter ks' => RStop iter (ks ++ ks')
    | RWait ph next => RWait (join [ks] ph) next
    end.

  (* compute/zcposv.c:116-271 plasma_zcposv. The matrices As, Xs, R and the workspaces work,
     Rnorm and Xnorm are in memory blocks of their own, as is the local variable Anorm. Not
     initialised: property C09; tuning: C10; malloc of the workspaces is taken to succeed (its
     result is not checked, lines 228-230). *)
  Definition zcposv (nb uplo n nrhs : Z) (pA : loc) (lda : Z) (pB : loc) (ldb : Z) (pX : loc) (ldx : Z)
      (bA bB bX bR bS bXs bW bN : Z) : xdriver N :=
    if negb ((uplo =? PlasmaUpper) || (uplo =? PlasmaLower)) then XReturns None (-1)
    else if n <? 0 then XReturns None (-2)
    else if nrhs <? 0 then XReturns None (-3)
    else if lda <? Z.max 1 n then XReturns None (-5)
    else if ldb <? Z.max 1 n then XReturns None (-7)
    else if ldx <? Z.max 1 n then XReturns None (-9)
    else if Z.min n nrhs =? 0 then XReturns (Some 0) PlasmaSuccess
    else
      with_xdesc (ge_create nb n n) (fun A =>
      with_xdesc (ge_create nb n nrhs) (fun X =>
        XRuns (rbefore (map sure (pzge2desc pA lda bA A ++ pzge2desc pB ldb bB X))
          (rafter (omp_zcposv_tasks lassq nsqrt narrow widen fits R rp dg eps sqrt_n
                     (factor_s uplo bS A bXs X) (solve_s uplo bS A bXs X)
                     uplo bA bS A bB bX bR bXs X bW (bN, 0) (bN, 1) (bN, 1 + nrhs))
             (map sure (pzdesc2ge bX X pX ldx)))))).
End Driver.
