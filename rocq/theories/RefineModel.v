(* compute/zcgesv.c, zcposv.c, zcgbsv.c: mixed-precision solvers with iterative refinement. *)
From Coq Require Import ZArith List Bool.
From Verif Require Import Base DescModel MatModel.
Import ListNotations.
Open Scope Z_scope.

(* The routines that plasma_omp_zcgesv/zcposv/zcgbsv call, as functions of whole matrices:
   D double matrices, S single matrices, P pivot vectors, T real numbers (with NaN and
   infinities if wanted: nothing is assumed about them). What each computes is not modelled
   here; the task graph between two taskwaits is taken in submission order (property C14 is
   about that). A factorization returns the code it puts in sequence->status.
   - o_lange: compute/pzlange.c, pzlanhe.c, pzlangb.c with PlasmaInfNorm
   - o_lag2c, o_clag2z: compute/pzlag2c.c, pclag2z.c (generated)
   - o_factor_s, o_factor: compute/pzgetrf.c, pzpotrf.c, pzgbtrf.c in both precisions
   - o_swap_s, o_swap: compute/pzgeswp.c with PlasmaRowwise and increment 1
   - o_trsm_s, o_trsm: compute/pztrsm.c, pztbsm.c with PlasmaLeft and alpha 1
   - o_mm: alpha A X + beta R by compute/pzgemm.c or pzhemm.c
   - o_geadd: alpha R + beta X by compute/pzgeadd.c
   - o_amax: compute/pdzamax.c with PlasmaColumnwise
   - o_mul, o_gt, o_eps, o_sqrt: double arithmetic, LAPACKE_dlamch_work('E'), sqrt *)
Record rops (D S P T : Type) := mkrops {
  o_lange : D -> T;
  o_lag2c : D -> S;
  o_clag2z : S -> D;
  o_factor_s : S -> S * P * Z;
  o_swap_s : P -> S -> S;
  o_trsm_s : Z -> Z -> Z -> P -> S -> S -> S;
  o_mm : Z -> D -> D -> Z -> D -> D;
  o_geadd : Z -> D -> Z -> D -> D;
  o_amax : D -> Z -> T;
  o_factor : D -> D * P * Z;
  o_swap : P -> D -> D;
  o_trsm : Z -> Z -> Z -> P -> D -> D -> D;
  o_mul : T -> T -> T;
  o_gt : T -> T -> bool;
  o_eps : T;
  o_sqrt : Z -> T;
  o_bwdmax : T }.
Arguments o_lange {_ _ _ _}. Arguments o_lag2c {_ _ _ _}. Arguments o_clag2z {_ _ _ _}.
Arguments o_factor_s {_ _ _ _}. Arguments o_swap_s {_ _ _ _}. Arguments o_trsm_s {_ _ _ _}.
Arguments o_mm {_ _ _ _}. Arguments o_geadd {_ _ _ _}. Arguments o_amax {_ _ _ _}.
Arguments o_factor {_ _ _ _}. Arguments o_swap {_ _ _ _}. Arguments o_trsm {_ _ _ _}.
Arguments o_mul {_ _ _ _}. Arguments o_gt {_ _ _ _}. Arguments o_eps {_ _ _ _}.
Arguments o_sqrt {_ _ _ _}. Arguments o_bwdmax {_ _ _ _}.

(* The matrices and workspaces of plasma_omp_zcgesv (compute/zcgesv.c:352-357, 423-425) and
   sequence->status. *)
Record rstate (D S P T : Type) := mkrstate {
  r_A : D; r_B : D; r_X : D; r_R : D; r_As : S; r_Xs : S; r_ipiv : P;
  r_Anorm : T; r_Xnorm : Z -> T; r_Rnorm : Z -> T; r_status : Z }.
Arguments mkrstate {_ _ _ _}.
Arguments r_A {_ _ _ _}. Arguments r_B {_ _ _ _}. Arguments r_X {_ _ _ _}. Arguments r_R {_ _ _ _}.
Arguments r_As {_ _ _ _}. Arguments r_Xs {_ _ _ _}. Arguments r_ipiv {_ _ _ _}.
Arguments r_Anorm {_ _ _ _}. Arguments r_Xnorm {_ _ _ _}. Arguments r_Rnorm {_ _ _ _}.
Arguments r_status {_ _ _ _}.

Section Refine.
  Context {D S P T : Type} (o : rops D S P T).
  Notation st := (rstate D S P T).

  (* Calls made one after the other; each returns at once, or has its tasks skipped, when the
     sequence has failed (e.g. compute/pzlag2c.c:50-52). *)
  Definition calls (fs : list (st -> st)) (s : st) : st :=
    fold_left (fun s f => if r_status s =? 0 then f s else s) fs s.

  (* plasma_pzlange(PlasmaInfNorm, A, work, &Anorm), compute/zcgesv.c:426 (pzlanhe: zcposv.c:442,
     pzlangb: zcgbsv.c:427) *)
  Definition r_lange (s : st) : st :=
    mkrstate (r_A s) (r_B s) (r_X s) (r_R s) (r_As s) (r_Xs s) (r_ipiv s)
      (o_lange o (r_A s)) (r_Xnorm s) (r_Rnorm s) (r_status s).
  (* plasma_pzlag2c(B, Xs), compute/zcgesv.c:429 *)
  Definition r_lag2c_B (s : st) : st :=
    mkrstate (r_A s) (r_B s) (r_X s) (r_R s) (r_As s) (o_lag2c o (r_B s)) (r_ipiv s)
      (r_Anorm s) (r_Xnorm s) (r_Rnorm s) (r_status s).
  (* plasma_pzlag2c(A, As), compute/zcgesv.c:432 *)
  Definition r_lag2c_A (s : st) : st :=
    mkrstate (r_A s) (r_B s) (r_X s) (r_R s) (o_lag2c o (r_A s)) (r_Xs s) (r_ipiv s)
      (r_Anorm s) (r_Xnorm s) (r_Rnorm s) (r_status s).
  (* plasma_pzlag2c(R, Xs), compute/zcgesv.c:474 *)
  Definition r_lag2c_R (s : st) : st :=
    mkrstate (r_A s) (r_B s) (r_X s) (r_R s) (r_As s) (o_lag2c o (r_R s)) (r_ipiv s)
      (r_Anorm s) (r_Xnorm s) (r_Rnorm s) (r_status s).
  (* plasma_pcgetrf(As, ipiv), compute/zcgesv.c:436 (pcpotrf: zcposv.c:452, pcgbtrf:
     zcgbsv.c:437); a failed factorization is noted in sequence->status
     (compute/pzgetrf.c, core_blas/core_zpotrf.c:82-83) *)
  Definition r_factor_s (s : st) : st :=
    match o_factor_s o (r_As s) with
    | (As, p, info) =>
        mkrstate (r_A s) (r_B s) (r_X s) (r_R s) As (r_Xs s) p
          (r_Anorm s) (r_Xnorm s) (r_Rnorm s) info
    end.
  (* plasma_pcgeswp(PlasmaRowwise, Xs, ipiv, 1), compute/zcgesv.c:440, 478 *)
  Definition r_swap_s (s : st) : st :=
    mkrstate (r_A s) (r_B s) (r_X s) (r_R s) (r_As s) (o_swap_s o (r_ipiv s) (r_Xs s)) (r_ipiv s)
      (r_Anorm s) (r_Xnorm s) (r_Rnorm s) (r_status s).
  (* plasma_pctrsm(PlasmaLeft, uplo, trans, diag, 1.0, As, Xs), compute/zcgesv.c:442-446,
     480-484 (zcposv.c:455-460, 490-495; pctbsm with ipiv: zcgbsv.c:439-442, 477-481) *)
  Definition r_trsm_s uplo trans diag (s : st) : st :=
    mkrstate (r_A s) (r_B s) (r_X s) (r_R s) (r_As s)
      (o_trsm_s o uplo trans diag (r_ipiv s) (r_As s) (r_Xs s)) (r_ipiv s)
      (r_Anorm s) (r_Xnorm s) (r_Rnorm s) (r_status s).
  (* plasma_pclag2z(Xs, X), compute/zcgesv.c:449 *)
  Definition r_clag2z_X (s : st) : st :=
    mkrstate (r_A s) (r_B s) (o_clag2z o (r_Xs s)) (r_R s) (r_As s) (r_Xs s) (r_ipiv s)
      (r_Anorm s) (r_Xnorm s) (r_Rnorm s) (r_status s).
  (* plasma_pclag2z(Xs, R), compute/zcgesv.c:487 *)
  Definition r_clag2z_R (s : st) : st :=
    mkrstate (r_A s) (r_B s) (r_X s) (o_clag2z o (r_Xs s)) (r_As s) (r_Xs s) (r_ipiv s)
      (r_Anorm s) (r_Xnorm s) (r_Rnorm s) (r_status s).
  (* plasma_pzgeadd(PlasmaNoTrans, zone, R, zone, X), compute/zcgesv.c:488 *)
  Definition r_geadd (s : st) : st :=
    mkrstate (r_A s) (r_B s) (o_geadd o 1 (r_R s) 1 (r_X s)) (r_R s) (r_As s) (r_Xs s) (r_ipiv s)
      (r_Anorm s) (r_Xnorm s) (r_Rnorm s) (r_status s).
  (* plasma_pzlacpy(PlasmaGeneral, PlasmaNoTrans, B, R), compute/zcgesv.c:452, 491 *)
  Definition r_lacpy_R (s : st) : st :=
    mkrstate (r_A s) (r_B s) (r_X s) (r_B s) (r_As s) (r_Xs s) (r_ipiv s)
      (r_Anorm s) (r_Xnorm s) (r_Rnorm s) (r_status s).
  (* plasma_pzlacpy(PlasmaGeneral, PlasmaNoTrans, B, X), compute/zcgesv.c:521 *)
  Definition r_lacpy_X (s : st) : st :=
    mkrstate (r_A s) (r_B s) (r_B s) (r_R s) (r_As s) (r_Xs s) (r_ipiv s)
      (r_Anorm s) (r_Xnorm s) (r_Rnorm s) (r_status s).
  (* plasma_pzgemm(NoTrans, NoTrans, zmone, A, X, zone, R), compute/zcgesv.c:453-454, 492-493
     (pzhemm(PlasmaLeft, uplo, ...): zcposv.c:467, 503) *)
  Definition r_mm (s : st) : st :=
    mkrstate (r_A s) (r_B s) (r_X s) (o_mm o (-1) (r_A s) (r_X s) 1 (r_R s)) (r_As s) (r_Xs s) (r_ipiv s)
      (r_Anorm s) (r_Xnorm s) (r_Rnorm s) (r_status s).
  (* plasma_pdzamax(PlasmaColumnwise, X, workX, Xnorm), compute/zcgesv.c:458, 497 *)
  Definition r_amax_X (s : st) : st :=
    mkrstate (r_A s) (r_B s) (r_X s) (r_R s) (r_As s) (r_Xs s) (r_ipiv s)
      (r_Anorm s) (o_amax o (r_X s)) (r_Rnorm s) (r_status s).
  (* plasma_pdzamax(PlasmaColumnwise, R, workR, Rnorm), compute/zcgesv.c:459, 498 *)
  Definition r_amax_R (s : st) : st :=
    mkrstate (r_A s) (r_B s) (r_X s) (r_R s) (r_As s) (r_Xs s) (r_ipiv s)
      (r_Anorm s) (r_Xnorm s) (o_amax o (r_R s)) (r_status s).
  (* plasma_pzgetrf(A, ipiv), compute/zcgesv.c:518 (pzpotrf: zcposv.c:527, pzgbtrf:
     zcgbsv.c:521) *)
  Definition r_factor (s : st) : st :=
    match o_factor o (r_A s) with
    | (A, p, info) =>
        mkrstate A (r_B s) (r_X s) (r_R s) (r_As s) (r_Xs s) p
          (r_Anorm s) (r_Xnorm s) (r_Rnorm s) info
    end.
  (* plasma_pzgeswp(PlasmaRowwise, X, ipiv, 1), compute/zcgesv.c:524 *)
  Definition r_swap (s : st) : st :=
    mkrstate (r_A s) (r_B s) (o_swap o (r_ipiv s) (r_X s)) (r_R s) (r_As s) (r_Xs s) (r_ipiv s)
      (r_Anorm s) (r_Xnorm s) (r_Rnorm s) (r_status s).
  (* plasma_pztrsm(PlasmaLeft, uplo, trans, diag, 1.0, A, X), compute/zcgesv.c:526-530
     (zcposv.c:532-538; pztbsm with ipiv: zcgbsv.c:529-533) *)
  Definition r_trsm uplo trans diag (s : st) : st :=
    mkrstate (r_A s) (r_B s) (o_trsm o uplo trans diag (r_ipiv s) (r_A s) (r_X s)) (r_R s)
      (r_As s) (r_Xs s) (r_ipiv s)
      (r_Anorm s) (r_Xnorm s) (r_Rnorm s) (r_status s).

  (* conv: the loop over the columns that stops at the first too large residual
     (compute/zcgesv.c:266-278; zcposv.c; the same loop inline: zcgbsv.c:459-465) *)
  Fixpoint conv_from (rnorm xnorm : Z -> T) (cte : T) (cols : list Z) : bool :=
    match cols with
    | [] => true
    | i :: r => if o_gt o (rnorm i) (o_mul o (xnorm i) cte) then false
                else conv_from rnorm xnorm cte r
    end.
  (* conv(Rnorm, Xnorm, n, cte), compute/zcgesv.c:266-278 *)
  Definition conv (rnorm xnorm : Z -> T) (n : Z) (cte : T) : bool :=
    conv_from rnorm xnorm cte (zrange 0 n).

  (* for (iiter = 0; iiter < itermax; iiter++) { body; if (conv) { *iter = iiter+1; return; } }
     (compute/zcgesv.c:472-506): the iteration reported, if any, and the final state *)
  Fixpoint refine_for (body : st -> st) (cn : Z) (cte : T) (is : list Z) (s : st) : option Z * st :=
    match is with
    | [] => (None, s)
    | iiter :: r =>
        let s := body s in
        if conv (r_Rnorm s) (r_Xnorm s) cn cte then (Some (iiter + 1), s)
        else refine_for body cn cte r s
    end.

  (* const int itermax = 30, compute/zcgesv.c:359, zcposv.c:370, zcgbsv.c:359 *)
  Definition itermax : Z := 30.

  (* plasma_omp_zcgesv, compute/zcgesv.c:352-532, after the argument checks: n = A.n,
     nrhs = B.n = R.n. Returns *iter and the final contents. *)
  Definition omp_zcgesv (n nrhs : Z) (s : st) : Z * st :=
    if (n =? 0) || (nrhs =? 0) then (0, s)
    else
      let solve := [r_swap_s; r_trsm_s PlasmaLower PlasmaNoTrans PlasmaUnit;
                    r_trsm_s PlasmaUpper PlasmaNoTrans PlasmaNonUnit] in
      let resid := [r_lacpy_R; r_mm; r_amax_X; r_amax_R] in
      let s := calls ([r_lange; r_lag2c_B; r_lag2c_A; r_factor_s] ++ solve ++ [r_clag2z_X] ++ resid) s in
      let cte := o_mul o (o_mul o (r_Anorm s) (o_eps o)) (o_sqrt o n) in
      if conv (r_Rnorm s) (r_Xnorm s) nrhs cte then (0, s)
      else
        match refine_for (calls ([r_lag2c_R] ++ solve ++ [r_clag2z_R; r_geadd] ++ resid))
                nrhs cte (zrange 0 itermax) s with
        | (Some k, s) => (k, s)
        | (None, s) =>
            (- itermax - 1,
             calls [r_factor; r_lacpy_X; r_swap; r_trsm PlasmaLower PlasmaNoTrans PlasmaUnit;
                    r_trsm PlasmaUpper PlasmaNoTrans PlasmaNonUnit] s)
        end.

  (* plasma_omp_zcposv, compute/zcposv.c:363-539, after the argument checks. There is no pivot
     vector: o_factor and o_trsm do not use P, and no row interchange is made. *)
  Definition omp_zcposv (uplo n nrhs : Z) (s : st) : Z * st :=
    if (n =? 0) || (nrhs =? 0) then (0, s)
    else
      let solve := [r_trsm_s uplo (if uplo =? PlasmaUpper then PlasmaConjTrans else PlasmaNoTrans) PlasmaNonUnit;
                    r_trsm_s uplo (if uplo =? PlasmaUpper then PlasmaNoTrans else PlasmaConjTrans) PlasmaNonUnit] in
      let resid := [r_lacpy_R; r_mm; r_amax_X; r_amax_R] in
      let s := calls ([r_lange; r_lag2c_B; r_lag2c_A; r_factor_s] ++ solve ++ [r_clag2z_X] ++ resid) s in
      let cte := o_mul o (o_mul o (r_Anorm s) (o_eps o)) (o_sqrt o n) in
      if conv (r_Rnorm s) (r_Xnorm s) nrhs cte then (0, s)
      else
        match refine_for (calls ([r_lag2c_R] ++ solve ++ [r_clag2z_R; r_geadd] ++ resid))
                nrhs cte (zrange 0 itermax) s with
        | (Some k, s) => (k, s)
        | (None, s) =>
            (- itermax - 1,
             calls [r_factor; r_lacpy_X;
                    r_trsm uplo (if uplo =? PlasmaUpper then PlasmaConjTrans else PlasmaNoTrans) PlasmaNonUnit;
                    r_trsm uplo (if uplo =? PlasmaUpper then PlasmaNoTrans else PlasmaConjTrans) PlasmaNonUnit] s)
        end.

  (* plasma_omp_zcgbsv, compute/zcgbsv.c:352-534, after the argument checks. The triangular
     band solves take ipiv and do the row interchanges; bwdmax = 1.0 enters cte. *)
  Definition omp_zcgbsv (n nrhs : Z) (s : st) : Z * st :=
    if (n =? 0) || (nrhs =? 0) then (0, s)
    else
      let solve := [r_trsm_s PlasmaLower PlasmaNoTrans PlasmaUnit;
                    r_trsm_s PlasmaUpper PlasmaNoTrans PlasmaNonUnit] in
      let resid := [r_lacpy_R; r_mm; r_amax_X; r_amax_R] in
      let s := calls ([r_lange; r_lag2c_B; r_lag2c_A; r_factor_s] ++ solve ++ [r_clag2z_X] ++ resid) s in
      let cte := o_mul o (o_mul o (o_mul o (r_Anorm s) (o_eps o)) (o_sqrt o n)) (o_bwdmax o) in
      if conv (r_Rnorm s) (r_Xnorm s) nrhs cte then (0, s)
      else
        match refine_for (calls ([r_lag2c_R] ++ solve ++ [r_clag2z_R; r_geadd] ++ resid))
                nrhs cte (zrange 0 itermax) s with
        | (Some k, s) => (k, s)
        | (None, s) =>
            (- itermax - 1,
             calls [r_factor; r_lacpy_X; r_trsm PlasmaLower PlasmaNoTrans PlasmaUnit;
                    r_trsm PlasmaUpper PlasmaNoTrans PlasmaNonUnit] s)
        end.
End Refine.
