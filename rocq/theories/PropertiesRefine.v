(* C29: what the mixed-precision solvers report. *)
From Coq Require Import ZArith List Bool Lia.
From Verif Require Import Base DescModel MatModel RefineModel RefineSpec RefineProofs.
Import ListNotations.
Open Scope Z_scope.

(* For every system whose low-precision LU factorization succeeds, whatever the routines called
   compute (o): plasma_omp_zcgesv returns iter = k >= 0 exactly when the k-th iterate is the
   first one whose residual passes the column-wise test, and X is that iterate; it returns
   iter = -31 when none of the iterates 0 to 30 passes, and then X is the full-precision
   solution if that factorization succeeds (info' = 0). A is overwritten only in that case. *)
Theorem C29_zcgesv_report : forall (D S P T : Type) (o : rops D S P T) (n nrhs : Z) A B LU p F p' info' (s : rstate D S P T),
  0 < n -> 0 < nrhs ->
  r_status s = 0 -> r_A s = A -> r_B s = B ->
  o_factor_s o (o_lag2c o A) = (LU, p, 0) -> o_factor o A = (F, p', info') ->
  let low b := o_clag2z o (o_trsm_s o PlasmaUpper PlasmaNoTrans PlasmaNonUnit p LU
                 (o_trsm_s o PlasmaLower PlasmaNoTrans PlasmaUnit p LU
                   (o_swap_s o p (o_lag2c o b)))) in
  let full b := o_trsm o PlasmaUpper PlasmaNoTrans PlasmaNonUnit p' F
                  (o_trsm o PlasmaLower PlasmaNoTrans PlasmaUnit p' F (o_swap o p' b)) in
  let resid x := o_mm o (-1) A x 1 B in
  let cte := o_mul o (o_mul o (o_lange o A) (o_eps o)) (o_sqrt o n) in
  let r := mkref (low B) (fun x => o_geadd o 1 (low (resid x)) 1 x)
             (fun x => forall i, 0 <= i < nrhs ->
                o_gt o (o_amax o (resid x) i) (o_mul o (o_amax o x i) cte) = false) in
  let (iter, s') := omp_zcgesv o n nrhs s in
  reports r 30 iter (r_X s') (if info' =? 0 then full B else iterate r 30) /\
  (0 <= iter -> r_status s' = 0 /\ r_A s' = A) /\
  (iter < 0 -> r_status s' = info' /\ r_A s' = F) /\
  r_B s' = B.
Proof. exact (@zcgesv_report). Qed.
Print Assumptions C29_zcgesv_report.

(* The same for plasma_omp_zcposv with the Cholesky factorization, for both uplo. *)
Theorem C29_zcposv_report : forall (D S P T : Type) (o : rops D S P T) (uplo n nrhs : Z) A B LU p F p' info' (s : rstate D S P T),
  0 < n -> 0 < nrhs ->
  r_status s = 0 -> r_A s = A -> r_B s = B ->
  o_factor_s o (o_lag2c o A) = (LU, p, 0) -> o_factor o A = (F, p', info') ->
  let low b := o_clag2z o (o_trsm_s o uplo (if uplo =? PlasmaUpper then PlasmaNoTrans else PlasmaConjTrans) PlasmaNonUnit p LU
                 (o_trsm_s o uplo (if uplo =? PlasmaUpper then PlasmaConjTrans else PlasmaNoTrans) PlasmaNonUnit p LU
                   (o_lag2c o b))) in
  let full b := o_trsm o uplo (if uplo =? PlasmaUpper then PlasmaNoTrans else PlasmaConjTrans) PlasmaNonUnit p' F
                  (o_trsm o uplo (if uplo =? PlasmaUpper then PlasmaConjTrans else PlasmaNoTrans) PlasmaNonUnit p' F b) in
  let resid x := o_mm o (-1) A x 1 B in
  let cte := o_mul o (o_mul o (o_lange o A) (o_eps o)) (o_sqrt o n) in
  let r := mkref (low B) (fun x => o_geadd o 1 (low (resid x)) 1 x)
             (fun x => forall i, 0 <= i < nrhs ->
                o_gt o (o_amax o (resid x) i) (o_mul o (o_amax o x i) cte) = false) in
  let (iter, s') := omp_zcposv o uplo n nrhs s in
  reports r 30 iter (r_X s') (if info' =? 0 then full B else iterate r 30) /\
  (0 <= iter -> r_status s' = 0 /\ r_A s' = A) /\
  (iter < 0 -> r_status s' = info' /\ r_A s' = F) /\
  r_B s' = B.
Proof. exact (@zcposv_report). Qed.
Print Assumptions C29_zcposv_report.

(* The same for plasma_omp_zcgbsv with the band LU factorization. *)
Theorem C29_zcgbsv_report : forall (D S P T : Type) (o : rops D S P T) (n nrhs : Z) A B LU p F p' info' (s : rstate D S P T),
  0 < n -> 0 < nrhs ->
  r_status s = 0 -> r_A s = A -> r_B s = B ->
  o_factor_s o (o_lag2c o A) = (LU, p, 0) -> o_factor o A = (F, p', info') ->
  let low b := o_clag2z o (o_trsm_s o PlasmaUpper PlasmaNoTrans PlasmaNonUnit p LU
                 (o_trsm_s o PlasmaLower PlasmaNoTrans PlasmaUnit p LU
                   (o_lag2c o b))) in
  let full b := o_trsm o PlasmaUpper PlasmaNoTrans PlasmaNonUnit p' F
                  (o_trsm o PlasmaLower PlasmaNoTrans PlasmaUnit p' F b) in
  let resid x := o_mm o (-1) A x 1 B in
  let cte := o_mul o (o_mul o (o_mul o (o_lange o A) (o_eps o)) (o_sqrt o n)) (o_bwdmax o) in
  let r := mkref (low B) (fun x => o_geadd o 1 (low (resid x)) 1 x)
             (fun x => forall i, 0 <= i < nrhs ->
                o_gt o (o_amax o (resid x) i) (o_mul o (o_amax o x i) cte) = false) in
  let (iter, s') := omp_zcgbsv o n nrhs s in
  reports r 30 iter (r_X s') (if info' =? 0 then full B else iterate r 30) /\
  (0 <= iter -> r_status s' = 0 /\ r_A s' = A) /\
  (iter < 0 -> r_status s' = info' /\ r_A s' = F) /\
  r_B s' = B.
Proof. exact (@zcgbsv_report). Qed.
Print Assumptions C29_zcgbsv_report.

(* A solver for one equation a x = b in integers: the low precision rounds a up to a multiple
   of 8, quotients are rounded up, and the full precision divides by a itself. A residual is
   acceptable when it is not larger than |x| |a| eps. Zero cannot be factored. *)
Definition toy (eps : Z) : rops Z Z unit Z :=
  let trsm := fun (_ trans diag : Z) (_ : unit) a x =>
    if (trans =? PlasmaNoTrans) && (diag =? PlasmaNonUnit) then - (- x / a) else x in
  mkrops Z Z unit Z Z.abs (fun x => x) (fun x => x)
    (fun a => (8 * ((a + 7) / 8), tt, if (a + 7) / 8 =? 0 then 1 else 0)) (fun _ x => x) trsm
    (fun al a x be r => al * a * x + be * r) (fun al r be x => al * r + be * x) (fun x _ => Z.abs x)
    (fun a => (a, tt, if a =? 0 then 1 else 0)) (fun _ x => x) trsm
    Z.mul Z.gtb eps (fun n => n) 1.
Definition toy_start (a b : Z) : rstate Z Z unit Z :=
  mkrstate a b 77 0 0 0 tt 0 (fun _ => 0) (fun _ => 0) 0.

(* 7 x = 700 with eps = 0: iterates 88, 99, 100 with residuals 84, 7, 0. 8 x = 64: the first
   iterate is right. x = 1000: iterates 125, 235, ... converge too slowly and
   the answer comes from the direct solution. *)
Example C29_case :
  o_factor_s (toy 0) (o_lag2c (toy 0) 7) = (8, tt, 0) /\ o_factor (toy 0) 7 = (7, tt, 0) /\
  o_factor_s (toy 0) (o_lag2c (toy 0) 1) = (8, tt, 0) /\ o_factor (toy 0) 1 = (1, tt, 0) /\
  (let (iter, s) := omp_zcgesv (toy 0) 1 1 (toy_start 7 700) in (iter, r_X s)) = (2, 100) /\
  (let (iter, s) := omp_zcgesv (toy 0) 1 1 (toy_start 8 64) in (iter, r_X s)) = (0, 8) /\
  (let (iter, s) := omp_zcgesv (toy 0) 1 1 (toy_start 1 1000) in (iter, r_X s)) = (-31, 1000).
Proof. vm_compute. repeat split. Qed.

Example C29_case_posv :
  (let (iter, s) := omp_zcposv (toy 0) PlasmaLower 1 1 (toy_start 7 700) in (iter, r_X s)) = (2, 100) /\
  (let (iter, s) := omp_zcgbsv (toy 0) 1 1 (toy_start 7 700) in (iter, r_X s)) = (2, 100).
Proof. vm_compute. repeat split. Qed.

(* The hypothesis that the low-precision factorization succeeds is needed. When it fails, no
   later call computes anything, but the test is still applied to the norm workspaces, which
   then hold whatever malloc returned: here *iter = 0 is reported although X is not an iterate
   and its residual is not acceptable, and the full-precision factorization, which
   would succeed, is not tried. *)
Theorem C29_failed_factorization_refuted :
  exists (o : rops Z Z unit Z) n nrhs s A B,
    0 < n /\ 0 < nrhs /\ r_status s = 0 /\ r_A s = A /\ r_B s = B /\
    snd (o_factor_s o (o_lag2c o A)) <> 0 /\ snd (o_factor o A) = 0 /\
    let (iter, s') := omp_zcgesv o n nrhs s in
    iter = 0 /\ r_status s' <> 0 /\ r_X s' = r_X s /\ r_A s' = A /\
    o_gt o (o_amax o (o_mm o (-1) A (r_X s') 1 B) 0)
      (o_mul o (o_amax o (r_X s') 0)
         (o_mul o (o_mul o (o_lange o A) (o_eps o)) (o_sqrt o n))) = true.
Proof.
  exists (toy 0), 1, 1, (toy_start (-1) 100), (-1), 100. vm_compute. repeat split; discriminate.
Qed.
Print Assumptions C29_failed_factorization_refuted.
