(* C60: the mixed-precision Cholesky solver plasma_zcposv as tasks. *)
From Coq Require Import ZArith List Bool Lia QArith Qcanon.
From Verif Require Import Base NumModel FieldModel TaskModel TaskSpec GuardModel GuardSpec DescModel DescSpec DescDriverModel
  MatModel MatSpec DriverModel DriverSpec PotrfModel PotrfSpec PosvModel NormModel NormSpec NormInstances LayoutModel
  RefineTaskModel RefineTaskSpec RefineTaskProofs6 RefineTaskProofs7 RefineTaskRefProofs RefineTaskCaseProofs.
Import ListNotations.
Open Scope Z_scope.

(* Whole call, matrices and right hand sides of at most one tile: a call that succeeds has found an X
   accepted by the documented test (with the true norm of A) after 0 to 30 refinements, or *iter is -31
   and X solves the system. All of the array A, also the triangle not referenced, and all of B
   fit the lower precision. Only X is changed; A is not, although documented. Missing: more tiles
   (see C60_norm_race_refuted). *)
Theorem C60_zcposv_one_tile_partial : forall (N : normed)
    (lassq : list N -> N * N -> N * N) (nsqrt : N -> N) (narrow widen : N -> N) (fits : N -> bool)
    (R : roots N) (rp : N -> N) (eps : N) (sqrt_n : Z -> N)
    (factor_s solve_s : Z -> Z -> desc -> Z -> desc -> list (cktask N))
    nb uplo n nrhs pA lda pB ldb pX ldx bA bB bX bR bS bXs bW bN (S : Z -> Z -> N) (M : mem N),
  (forall x : N, nconj x = x -> rp x = x) ->
  valid_uplo uplo -> 0 < n <= nb -> 0 < nrhs <= nb -> n <= lda -> n <= ldb -> n <= ldx ->
  NoDup [bA; bB; bX; bR; bW; bN; bS; bXs] ->
  (forall p, In p [pA; pB; pX] -> ~ In (fst p) [bA; bB; bX; bR; bW; bN; bS; bXs]) ->
  (forall A X, ge_create nb n n = CrOk A (n * n) -> ge_create nb n nrhs = CrOk X (n * nrhs) ->
     Forall (single_task bS A bXs X bS A) (factor_s uplo bS A bXs X) /\
     Forall (single_task bS A bXs X bXs X) (solve_s uplo bS A bXs X)) ->
  is_hermitian M uplo pA lda n S ->
  xdriver_ensures (zcposv lassq nsqrt narrow widen fits R rp (fun z => nabs (nre z)) eps sqrt_n factor_s solve_s
      nb uplo n nrhs pA lda pB ldb pX ldx bA bB bX bR bS bXs bW bN) M
    (fun iter M' st =>
      (st = 0 ->
        ((exists k anorm, iter = Some k /\ 0 <= k <= 30 /\ is_norm nsqrt PlasmaInfNorm n n (herm uplo (ul M pA lda)) anorm /\
            accepted n nrhs S (ul M pB ldb) (ul M' pX ldx) (nmul (nmul anorm eps) (sqrt_n n))) \/
         (iter = Some (-31) /\ forall i j, in_matrix n nrhs i j ->
            nsum (fun l => nmul (S i l) (ul M' pX ldx l j)) 0 n = ul M pB ldb i j)) /\
        (forall i j, in_matrix n n i j -> fits (ul M pA lda i j) = true) /\
        (forall i j, in_matrix n nrhs i j -> fits (ul M pB ldb i j) = true)) /\
      (forall l, ~ In (fst l) [bA; bB; bX; bR; bW; bN; bS; bXs] -> ~ in_user pX ldx n nrhs l -> M' l = M l)).
Proof. intros N. exact (@zcposv_one N). Qed.
Print Assumptions C60_zcposv_one_tile_partial.

(* the hypotheses hold for A = I of size 2, B = (0, 1000.5), one tile, with plasma_zpotrf's and
   plasma_zpotrs's tasks on As and Xs *)
Example C60_one_tile_case : is_hermitian rmem PlasmaLower (0, 0) 2 2 (fun i j => if i =? j then q 1 else q 0) /\
  xdriver_ensures (call (Q2Qc (1 # 10000)) 2 PlasmaLower 2 1 (0, 0) 2 (1, 0) 2 (2, 0) 2 3 4 5 6 7 8 9 10) rmem
    (fun iter M' st => st = 0 ->
       (exists k anorm, iter = Some k /\ 0 <= k <= 30 /\
          is_norm (N := Q_normed) (fun x => x) PlasmaInfNorm 2 2 (herm PlasmaLower (ul rmem (0, 0) 2)) anorm /\
          accepted 2 1 (fun i j => if i =? j then q 1 else q 0) (ul rmem (1, 0) 2) (ul M' (2, 0) 2)
            (nmul (nmul anorm (Q2Qc (1 # 10000) : Q_normed)) (Q2Qc (3 # 2) : Q_normed))) \/
       (iter = Some (-31) /\ ul M' (2, 0) 2 1 0 = Q2Qc (2001 # 2))).
Proof. exact one_tile_case. Qed.

(* The loop alone, for matrices of any number of tiles: with "left" of the 30 refinements left it ends
   after one of them with an X that passes the test for the bound cte, or it gives up and X solves
   the system. *)
Theorem C60_refinement_loop : forall (N : normed) (narrow widen : N -> N) (fits : N -> bool) (R : roots N) (rp : N -> N)
    nb uplo n nrhs (A X : desc) bA bB bX bR bS bXs bW bN x0 r0 (pX : loc) ldx (solve_s : list (cktask N)) (S : Z -> Z -> N)
    (cte : N) (left : nat) (iiter : Z) (M : mem N),
  (forall x : N, nconj x = x -> rp x = x) ->
  ge_create nb n n = CrOk A (n * n) -> ge_create nb n nrhs = CrOk X (n * nrhs) -> 0 < n -> 0 < nrhs ->
  valid_uplo uplo -> n <= ldx -> x0 + nrhs <= r0 \/ r0 + nrhs <= x0 ->
  NoDup [bA; bB; bX; bR; bW; bN; bS; bXs] -> ~ In (fst pX) [bA; bB; bX; bR; bW; bN; bS; bXs] ->
  Forall (single_task bS A bXs X bXs X) solve_s ->
  (forall i j, in_matrix n n i j -> selects uplo i j -> S i j = el M bA A i j) ->
  (forall i j, in_matrix n n i j -> S j i = nconj (S i j)) ->
  rprog_ensures (rafter (refinement narrow widen fits R rp solve_s uplo bA A bB bX bR bXs X bW (bN, x0) (bN, r0) cte left iiter)
      (map sure (pzdesc2ge bX X pX ldx))) M
    (fun iter M' st =>
      (st = 0 ->
         (iiter < iter <= iiter + Z.of_nat left /\ accepted n nrhs S (el M bB X) (ul M' pX ldx) cte) \/
         (iter = -31 /\ forall i j, in_matrix n nrhs i j ->
            nsum (fun l => nmul (S i l) (ul M' pX ldx l j)) 0 n = el M bB X i j)) /\
      (forall l, ~ In (fst l) [bA; bB; bX; bR; bW; bN; bS; bXs] -> ~ in_user pX ldx n nrhs l -> M' l = M l)).
Proof. exact refinement_any. Qed.
Print Assumptions C60_refinement_loop.

(* a case of four tiles: n = 2, nb = 1, and the tasks of the double precision routine as solver *)
Example C60_loop_case : forall (A X : desc), ge_create 1 2 2 = CrOk A (2 * 2) -> ge_create 1 2 1 = CrOk X (2 * 1) ->
  d_mt A = 2 /\ d_nt A = 2 /\
  Forall (single_task 7 A 8 X 8 X) (map sure (two_solves (F := Q_normed) PlasmaLower 7 A 8 X)) /\
  length (two_solves (F := Q_normed) PlasmaLower 7 A 8 X) = 6%nat.
Proof.
  intros A X EA EX. split; [|split; [|split]].
  - vm_compute in EA. injection EA as <-. reflexivity.
  - vm_compute in EA. injection EA as <-. reflexivity.
  - apply (potrf_single Q_roots (fun x => x) 1 2 1 PlasmaLower 7 8 A X); try lia; try assumption. right. reflexivity.
  - vm_compute in EA, EX. injection EA as <-. injection EX as <-. reflexivity.
Qed.

(* With several tiles the norm of A can be wrong: the task that computes it from the array work is not
   ordered with the tasks that find the largest entries of X in other tiles, which overwrite work. X is then
   accepted though it does not pass the test. *)
Theorem C60_norm_race_refuted : exists (narrow widen : Q_normed -> Q_normed) (fits : Q_normed -> bool) (R : roots Q_normed)
    (eps : Q_normed) (sqrt_n : Z -> Q_normed)
    (nb uplo n nrhs : Z) (pA : loc) (lda : Z) (pB : loc) (ldb : Z) (pX : loc) (ldx bA bB bX bR bS bXs bW bN : Z)
    (S : Z -> Z -> Q_normed) (M : mem Q_normed),
  0 < nb /\ valid_uplo uplo /\ 0 < n /\ 0 < nrhs /\ n <= lda /\ n <= ldb /\ n <= ldx /\
  NoDup [fst pA; fst pB; fst pX; bA; bB; bX; bR; bW; bN; bS; bXs] /\ is_hermitian M uplo pA lda n S /\
  ~ xdriver_ensures (zcposv (N := Q_normed) (fun _ s => s) (fun x => x) narrow widen fits R (fun x => x) (fun z => nabs (nre z)) eps sqrt_n
      (fun uplo bS A _ _ => pzpotrf (F := Q_normed) R (fun x => x) uplo bS A)
      (fun uplo bS A bXs X => map sure (two_solves (F := Q_normed) uplo bS A bXs X))
      nb uplo n nrhs pA lda pB ldb pX ldx bA bB bX bR bS bXs bW bN) M
    (fun iter M' st => st = 0 -> iter <> Some (-31) ->
       forall anorm, is_norm (fun x => x) PlasmaInfNorm n n (herm uplo (ul M pA lda)) anorm ->
         accepted n nrhs S (ul M pB ldb) (ul M' pX ldx) (nmul (nmul anorm eps) (sqrt_n n))).
Proof. exact zcposv_race. Qed.
Print Assumptions C60_norm_race_refuted.

(* "the strictly upper triangular part of A is not referenced" is wrong: A is the identity matrix and fits
   the lower precision, as does B, but because of an element of the other triangle every execution fails. *)
Theorem C60_other_triangle_refuted : exists (narrow widen : Q_normed -> Q_normed) (fits : Q_normed -> bool) (R : roots Q_normed)
    (eps : Q_normed) (sqrt_n : Z -> Q_normed)
    (nb uplo n nrhs : Z) (pA : loc) (lda : Z) (pB : loc) (ldb : Z) (pX : loc) (ldx bA bB bX bR bS bXs bW bN : Z)
    (S : Z -> Z -> Q_normed) (M : mem Q_normed),
  0 < nb /\ valid_uplo uplo /\ 0 < n /\ 0 < nrhs /\ n <= lda /\ n <= ldb /\ n <= ldx /\
  NoDup [fst pA; fst pB; fst pX; bA; bB; bX; bR; bW; bN; bS; bXs] /\ is_hermitian M uplo pA lda n S /\
  (forall i j, in_matrix n n i j -> S i j = if i =? j then n1 else n0) /\
  (forall i j, in_matrix n n i j -> fits (S i j) = true) /\ (forall i j, in_matrix n nrhs i j -> fits (ul M pB ldb i j) = true) /\
  xdriver_ensures (zcposv (N := Q_normed) (fun _ s => s) (fun x => x) narrow widen fits R (fun x => x) (fun z => nabs (nre z)) eps sqrt_n
      (fun uplo bS A _ _ => pzpotrf (F := Q_normed) R (fun x => x) uplo bS A)
      (fun uplo bS A bXs X => map sure (two_solves (F := Q_normed) uplo bS A bXs X))
      nb uplo n nrhs pA lda pB ldb pX ldx bA bB bX bR bS bXs bW bN) M
    (fun iter M' st => st <> 0).
Proof. exact zcposv_other_triangle. Qed.
Print Assumptions C60_other_triangle_refuted.
