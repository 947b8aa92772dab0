(* C54: plasma_zgesv. *)
From Coq Require Import ZArith List Bool Lia.
From Verif Require Import Base NumModel FieldModel FieldInstances TaskModel TaskSpec DescModel DescSpec DescDriverModel MatModel MatSpec
  LayoutModel GuardModel GuardSpec PotrfModel PotrfSpec GetrfModel GetrfSpec GetrfInstances GesvModel GesvMainProofs GesvRaceProofs.
Import ListNotations.
Open Scope Z_scope.

(* Legal arguments, n <= 3*nb, any inner block size and number of panel threads, every
   schedule: if plasma_zgesv returns 0 then A*X = B for the A and B it was called with, A holds
   factors and ipiv interchanges with P*A = L*U, U has no zero on its diagonal, and only A, B,
   the first n entries of ipiv and the tile matrices changed; and it returns 0 if no column of A
   depends on the ones before it.
   Missing for the full claim: n > 3*nb, for which it is false (below); and what happens when A
   is singular. The tasks of the interchanges do not test the status of the sequence
   (compute/pzgeswp.c:52-58) while those of the model do, so executions of the model in which
   a panel fails are not executions of the code; the theorem says nothing about them except
   that they need a dependent column. See C54_zgesv_interchanges_refuted. *)
Theorem C54_zgesv_partial : forall (F : fields) (bigger : F -> F -> bool) nb ib mpt n nrhs pA lda pI pB ldb bA bB (M : mem (cell F)),
  0 < nb -> 0 < ib -> 0 < mpt -> 0 <= n -> 0 <= nrhs -> Z.max 1 n <= lda -> Z.max 1 n <= ldb ->
  NoDup [fst pA; fst pB; fst pI; bA; bB] -> n <= 3 * nb ->
  gdriver_ensures (zgesv bigger nb ib mpt n nrhs pA lda pI pB ldb bA bB) M (fun M' st =>
    (st = 0 ->
      (forall i j, in_matrix n nrhs i j -> nsum (fun l => nmul (lul M pA lda i l) (lul M' pB ldb l j)) 0 n = lul M pB ldb i j) /\
      (0 < nrhs -> factored n n (lul M pA lda) (lul M' pA lda) (pivots M' pI) /\ U_regular n n (lul M' pA lda)) /\
      (forall l, ~ In (fst l) [bA; bB] -> ~ in_user pA lda n n l -> ~ in_user pB ldb n nrhs l ->
         (forall t, 0 <= t < n -> l <> (fst pI, snd pI + t)) -> M' l = M l)) /\
    (comparison bigger -> (forall k, 0 <= k < n -> ~ column_depends n (lul M pA lda) k) -> st = 0)).
Proof. exact zgesv_main. Qed.
Print Assumptions C54_zgesv_partial.

(* With four tile rows (nb = 1, n = 4): an execution that reports an error for a matrix none of
   whose columns depends on the ones before, and one that returns 0 with a wrong solution. In
   both the update of a tile column overtakes the translation of one of its tiles. *)
Theorem C54_zgesv_status_refuted : exists (nb ib mpt n nrhs : Z) (pA : loc) (lda : Z) (pI pB : loc) (ldb bA bB : Z) (M : mem (cell QI_fields)),
  0 < nb /\ 0 < ib /\ 0 < mpt /\ 0 <= n /\ 0 <= nrhs /\ Z.max 1 n <= lda /\ Z.max 1 n <= ldb /\
  NoDup [fst pA; fst pB; fst pI; bA; bB] /\
  (forall k, 0 <= k < n -> ~ column_depends n (lul M pA lda) k) /\
  ~ gdriver_ensures (zgesv cabs_bigger nb ib mpt n nrhs pA lda pI pB ldb bA bB) M (fun M' st => st = 0).
Proof. exact svrace_fails_exists. Qed.
Print Assumptions C54_zgesv_status_refuted.

Theorem C54_zgesv_refuted : exists (nb ib mpt n nrhs : Z) (pA : loc) (lda : Z) (pI pB : loc) (ldb bA bB : Z) (M : mem (cell QI_fields)),
  0 < nb /\ 0 < ib /\ 0 < mpt /\ 0 <= n /\ 0 <= nrhs /\ Z.max 1 n <= lda /\ Z.max 1 n <= ldb /\
  NoDup [fst pA; fst pB; fst pI; bA; bB] /\
  ~ gdriver_ensures (zgesv cabs_bigger nb ib mpt n nrhs pA lda pI pB ldb bA bB) M (fun M' st => st = 0 ->
      forall i j, in_matrix n nrhs i j -> nsum (fun l => nmul (lul M pA lda i l) (lul M' pB ldb l j)) 0 n = lul M pB ldb i j).
Proof. exact svrace_wrong_exists. Qed.
Print Assumptions C54_zgesv_refuted.

(* When plasma_zgesv gets to the interchanges, which it does whatever the status, ipiv need not
   hold row numbers: the translation and the factorization of a singular 2 x 2 matrix (nb = 1)
   can end with an entry that is not between 1 and n, neither as it is nor after the addition
   of compute/pzgetrf.c:123-124, which the code makes for panels it has skipped as well. The
   entry is the one the array held before the call. *)
Theorem C54_zgesv_interchanges_refuted : exists (nb ib mpt n : Z) (A : desc) (size : Z) (pA : loc) (lda : Z) (pI : loc) (bA : Z) (M : mem (cell QI_fields)),
  0 < ib /\ 0 < mpt /\ Z.max 1 n <= lda /\ NoDup [fst pA; fst pI; bA] /\ n <= 3 * nb /\ ge_create nb n n = CrOk A size /\
  ~ gregion_ensures (map sure (pzge2desc pA lda bA A) ++ pzgetrf cabs_bigger bA A pI ib mpt) M (fun M' st =>
      forall t, 0 <= t < n -> 1 <= pivots M' pI t <= n \/ 1 <= pivots M' pI t + t / nb * nb <= n).
Proof. exact svzero_exists. Qed.
Print Assumptions C54_zgesv_interchanges_refuted.

(* The system with rows (0, 2, 1), (1, 1, 3), (2, 0, i) and right hand sides (3, 5, 2+i) and
   (0, 1, 2), tile size 2, two panel threads: the first solution is (1, 1, 1). *)
Definition ex_sv : mem (cell QI_fields) := fun l =>
  if fst l =? 0
  then (nth (Z.to_nat (snd l)) [qi 0 0; qi 1 0; qi 2 0; qi 2 0; qi 1 0; qi 0 0; qi 1 0; qi 3 0; qi 0 1] (qi 0 0), 0)
  else if fst l =? 3
  then (nth (Z.to_nat (snd l)) [qi 3 0; qi 5 0; qi 2 1; qi 0 0; qi 0 0; qi 1 0; qi 2 0; qi 0 0] (qi 0 0), 0)
  else (qi 0 0, 9).
Example C54_case : exists ks,
  zgesv cabs_bigger 2 1 2 3 2 (0, 0) 3 (7, 0) (3, 0) 4 5 6 = GRuns ks /\ snd (gseq ks ex_sv) = 0 /\
  let M' := fst (gseq ks ex_sv) in
  map (pivots M' (7, 0)) [0; 1; 2] = [3; 3; 3] /\
  forallb (fun i => neqb (lul M' (3, 0) 4 i 0) (qi 1 0)) [0; 1; 2] = true /\
  forallb (fun i => neqb (nsum (fun l => nmul (lul ex_sv (0, 0) 3 i l) (lul M' (3, 0) 4 l 1)) 0 3) (lul ex_sv (3, 0) 4 i 1)) [0; 1; 2] = true.
Proof. eexists. split; [reflexivity|]. split; [lazy; reflexivity|]. cbv zeta. repeat split; lazy; reflexivity. Qed.

Example C54_arguments :
  zgesv cabs_bigger 2 1 2 (-1) 1 (0, 0) 3 (7, 0) (3, 0) 3 5 6 = GReturns (-1) /\
  zgesv cabs_bigger 2 1 2 3 (-1) (0, 0) 3 (7, 0) (3, 0) 3 5 6 = GReturns (-2) /\
  zgesv cabs_bigger 2 1 2 3 1 (0, 0) 2 (7, 0) (3, 0) 3 5 6 = GReturns (-4) /\
  zgesv cabs_bigger 2 1 2 3 1 (0, 0) 3 (7, 0) (3, 0) 2 5 6 = GReturns (-7) /\
  zgesv cabs_bigger 2 1 2 3 0 (0, 0) 3 (7, 0) (3, 0) 3 5 6 = GReturns 0.
Proof. repeat split. Qed.
