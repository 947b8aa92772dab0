(* C55: plasma_zgeinv. *)
From Coq Require Import ZArith List Bool Lia.
From Verif Require Import Base NumModel FieldModel FieldInstances TaskModel TaskSpec DescModel DescSpec DescDriverModel MatModel MatSpec
  LayoutModel GuardModel GuardSpec PotrfModel PotrfSpec InvSpec GetrfModel GetrfSpec GetrfInstances GesvModel GeinvMainProofs GeinvRaceProofs.
Import ListNotations.
Open Scope Z_scope.

(* Legal arguments, a square matrix with n <= 3*nb, any inner block size and number of panel
   threads, numbers with 1 <> 0, every schedule: if plasma_zgeinv returns 0 then the array of A
   holds the inverse, on both sides, of the matrix it held before, the first n entries of ipiv
   are numbers of rows not above their own, and only A, these entries, and the tile matrices
   changed; and it returns 0 if no column of A depends on the ones before it.
   Missing for the full claim: n > 3*nb, for which it is false, m <> n, for which there is no
   inverse but no error either (both below); and what happens when A is singular (see C54:
   the interchanges do not test the status of the sequence). *)
Theorem C55_zgeinv_partial : forall (F : fields) (bigger : F -> F -> bool) nb ib mpt n pA lda pI bA bW (M : mem (cell F)),
  @n1 F <> n0 -> 0 < nb -> 0 < ib -> 0 < mpt -> 0 <= n -> Z.max 1 n <= lda ->
  NoDup [fst pA; fst pI; bA; bW] -> n <= 3 * nb ->
  gdriver_ensures (zgeinv bigger nb ib mpt n n pA lda pI bA bW) M (fun M' st =>
    (st = 0 ->
      is_inverse n (lul M pA lda) (lul M' pA lda) /\
      (forall t, 0 <= t < n -> t + 1 <= pivots M' pI t <= n) /\
      (forall l, ~ In (fst l) [bA; bW] -> ~ in_user pA lda n n l ->
         (forall t, 0 <= t < n -> l <> (fst pI, snd pI + t)) -> M' l = M l)) /\
    (comparison bigger -> (forall k, 0 <= k < n -> ~ column_depends n (lul M pA lda) k) -> st = 0)).
Proof. exact zgeinv_main. Qed.
Print Assumptions C55_zgeinv_partial.

(* With four tile rows (nb = 1, n = 4): an execution that reports an error for a matrix none of
   whose columns depends on the ones before, and one that returns 0 and leaves something that is
   not the inverse. In both the update of a tile column overtakes the translation of one of its
   tiles. *)
Theorem C55_zgeinv_status_refuted : exists (nb ib mpt n : Z) (pA : loc) (lda : Z) (pI : loc) (bA bW : Z) (M : mem (cell QI_fields)),
  0 < nb /\ 0 < ib /\ 0 < mpt /\ 0 <= n /\ Z.max 1 n <= lda /\ NoDup [fst pA; fst pI; bA; bW] /\
  (forall k, 0 <= k < n -> ~ column_depends n (lul M pA lda) k) /\
  ~ gdriver_ensures (zgeinv cabs_bigger nb ib mpt n n pA lda pI bA bW) M (fun M' st => st = 0).
Proof. exact ivrace_fails_exists. Qed.
Print Assumptions C55_zgeinv_status_refuted.

Theorem C55_zgeinv_refuted : exists (nb ib mpt n : Z) (pA : loc) (lda : Z) (pI : loc) (bA bW : Z) (M : mem (cell QI_fields)),
  0 < nb /\ 0 < ib /\ 0 < mpt /\ 0 <= n /\ Z.max 1 n <= lda /\ NoDup [fst pA; fst pI; bA; bW] /\
  ~ gdriver_ensures (zgeinv cabs_bigger nb ib mpt n n pA lda pI bA bW) M (fun M' st => st = 0 ->
      is_inverse n (lul M pA lda) (lul M' pA lda)).
Proof. exact ivrace_wrong_exists. Qed.
Print Assumptions C55_zgeinv_refuted.

(* A matrix that is not square: plasma_zgeinv can return 0 though there is nothing it could have
   computed. *)
Theorem C55_zgeinv_square_refuted : exists (nb ib mpt m n : Z) (pA : loc) (lda : Z) (pI : loc) (bA bW : Z) (M : mem (cell QI_fields)),
  0 < nb /\ 0 < ib /\ 0 < mpt /\ 0 < m /\ 0 < n /\ m <> n /\ Z.max 1 m <= lda /\ Z.max 1 n <= lda /\ NoDup [fst pA; fst pI; bA; bW] /\
  ~ gdriver_ensures (zgeinv cabs_bigger nb ib mpt m n pA lda pI bA bW) M (fun M' st => st <> 0).
Proof. exact ivrect_exists. Qed.
Print Assumptions C55_zgeinv_square_refuted.

(* The leading dimension is compared with n instead of m: an array whose columns overlap is accepted,
   and a legal one is refused. *)
Theorem C55_zgeinv_lda_refuted : (exists m n lda, 0 < m /\ 0 < n /\ lda < Z.max 1 m /\
    forall (F : fields) (bigger : F -> F -> bool) ib mpt pA pI bA bW, exists ks,
      zgeinv bigger 2 ib mpt m n pA lda pI bA bW = GRuns ks) /\
  (exists m n lda, 0 < m /\ 0 < n /\ Z.max 1 m <= lda /\
    forall (F : fields) (bigger : F -> F -> bool) ib mpt pA pI bA bW,
      zgeinv bigger 2 ib mpt m n pA lda pI bA bW = GReturns (-4)).
Proof. exact zgeinv_lda. Qed.
Print Assumptions C55_zgeinv_lda_refuted.

(* The matrix with rows (0, 2, 1), (1, 1, 3), (2, 0, i), tile size 2, two panel threads. *)
Definition ex_iv : mem (cell QI_fields) := fun l =>
  if fst l =? 0
  then (nth (Z.to_nat (snd l)) [qi 0 0; qi 1 0; qi 2 0; qi 2 0; qi 1 0; qi 0 0; qi 1 0; qi 3 0; qi 0 1] (qi 0 0), 0)
  else (qi 0 0, 9).
Example C55_case : exists ks,
  zgeinv cabs_bigger 2 1 2 3 3 (0, 0) 3 (7, 0) 5 6 = GRuns ks /\ snd (gseq ks ex_iv) = 0 /\
  let M' := fst (gseq ks ex_iv) in
  map (pivots M' (7, 0)) [0; 1; 2] = [3; 3; 3] /\
  forallb (fun i => forallb (fun j =>
    neqb (nsum (fun l => nmul (lul ex_iv (0, 0) 3 i l) (lul M' (0, 0) 3 l j)) 0 3) (if i =? j then qi 1 0 else qi 0 0)) [0; 1; 2]) [0; 1; 2] = true.
Proof. eexists. split; [reflexivity|]. split; [lazy; reflexivity|]. cbv zeta. repeat split; lazy; reflexivity. Qed.

Example C55_arguments :
  zgeinv cabs_bigger 2 1 2 (-1) 3 (0, 0) 3 (7, 0) 5 6 = GReturns (-1) /\
  zgeinv cabs_bigger 2 1 2 3 (-1) (0, 0) 3 (7, 0) 5 6 = GReturns (-2) /\
  zgeinv cabs_bigger 2 1 2 3 3 (0, 0) 2 (7, 0) 5 6 = GReturns (-4) /\
  zgeinv cabs_bigger 2 1 2 0 0 (0, 0) 1 (7, 0) 5 6 = GReturns 0.
Proof. repeat split. Qed.
