(* C63: systems with a general band matrix. *)
From Coq Require Import ZArith List Bool Lia.
From Verif Require Import Base NumModel NumInstances FieldModel FieldInstances
  TaskModel TaskSpec DescModel DescSpec MatModel MatSpec GuardSpec NormBandSpec GetrfModel GetrfSpec
  GetrfInstances GbtrsSpec GbtrfSpec GbsvModel GbsvSpec GbsvProofs.
Import ListNotations.
Open Scope Z_scope.

(* For every tile size, inner block size, number of panel threads and schedule: with the array as in
   C62, plasma_zgbsv returns 0, replaces B by X with A*X = B and leaves the factorization of C62; or it
   returns c > 0, column c-1 of A depends on the columns before it, and A and B are as they were.
   Nothing else changes but ipiv. *)
Theorem C63_zgbsv_solves : forall (F : fields) (bigger : F -> F -> bool) nb ib mpt n kl ku nrhs pA ld pI pB ldb bA bB (M : mem (cell F)),
  0 < nb -> 0 < ib -> 0 < mpt -> 0 <= kl < n -> 0 <= ku < n -> 0 < nrhs ->
  Z.max (kl + ku) (nb - 1) + ((kl + nb - 1) / nb + 1) * nb <= ld -> n <= ldb ->
  NoDup [bA; bB; fst pA; fst pB; fst pI] -> gb_zeros (nums M) nb n n kl ku pA ld ->
  sdriver_ensures (zgbsv bigger nb ib mpt n kl ku nrhs pA ld pI pB ldb bA bB) M (fun M' code =>
    0 <= code <= n /\
    (code = 0 ->
       (forall i j, in_matrix n nrhs i j ->
          nsum (fun l => nmul (gb_fill_el (nums M) kl ku pA ld i l) (ul (nums M') pB ldb l j)) 0 n = ul (nums M) pB ldb i j) /\
       exists a, band_factors nb n (nums M') kl ku pA ld a /\
         band_lu bigger nb n kl (gb_fill_el (nums M) kl ku pA ld) a (pivots M' pI)) /\
    (code <> 0 -> comparison bigger -> column_depends n (gb_fill_el (nums M) kl ku pA ld) (code - 1)) /\
    (forall l, ~ In (fst l) [bA; bB] -> (code = 0 -> ~ in_band_array nb n kl ku pA ld l /\ ~ in_user pB ldb n nrhs l) ->
       (forall t, 0 <= t < n -> l <> (fst pI, snd pI + t)) -> M' l = M l)).
Proof. exact @zgbsv_main. Qed.
Print Assumptions C63_zgbsv_solves.

(* Without right hand sides it returns success but does not factor the matrix, whatever it is. *)
Theorem C63_zgbsv_no_rhs_refuted : exists nb n kl ku nrhs ldab ldb,
  0 < nb /\ 0 < n /\ 0 <= kl /\ 0 <= ku /\ 0 <= nrhs /\ Z.max 1 (1 + kl + ku) <= ldab /\ Z.max 1 n <= ldb /\
  forall (F : fields) bigger ib mpt pA pI pB bA bB,
    zgbsv (F := F) bigger nb ib mpt n kl ku nrhs pA ldab pI pB ldb bA bB = SReturns 0.
Proof. exact zgbsv_no_rhs. Qed.
Print Assumptions C63_zgbsv_no_rhs_refuted.

(* A band as wide as the matrix is refused. *)
Theorem C63_zgbsv_wide_band_refuted : exists nb n kl ku nrhs ldab ldb,
  0 < nb /\ 0 < n /\ 0 <= kl /\ 0 <= ku /\ 0 <= nrhs /\ Z.max 1 (1 + kl + ku) <= ldab /\ Z.max 1 n <= ldb /\
  forall (F : fields) bigger ib mpt pA pI pB bA bB,
    zgbsv (F := F) bigger nb ib mpt n kl ku nrhs pA ldab pI pB ldb bA bB = SReturns PlasmaErrorIllegalValue.
Proof. exact zgbsv_wide_band. Qed.
Print Assumptions C63_zgbsv_wide_band_refuted.

(* A tridiagonal matrix of order 3 with two tile rows in block 0, one right hand side in block 1. *)
Definition gv_A (i j : Z) : QI_fields :=
  if (i <? 0) || (2 <? i) || (j <? 0) || (2 <? j) then n0
  else if i =? j then qi (i + 1) 0 else if i =? j + 1 then qi (2 + i) 0 else if j =? i + 1 then qi 1 j else n0.
Definition gv_X (i : Z) : QI_fields := qi (i + 1) (1 - i).
Definition gv_B : list QI_fields := map (fun i => nsum (fun l => nmul (gv_A i l) (gv_X l)) 0 3) [0; 1; 2].
Definition gv_mem (l : loc) : cell QI_fields :=
  if fst l =? 0 then (gv_A (snd l mod 6 - 2 + snd l / 6) (snd l / 6), 0)
  else if fst l =? 1 then (nth (Z.to_nat (snd l)) gv_B n0, 0) else (n0, 0).

Example C63_zgbsv_case : Z.max (1 + 1) (2 - 1) + ((1 + 2 - 1) / 2 + 1) * 2 <= 6 /\ NoDup [5; 6; fst (0, 0); fst (1, 0); fst (7, 0)] /\
  comparison cabs_bigger /\ gb_zeros (nums gv_mem) 2 3 3 1 1 (0, 0) 6.
Proof.
  split; [vm_compute; discriminate|]. split; [cbn; repeat constructor; cbn; intuition discriminate|]. split; [exact cabs_comparison|].
  assert (E3 : forall i, 0 <= i < 3 -> i = 0 \/ i = 1 \/ i = 2) by (intros; lia).
  intros i j [Hi Hj] [HR HK] HN. apply E3 in Hi. apply E3 in Hj.
  destruct Hi as [->|[->| ->]]; destruct Hj as [->|[->| ->]];
    first [reflexivity|exfalso; vm_compute in HR, HK, HN; intuition congruence].
Qed.

Example C63_zgbsv_run : exists first main rest,
  zgbsv cabs_bigger 2 1 2 3 1 1 1 (0, 0) 6 (7, 0) (1, 0) 3 5 6 = SRuns first main rest /\
  let g := gseq main (krun first gv_mem) in
  let M := fold_left (fun M ks => krun ks M) (rest (fst g)) (fst g) in
  snd g = 0 /\ map (pivots M (7, 0)) [0; 1; 2] = [2; 3; 3] /\
  forallb (fun i => neqb (fst (M (1, i))) (gv_X i)) [0; 1; 2] = true.
Proof.
  eexists. eexists. eexists. split; [reflexivity|]. split; [lazy; reflexivity|]. split; lazy; reflexivity.
Qed.
