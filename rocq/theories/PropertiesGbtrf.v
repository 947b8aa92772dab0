(* C62: the LU factorization of a general band matrix. *)
From Coq Require Import ZArith List Bool Lia.
From Verif Require Import Base NumModel NumInstances FieldModel FieldInstances
  TaskModel TaskSpec DescModel DescSpec MatModel MatSpec GuardSpec
  NormBandSpec GetrfModel GetrfSpec GetrfInstances GbtrsSpec GbtrfDriverModel GbtrfSpec GbtrfDriverProofs.
Import ListNotations.
Open Scope Z_scope.

(* For every tile size, inner block size, number of panel threads and schedule: given an n x n matrix A
   in band storage, with the diagonal in row kl + ku, zeros in the places that are read but lie
   outside of the band, and a leading dimension that leaves room for the tiles (that of the tests does
   unless kl = ku = 0, see C62_ld_of_tests), plasma_zgbtrf returns 0 and leaves factors that stand for A as plasma_zgbtrs takes them (GbtrsSpec.v), with
   legal pivots, nonzero diagonal of U and, if the comparison is one of absolute values, pivots as
   partial pivoting asks for; or it returns c > 0 and column c-1 of A depends on the columns before it,
   and the array of the user is as it was. Nothing else changes but ipiv. *)
Theorem C62_zgbtrf_factors : forall (F : fields) (bigger : F -> F -> bool) nb ib mpt n kl ku pA ld pI bA M,
  0 < nb -> 0 < ib -> 0 < mpt -> 0 <= kl < n -> 0 <= ku < n ->
  Z.max (kl + ku) (nb - 1) + ((kl + nb - 1) / nb + 1) * nb <= ld ->
  NoDup [bA; fst pA; fst pI] -> gb_zeros (nums M) nb n n kl ku pA ld ->
  bdriver_ensures (zgbtrf bigger nb ib mpt n n kl ku pA ld pI bA) M (fun M' code =>
    0 <= code <= n /\
    (code = 0 -> exists a, band_factors nb n (nums M') kl ku pA ld a /\
       band_lu bigger nb n kl (gb_fill_el (nums M) kl ku pA ld) a (pivots M' pI)) /\
    (code <> 0 -> comparison bigger -> column_depends n (gb_fill_el (nums M) kl ku pA ld) (code - 1)) /\
    (forall l, fst l <> bA -> (code = 0 -> ~ in_band_array nb n kl ku pA ld l) ->
       (forall t, 0 <= t < n -> l <> (fst pI, snd pI + t)) -> M' l = M l)).
Proof. exact @zgbtrf_main. Qed.
Print Assumptions C62_zgbtrf_factors.

(* The leading dimension of test/test_zgbtrf.c:118-120 is large enough. *)
Theorem C62_ld_of_tests : forall nb kl ku ld, 0 < nb -> 0 <= kl -> 0 <= ku -> 0 < kl + ku ->
  ((ku + kl + nb - 1) / nb + (kl + nb - 1) / nb + 1) * nb <= ld ->
  Z.max (kl + ku) (nb - 1) + ((kl + nb - 1) / nb + 1) * nb <= ld.
Proof. exact ld_of_tests. Qed.
Print Assumptions C62_ld_of_tests.

(* An empty matrix passes the argument checks and is then refused. *)
Theorem C62_zgbtrf_empty_refuted : exists nb m n kl ku ldab,
  0 < nb /\ 0 <= m /\ 0 <= n /\ 0 <= kl /\ 0 <= ku /\ Z.max 1 (1 + kl + ku) <= ldab /\ n = 0 /\
  forall (F : fields) bigger ib mpt pA pI bA,
    zgbtrf (F := F) bigger nb ib mpt m n kl ku pA ldab pI bA = BReturns PlasmaErrorIllegalValue.
Proof. exact zgbtrf_empty. Qed.
Print Assumptions C62_zgbtrf_empty_refuted.

(* So is a band as wide as the matrix. *)
Theorem C62_zgbtrf_wide_band_refuted : exists nb n kl ku ldab,
  0 < nb /\ 0 < n /\ 0 <= kl /\ 0 <= ku /\ Z.max 1 (1 + kl + ku) <= ldab /\
  forall (F : fields) bigger ib mpt pA pI bA,
    zgbtrf (F := F) bigger nb ib mpt n n kl ku pA ldab pI bA = BReturns PlasmaErrorIllegalValue.
Proof. exact zgbtrf_wide_band. Qed.
Print Assumptions C62_zgbtrf_wide_band_refuted.

(* A tridiagonal matrix of order 3 with two tile rows; rows are interchanged. *)
Definition gt_A (i j : Z) : QI_fields :=
  if (i <? 0) || (2 <? i) || (j <? 0) || (2 <? j) then n0
  else if i =? j then qi (i + 1) 0 else if i =? j + 1 then qi (2 + i) 0 else if j =? i + 1 then qi 1 j else n0.
Definition gt_mem (l : loc) : cell QI_fields :=
  if fst l =? 0 then (gt_A (snd l mod 6 - 2 + snd l / 6) (snd l / 6), 0) else (n0, 0).

Example C62_zgbtrf_case : ((1 + 1 + 2 - 1) / 2 + (1 + 2 - 1) / 2 + 1) * 2 <= 6 /\
  Z.max (1 + 1) (2 - 1) + ((1 + 2 - 1) / 2 + 1) * 2 <= 6 /\
  comparison cabs_bigger /\ gb_zeros (nums gt_mem) 2 3 3 1 1 (0, 0) 6.
Proof.
  split; [vm_compute; discriminate|]. split; [vm_compute; discriminate|]. split; [exact cabs_comparison|].
  assert (E3 : forall i, 0 <= i < 3 -> i = 0 \/ i = 1 \/ i = 2) by (intros; lia).
  intros i j [Hi Hj] [HR HK] HN. apply E3 in Hi. apply E3 in Hj.
  destruct Hi as [->|[->| ->]]; destruct Hj as [->|[->| ->]];
    first [reflexivity|exfalso; vm_compute in HR, HK, HN; intuition congruence].
Qed.

Example C62_zgbtrf_run : exists first main last,
  zgbtrf cabs_bigger 2 1 2 3 3 1 1 (0, 0) 6 (7, 0) 3 = BRuns first main last /\
  let g := gseq main (krun first gt_mem) in
  let M := krun last (fst g) in
  let a := fun i j => if (j - i <=? 2) && (i <? (j / 2 + 1) * 2 + 1) then fst (M (0, 2 + i - j + 6 * j)) else n0 in
  snd g = 0 /\ map (pivots M (7, 0)) [0; 1; 2] = [2; 3; 3] /\
  forallb (fun i => forallb (fun j =>
    neqb (GbtrsSpec.factored 2 3 a (pivots M (7, 0)) (zrange 0 2) i j) (gt_A i j)) (zrange 0 3)) (zrange 0 3) = true.
Proof.
  eexists. eexists. eexists. split; [reflexivity|]. split; [lazy; reflexivity|]. split; lazy; reflexivity.
Qed.

(* with a zero column the code is its number *)
Example C62_zgbtrf_singular : exists first main last,
  zgbtrf cabs_bigger 2 1 2 3 3 1 1 (0, 0) 6 (7, 0) 3 = BRuns first main last /\
  snd (gseq main (krun first (fun l => if (fst l =? 0) && (snd l / 6 =? 1) then (n0, 0) else gt_mem l))) = 2.
Proof. eexists. eexists. eexists. split; [reflexivity|]. lazy. reflexivity. Qed.

(* A diagonal matrix of order 3 with zeros in places 0 and 2: both panels fail, and either of the codes may be
   the one that is returned. *)
Definition gd_mem (l : loc) : cell QI_fields :=
  if (fst l =? 0) && (snd l =? 3) then (qi 2 1, 0) else (n0, 0).
Example C62_zgbtrf_diagonal : Z.max (0 + 0) (2 - 1) + ((0 + 2 - 1) / 2 + 1) * 2 <= 3 /\
  gb_zeros (nums gd_mem) 2 3 3 0 0 (0, 0) 3 /\
  exists first main last, zgbtrf cabs_bigger 2 1 2 3 3 0 0 (0, 0) 3 (7, 0) 3 = BRuns first main last /\
    map (fun k => ck_info k (krun first gd_mem)) main = [1; 0; 3; 0].
Proof.
  split; [vm_compute; discriminate|]. split.
  - assert (E3 : forall i, 0 <= i < 3 -> i = 0 \/ i = 1 \/ i = 2) by (intros; lia).
    intros i j [Hi Hj] [HR HK] HN. apply E3 in Hi. apply E3 in Hj.
    destruct Hi as [->|[->| ->]]; destruct Hj as [->|[->| ->]];
      first [reflexivity|exfalso; vm_compute in HR, HK, HN; intuition congruence].
  - eexists. eexists. eexists. split; [reflexivity|]. lazy. reflexivity.
Qed.
