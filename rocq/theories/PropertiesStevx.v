(* C28: eigenvalues of a symmetric tridiagonal matrix by bisection. *)
From Coq Require Import ZArith QArith Reals List Bool Lia.
From Verif Require Import Base StevxModel StevxSpec StevxProofs StevxDriverProofs StevxRefuteProofs StevxSturmProofs
  StevxFloatSpec StevxFloatProofs.
Import ListNotations.
Open Scope Z_scope.

(* C28, full statement: for every symmetric tridiagonal matrix and every interval [vl, vu) (or
   range of indices), plasma_zstevx2 returns the machine numbers at which there are eigenvalues,
   each once and in increasing order, with multiplicities that add up, whatever the order in
   which its tasks are executed, and writes nothing outside of the caller's arrays.

   Proved: this holds if the Sturm count is a count (monotone, between 0 and n), the array of
   multiplicities holds no positive number at first, eigenvectors are wanted and, for a range
   of indices, il does not fall inside a multiple eigenvalue. Each of these conditions is
   needed (the theorems that end with _refuted). *)
Theorem C28_value_range_partial : forall n count mid k gmin gmax vl vu il iu val0 mul0,
  counts n count -> midpoint mid -> 0 < n -> encloses n count mid gmin gmax ->
  vl < vu -> count vu - count vl <= k ->
  (forall i, 0 <= i < count vu - count vl -> mul0 i <= 0) ->
  stevx_ensures count mid k PlasmaVec
    (zstevx2 count mid PlasmaVec PlasmaRangeV n k gmin gmax vl vu il iu) val0 mul0
    (reports count (locations count vl vu)).
Proof. intros. apply value_range; assumption. Qed.
Print Assumptions C28_value_range_partial.

(* The same for the eigenvalues number il, ..., iu. *)
Theorem C28_index_range_partial : forall n count mid k gmin gmax vl vu il iu val0 mul0,
  counts n count -> midpoint mid -> 0 < n -> encloses n count mid gmin gmax ->
  1 <= il <= iu -> iu <= n -> iu + 1 - il <= k -> (exists a, count a = il - 1) ->
  (forall i, 0 <= i < iu + 1 - il -> mul0 i <= 0) ->
  stevx_ensures count mid k PlasmaVec
    (zstevx2 count mid PlasmaVec PlasmaRangeI n k gmin gmax vl vu il iu) val0 mul0
    (reports count
       (filter (fun x => (il - 1 <=? count x) && (count x <? iu)) (locations count gmin (gmax + 1)))).
Proof. intros. apply (index_range n); assumption. Qed.
Print Assumptions C28_index_range_partial.

(* The multiplicities reported for an interval add up to the number of eigenvalues in it. *)
Theorem C28_multiplicities : forall n count lo hi, counts n count -> lo <= hi ->
  fold_right Z.add 0 (map (multiplicity count) (locations count lo hi)) = count hi - count lo.
Proof. exact multiplicities_sum. Qed.
Print Assumptions C28_multiplicities.

(* The number returned for PlasmaCount, and the code returned if the arrays are too small. *)
Theorem C28_count : forall n count mid k gmin gmax vl vu il iu,
  counts n count -> midpoint mid -> 0 < n -> encloses n count mid gmin gmax -> vl < vu ->
  zstevx2 count mid PlasmaCount PlasmaRangeV n k gmin gmax vl vu il iu = SxCount (count vu - count vl).
Proof. intros. apply value_count; assumption. Qed.
Print Assumptions C28_count.

Theorem C28_too_small : forall n count mid k gmin gmax jobtype vl vu il iu,
  counts n count -> midpoint mid -> 0 < n -> encloses n count mid gmin gmax ->
  jobtype = PlasmaVec \/ jobtype = PlasmaNoVec -> vl < vu -> k < count vu - count vl ->
  zstevx2 count mid jobtype PlasmaRangeV n k gmin gmax vl vu il iu = SxReturns (-4).
Proof. intros. apply too_small; assumption. Qed.
Print Assumptions C28_too_small.

(* The middle of two binary64 numbers, computed with rounding, is what the theorems above
   assume: between the two, and different from both unless they are neighbours. So the loop
   ends, and it ends with neighbours. *)
Theorem C28_midpoint : forall num mid, numbering num ->
  (forall x y, num (mid x y) = average (num x) (num y)) -> midpoint mid.
Proof. exact average_midpoint. Qed.
Print Assumptions C28_midpoint.

(* The array of multiplicities is not set to 0: with anything else in it on entry, a multiple
   eigenvalue is reported together with eigenvalues that do not exist. *)
Theorem C28_uninitialized_refuted : exists n count mid k gmin gmax vl vu val0 mul0 c root nev s found val mul,
  counts n count /\ midpoint mid /\ encloses n count mid gmin gmax /\ vl < vu /\ count vu - count vl <= k /\
  zstevx2 count mid PlasmaVec PlasmaRangeV n k gmin gmax vl vu 0 0 = SxRuns c root nev /\
  reaches (bstep count mid c k)
    {| s_calls := [Entering root]; s_val := val0; s_mul := mul0; s_outside := false |} s /\
  s_calls s = [] /\ finish PlasmaVec nev (s_val s) (s_mul s) = Some (found, val, mul) /\
  locations count vl vu = [5] /\ found = 2.
Proof. exact uninitialized. Qed.
Print Assumptions C28_uninitialized_refuted.

(* A range of indices that begins inside a multiple eigenvalue: a store before the beginning
   of the caller's arrays. *)
Theorem C28_index_refuted : exists n count mid k gmin gmax il iu val0 mul0 c root nev s,
  counts n count /\ midpoint mid /\ encloses n count mid gmin gmax /\ 1 <= il <= iu /\ iu <= n /\
  iu + 1 - il <= k /\
  zstevx2 count mid PlasmaVec PlasmaRangeI n k gmin gmax 0 0 il iu = SxRuns c root nev /\
  reaches (bstep count mid c k)
    {| s_calls := [Entering root]; s_val := val0; s_mul := mul0; s_outside := false |} s /\
  s_outside s = true.
Proof. exact negative_index. Qed.
Print Assumptions C28_index_refuted.

(* Without eigenvectors the routine dereferences a null pointer, whatever it has found. *)
Theorem C28_novec_refuted : exists nev val mul, finish PlasmaNoVec nev val mul = None.
Proof. exists 1, (fun _ => 0), (fun _ => 1). apply no_vectors. Qed.
Print Assumptions C28_novec_refuted.

(* plasma_zlaneg2 is not the number of eigenvalues below u, in exact arithmetic: it can miss
   an eigenvalue, it can decrease, and it can count u itself. *)
Theorem C28_sturm_misses_refuted : exists diag offd u lam,
  length diag = S (length offd) /\ (lam < u)%Q /\
  eigenvalue (Z.of_nat (length diag)) (arr diag) (arr offd) lam /\ zlaneg2 diag offd u = 0.
Proof. exact count_misses. Qed.
Print Assumptions C28_sturm_misses_refuted.

Theorem C28_sturm_decreases_refuted : exists diag offd u v,
  length diag = S (length offd) /\ (u < v)%Q /\ zlaneg2 diag offd v < zlaneg2 diag offd u.
Proof. exact count_decreases. Qed.
Print Assumptions C28_sturm_decreases_refuted.

Theorem C28_sturm_counts_u_refuted : exists diag offd u,
  length diag = S (length offd) /\ (forall e, In e offd -> ~ (e == 0)%Q) /\
  eigenvalue (Z.of_nat (length diag)) (arr diag) (arr offd) u /\
  zlaneg2 diag offd u = Z.of_nat (length diag).
Proof. exact count_too_many. Qed.
Print Assumptions C28_sturm_counts_u_refuted.

(* A concrete case: eigenvalues at 2, 5 (twice) and 7. *)
Definition c28_count (x : Z) : Z := if x <=? 2 then 0 else if x <=? 5 then 1 else if x <=? 7 then 3 else 4.

Example C28_case_hypotheses :
  counts 4 c28_count /\ midpoint half /\ encloses 4 c28_count half 0 10.
Proof.
  split; [|split; [exact half_midpoint | repeat split; try reflexivity; lia]].
  split; intros; unfold c28_count;
    repeat match goal with |- context [?a <=? ?b] => destruct (Z.leb_spec a b) end; lia.
Qed.

Example C28_case_result :
  locations c28_count 1 8 = [2; 5; 7] /\ map (multiplicity c28_count) (locations c28_count 1 8) = [1; 2; 1] /\
  exists c root, zstevx2 c28_count half PlasmaVec PlasmaRangeV 4 4 0 10 1 8 0 0 = SxRuns c root 4.
Proof. split; [reflexivity|]. split; [reflexivity|]. do 2 eexists. lazy. reflexivity. Qed.

Example C28_case_index :
  filter (fun x => (2 - 1 <=? c28_count x) && (c28_count x <? 4)) (locations c28_count 0 11) = [5; 7] /\
  c28_count 3 = 2 - 1.
Proof. split; reflexivity. Qed.

(* There are such a numbering and such a middle. *)
Example C28_midpoint_case : exists num mid, numbering num /\
  forall x y, num (mid x y) = average (num x) (num y).
Proof. exact numbering_exists. Qed.

(* Binary64 numbers can be told apart and averaged: 0 and 2 have 1 in the middle. *)
Example C28_average_case : average 0 2 = 1%R.
Proof.
  assert (H : forall r : R, binary64 r -> Generic_fmt.round Zaux.radix2 (FLT.FLT_exp (-1074) 53) Round_NE.ZnearestE r = r).
  { intros r Hr. apply Generic_fmt.round_generic; [apply Generic_fmt.valid_rnd_N | exact Hr]. }
  assert (B1 : binary64 1).
  { change 1%R with (Raux.bpow Zaux.radix2 0). apply FLT.generic_format_FLT_bpow; [reflexivity | lia]. }
  assert (B2 : binary64 2).
  { change 2%R with (Raux.bpow Zaux.radix2 1). apply FLT.generic_format_FLT_bpow; [reflexivity | lia]. }
  unfold average. rewrite Rplus_0_l, (H 2%R B2). rewrite Rinv_r by (apply Rgt_not_eq; apply Rlt_0_2).
  apply H. exact B1.
Qed.

(* Where it does count correctly: for every symmetric tridiagonal matrix and every u such that
   the matrix minus u is L*D*L^T with a unit lower triangular L and no zero in D, plasma_zlaneg2
   in exact arithmetic, with its scaling, returns the number of negative entries of D, which by
   Sylvester's law of inertia is the number of eigenvalues below u. *)
Theorem C28_sturm_counts_pivots : forall d e u L D, (length d <= S (length e))%nat ->
  is_ldl (length d) (shifted d e u) L D -> zlaneg2 d e u = negatives D (length d).
Proof. exact zlaneg2_counts. Qed.
Print Assumptions C28_sturm_counts_pivots.

(* rows (1, 2, 0), (2, 1, 3), (0, 3, 2) *)
Definition ex_L (i j : nat) : Q :=
  match i, j with
  | 0%nat, 0%nat | 1%nat, 1%nat | 2%nat, 2%nat => 1
  | 1%nat, 0%nat => 2
  | 2%nat, 1%nat => - 1
  | _, _ => 0
  end%Q.
Definition ex_D (k : nat) : Q := nth k [1; -3; 5]%Q 1%Q.
Example C28_sturm_case :
  is_ldl 3 (shifted [1; 1; 2]%Q [2; 3]%Q 0%Q) ex_L ex_D /\ zlaneg2 [1; 1; 2]%Q [2; 3]%Q 0%Q = 1.
Proof.
  split; [|reflexivity]. split; [|split; [|split]].
  - intros i Hi. destruct i as [|[|[|i]]]; try reflexivity. lia.
  - intros i j Hij. destruct i as [|[|[|i]]]; destruct j as [|[|[|j]]]; try lia; reflexivity.
  - intros i Hi. destruct i as [|[|[|i]]]; try (intros E; vm_compute in E; discriminate). lia.
  - intros i j Hi Hj. destruct i as [|[|[|i]]]; destruct j as [|[|[|j]]]; try lia; vm_compute; reflexivity.
Qed.
