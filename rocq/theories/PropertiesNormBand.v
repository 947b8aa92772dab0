(* C52: the norm of a general band matrix. *)
From Coq Require Import ZArith List Bool Lia.
From Verif Require Import Base NumModel FieldModel TaskModel TaskSpec DescModel DescSpec MatModel
  NormModel NormSpec NormInstances NormFacts NormTriProofs NormBandModel NormBandSpec NormBandProofs DescDriverModel NormGbLayoutProofs NormGbDriverProofs NormGbWorkProofs.
Import ListNotations.
Open Scope Z_scope.

(* The full claim: plasma_zlangb returns the norm of the band matrix in the array, for every
   legal call. It does not hold: the first theorem shows what does. *)

(* With the layout of the tests, kl further rows above the band and zeros around it as gb_zeros
   says, the value returned is the norm and nothing else changes, for every matrix, norm, tile
   size and schedule. Missing from the full claim: the layout that the argument check asks for
   and bands wider than the matrix, for which the claim is false (below), and matrices with more
   columns than rows whose number of rows is not a multiple of nb. *)
Theorem C52_zlangb_partial :
  forall (N : normed) lassq nsqrt nb norm m n kl ku p ld bA bW (value : loc) (M : mem N),
    0 < nb -> valid_norm norm -> 0 <= kl < m -> 0 <= ku < n -> 1 + kl + ku <= ld -> (n <= m \/ m mod nb = 0) ->
    fst p <> bA -> fst p <> bW -> bA <> bW -> fst value <> bA -> fst value <> bW ->
    lassq_ok lassq -> gb_zeros M nb m n kl ku p ld ->
    valued_ensures (zlangb lassq nsqrt nb norm m n kl ku p ld bA bW value) M
      (fun v M' => is_norm nsqrt norm m n (gb_fill_el M kl ku p ld) v /\
                   (forall l, fst l <> bA -> fst l <> bW -> l <> value -> M' l = M l)).
Proof. exact @zlangb_norm. Qed.
Print Assumptions C52_zlangb_partial.

(* The arrays of the tests (test/test_zlangb.c:105-120), zero but for the band and with the leading
   dimension chosen there, are of that kind. *)
Theorem C52_zlangb_tests_partial :
  forall (N : normed) lassq nsqrt nb norm m n kl ku p ld bA bW (value : loc) (M : mem N),
    0 < nb -> valid_norm norm -> 0 <= kl < m -> 0 <= ku < n -> (n <= m \/ m mod nb = 0) ->
    ld = ((ku + kl + nb - 1) / nb + (kl + nb - 1) / nb + 1) * nb -> zero_padded M n kl ku p ld ->
    fst p <> bA -> fst p <> bW -> bA <> bW -> fst value <> bA -> fst value <> bW ->
    lassq_ok lassq ->
    valued_ensures (zlangb lassq nsqrt nb norm m n kl ku p ld bA bW value) M
      (fun v M' => is_norm nsqrt norm m n (gb_fill_el M kl ku p ld) v /\
                   (forall l, fst l <> bA -> fst l <> bW -> l <> value -> M' l = M l)).
Proof. exact @zlangb_tests. Qed.
Print Assumptions C52_zlangb_tests_partial.

(* The norm of an empty matrix is zero. *)
Theorem C52_zlangb_empty :
  forall (N : normed) lassq nsqrt nb norm m n kl ku p ld bA bW (value : loc) (M : mem N),
    valid_norm norm -> 0 <= m -> 0 <= n -> Z.min m n = 0 -> 0 <= kl -> 0 <= ku -> 1 + kl + ku <= ld ->
    valued_ensures (zlangb lassq nsqrt nb norm m n kl ku p ld bA bW value) M
      (fun v M' => is_norm nsqrt norm m n (gb_fill_el M kl ku p ld) v /\ M' = M).
Proof. exact @zlangb_empty. Qed.
Print Assumptions C52_zlangb_empty.
Example C52_empty_case : valid_norm PlasmaOneNorm /\ Z.min 3 0 = 0 /\ 1 + 1 + 2 <= 4.
Proof. vm_compute. intuition discriminate. Qed.

(* Whatever the norm, no task touches the workspace outside the size that is allocated
   (compute/zlangb.c:141-166). *)
Theorem C52_zlangb_workspace :
  forall (N : normed) lassq nsqrt nb norm m n kl ku p ld bA bW (value : loc) A sz,
    fst p <> bW -> bA <> bW -> fst value <> bW -> gb_create nb m n kl ku = CrOk A sz ->
    all_within bW (zlangb_work norm nb kl ku A) (@zlangb N lassq nsqrt nb norm m n kl ku p ld bA bW value).
Proof. exact zlangb_workspace. Qed.
Print Assumptions C52_zlangb_workspace.

(* With an array of the kl + ku + 1 rows that the argument check asks for (compute/zlangb.c:115), there
   are matrices for which the value returned is not the norm, whichever of the three norms is
   asked for and whatever the schedule: the code takes the diagonal to be in row kl + ku. *)
Theorem C52_zlangb_storage_refuted : exists nb m n kl ku ldab,
  0 < nb /\ 0 <= kl < m /\ 0 <= ku < n /\ Z.max 1 (1 + kl + ku) <= ldab /\
  forall (N : normed) lassq nsqrt norm, @n1 N <> n0 ->
    norm = PlasmaMaxNorm \/ norm = PlasmaOneNorm \/ norm = PlasmaInfNorm ->
    exists M : mem N, valued_ensures (zlangb lassq nsqrt nb norm m n kl ku (0, 0) ldab 1 2 (3, 0)) M
      (fun v _ => ~ is_norm nsqrt norm m n (gb_el M kl ku (0, 0) ldab) v).
Proof. exact zlangb_storage. Qed.
Print Assumptions C52_zlangb_storage_refuted.

(* For a band wider than the matrix, which the documentation allows, the "norm" returned is an
   error code. *)
Theorem C52_zlangb_wide_band_refuted : exists nb norm m n kl ku ldab,
  0 < nb /\ valid_norm norm /\ 0 < m /\ 0 < n /\ 0 <= kl /\ 0 <= ku /\ Z.max m (1 + kl + ku) <= ldab /\
  forall (N : normed) lassq nsqrt pAB bA bW value,
    @zlangb N lassq nsqrt nb norm m n kl ku pAB ldab bA bW value = VReturns PlasmaErrorIllegalValue.
Proof. exact zlangb_wide_band. Qed.
Print Assumptions C52_zlangb_wide_band_refuted.

(* The numbers of the examples meet the hypothesis 1 <> 0; the norm of (5 0; 0 0) comes out
   as 0. *)
Definition lb_small (l : loc) : Q_normed := if (fst l =? 0) && (snd l =? 0) then q 5 else n0.
Example C52_case :
  @n1 Q_normed <> n0 /\
  is_q (Some (gb_el lb_small 1 0 (0, 0) 2 0 0)) 5 = true /\
  is_q (result (zlangb lassq_ref (fun x => x) 2 PlasmaMaxNorm 2 2 1 0 (0, 0) 2 1 2 (3, 0)) lb_small) 0 = true.
Proof. split; [intros E; apply (f_equal (fun x => neqb x n0)) in E; vm_compute in E; discriminate E|]. vm_compute. auto. Qed.

(* What the tests do (test/test_zlangb.c): an array of (tku+tkl+1)*nb rows with the diagonal in row
   kl + ku and zeros around the band. The tridiagonal matrix of order 5 with diagonal 2, 3, 4, 5,
   6, superdiagonal -7 and subdiagonal 1: Max 7, One 13 (the
   last two columns), Inf 13. *)
Definition lb_big (l : loc) : Q_normed :=
  if negb (fst l =? 0) then n0 else
  let j := snd l / 6 in let d := snd l mod 6 - 2 in
  if d =? 0 then q (2 + j) else if (d =? -1) && (0 <? j) then q (-7) else if (d =? 1) && (j <? 4) then q 1 else n0.
Example C52_big_array :
  is_q (result (zlangb lassq_ref (fun x => x) 2 PlasmaMaxNorm 5 5 1 1 (0, 0) 6 1 2 (3, 0)) lb_big) 7 = true /\
  is_q (result (zlangb lassq_ref (fun x => x) 2 PlasmaOneNorm 5 5 1 1 (0, 0) 6 1 2 (3, 0)) lb_big) 13 = true /\
  is_q (result (zlangb lassq_ref (fun x => x) 2 PlasmaInfNorm 5 5 1 1 (0, 0) 6 1 2 (3, 0)) lb_big) 13 = true.
Proof. lazy. auto. Qed.

Lemma lb_padded : zero_padded lb_big 5 1 1 (0, 0) 6.
Proof.
  intros r j Hj Hr HO. cbn [fst snd]. unfold lb_big. cbn [fst snd].
  assert (ED : (0 + r + 6 * j) / 6 = j) by (symmetry; apply (Z.div_unique _ _ _ r); lia).
  assert (EM : (0 + r + 6 * j) mod 6 = r) by (symmetry; apply (Z.mod_unique _ _ j); lia).
  rewrite ED, EM. replace (r - 2 =? 0) with false by lia.
  replace (r - 2 =? -1) with false by lia. replace (r - 2 =? 1) with false by lia. reflexivity.
Qed.

(* The array of C52_big_array meets the hypotheses of C52_zlangb_partial and C52_zlangb_tests_partial, for each norm. *)
Example C52_big_array_meets :
  0 < 2 /\ 0 <= 1 < 5 /\ 1 + 1 + 1 <= 6 /\ 5 <= 5 /\ lassq_ok (@lassq_ref Q_normed) /\
  zero_padded lb_big 5 1 1 (0, 0) 6 /\ 6 = ((1 + 1 + 2 - 1) / 2 + (1 + 2 - 1) / 2 + 1) * 2 /\
  gb_zeros lb_big 2 5 5 1 1 (0, 0) 6 /\ is_q (Some (gb_fill_el lb_big 1 1 (0, 0) 6 1 2)) (-7) = true.
Proof.
  split; [lia|]. split; [lia|]. split; [lia|]. split; [lia|]. split; [apply lassq_ref_ok|].
  split; [exact lb_padded|]. split; [reflexivity|]. split; [|vm_compute; reflexivity].
  apply zero_padded_zeros; [lia..|reflexivity|]. exact lb_padded.
Qed.

(* A call that meets the hypotheses of C52_zlangb_workspace: the workspace of the one norm of
   C52_big_array has 20 elements. *)
Example C52_workspace_case : exists A sz, gb_create 2 5 5 1 1 = CrOk A sz /\ zlangb_work PlasmaOneNorm 2 1 1 A = 20.
Proof. do 2 eexists. split; [vm_compute; reflexivity|]. vm_compute. reflexivity. Qed.
