(* C61: systems with a general band matrix, from its LU factorization. *)
From Coq Require Import ZArith List Bool Lia.
From Verif Require Import Base NumModel NumInstances FieldModel FieldInstances
  TaskModel TaskSpec DescModel DescSpec MatModel MatSpec TriModel TriSpec SwpModel SwpSpec
  NormBandSpec GbtrsModel GbtrsSpec GbtrsDriverProofs.
Import ListNotations.
Open Scope Z_scope.

(* For every tile size and every schedule: if the array holds the factors a of a band matrix as
   plasma_zgbtrf lays them out (GbtrsSpec.v), without zeros on the diagonal of U, and ipiv its
   interchanges, plasma_zgbtrs returns success and replaces B by X with op(A)*X = B, where A is the
   matrix P_0 L_0 P_1 L_1 ... U these stand for and op the identity, the transposition or the
   conjugate transposition. Nothing else changes. The band must be narrower than the matrix. *)
Theorem C61_zgbtrs_solves : forall (F : fields) (a : Z -> Z -> F) nb trans n kl ku nrhs pA ld ipiv pB ldb bA bB M,
  0 < nb -> trans = PlasmaNoTrans \/ trans = PlasmaTrans \/ trans = PlasmaConjTrans ->
  0 <= kl < n -> 0 <= ku < n -> 0 <= nrhs -> kl + ku < ld -> n <= ldb ->
  NoDup [bA; bB; fst pA; fst pB] ->
  band_factors nb n M kl ku pA ld a -> legal_pivots ipiv n -> (forall i, 0 <= i < n -> a i i <> n0) ->
  pdriver_ensures (zgbtrs nb trans n kl ku nrhs pA ld ipiv pB ldb bA bB) M (fun M' code => code = 0 /\
    (forall i j, in_matrix n nrhs i j ->
       nsum (fun l => nmul (op_of trans (factored nb n a ipiv (zrange 0 ((n + nb - 1) / nb))) i l) (ul M' pB ldb l j)) 0 n
       = ul M pB ldb i j) /\
    (forall l, ~ In (fst l) [bA; bB] -> ~ in_user pB ldb n nrhs l -> M' l = M l)).
Proof. exact (@zgbtrs_main). Qed.
Print Assumptions C61_zgbtrs_solves.

(* A system without unknowns but with right hand sides passes the argument checks and is then
   refused, instead of there being nothing to do. *)
Theorem C61_zgbtrs_empty_refuted : exists nb trans n kl ku nrhs ldab ldb,
  0 < nb /\ trans = PlasmaNoTrans /\ 0 <= n /\ 0 <= kl /\ 0 <= ku /\ 0 <= nrhs /\
  Z.max 1 (1 + kl + ku) <= ldab /\ Z.max 1 n <= ldb /\ n = 0 /\
  forall (F : fields) pA ipiv pB bA bB,
    zgbtrs (F := F) nb trans n kl ku nrhs pA ldab ipiv pB ldb bA bB = PReturns PlasmaErrorIllegalValue.
Proof. exact zgbtrs_empty. Qed.
Print Assumptions C61_zgbtrs_empty_refuted.

(* So is a band as wide as the matrix. *)
Theorem C61_zgbtrs_wide_band_refuted : exists nb trans n kl ku nrhs ldab ldb,
  0 < nb /\ trans = PlasmaNoTrans /\ 0 < n /\ 0 <= kl /\ 0 <= ku /\ 0 < nrhs /\
  Z.max 1 (1 + kl + ku) <= ldab /\ Z.max 1 n <= ldb /\
  forall (F : fields) pA ipiv pB bA bB,
    zgbtrs (F := F) nb trans n kl ku nrhs pA ldab ipiv pB ldb bA bB = PReturns PlasmaErrorIllegalValue.
Proof. exact zgbtrs_wide_band. Qed.
Print Assumptions C61_zgbtrs_wide_band_refuted.

(* The array need not have room for what the code reads: with the least leading dimension that
   passes the check, 1 + kl + ku, an element below the diagonal that is read belongs to the next
   column, so factors with a nonzero there are not solved with. *)
Theorem C61_zgbtrs_least_ld_refuted : exists nb n kl ku,
  0 < nb /\ 0 <= kl < n /\ 0 <= ku < n /\
  forall (F : fields) (a : Z -> Z -> F) M p, band_factors nb n M kl ku p (1 + kl + ku) a -> a 1 0 = a 0 1.
Proof. exact gb_least_ld. Qed.
Print Assumptions C61_zgbtrs_least_ld_refuted.

(* A case with three tile rows, kl = ku = 1 and the leading dimension of the tests: U has two
   superdiagonals, the columns of L end with rows 2 and 4; rows 0 and 1 and rows 2 and 3 are
   interchanged. Block 0 holds the factors, block 1 the right hand sides. *)
Definition gb_a (i j : Z) : QI_fields :=
  if (i <? 0) || (4 <? i) || (j <? 0) || (4 <? j) then n0
  else if (j - i <=? 2) && (i <? (j / 2 + 1) * 2 + 1) then qi (i + 2 * j + 1) (i - j) else n0.
Definition gb_ipiv (i : Z) : Z := nth (Z.to_nat i) [2; 2; 4; 5; 5] 0.
Definition gb_X (i j : Z) : QI_fields := qi (i + 1) (j - i).
Definition gb_B (trans i j : Z) : QI_fields :=
  nsum (fun l => nmul (op_of trans (factored 2 5 gb_a gb_ipiv (zrange 0 3)) i l) (gb_X l j)) 0 5.
Definition gb_mem (B : list QI_fields) (l : loc) : QI_fields :=
  if fst l =? 0 then gb_a (snd l mod 6 - 2 + snd l / 6) (snd l / 6)
  else if fst l =? 1 then (if snd l mod 6 <? 5 then nth (Z.to_nat (snd l mod 6 + 5 * (snd l / 6))) B n0 else qi 9 0)
  else n0.
Definition gb_rhs (trans : Z) : list QI_fields :=
  flat_map (fun j => map (fun i => gb_B trans i j) (zrange 0 5)) (zrange 0 2).

Example C61_zgbtrs_case : forall B, 6 = ((1 + 1 + 2 - 1) / 2 + (1 + 2 - 1) / 2 + 1) * 2 /\
  band_factors 2 5 (gb_mem B) 1 1 (0, 0) 6 gb_a /\ legal_pivots gb_ipiv 5 /\ (forall i, 0 <= i < 5 -> gb_a i i <> n0).
Proof.
  intros B.
  assert (E5 : forall i, 0 <= i < 5 -> i = 0 \/ i = 1 \/ i = 2 \/ i = 3 \/ i = 4) by (intros; lia).
  split; [reflexivity|]. split; [|split].
  - split.
    + intros i j [Hi Hj] [HR HK]. apply E5 in Hi. apply E5 in Hj.
      destruct Hi as [->|[->|[->|[->| ->]]]]; destruct Hj as [->|[->|[->|[->| ->]]]];
        first [reflexivity|vm_compute in HR, HK; intuition congruence].
    + intros i j [Hi Hj] HZ. apply E5 in Hi. apply E5 in Hj.
      destruct Hi as [->|[->|[->|[->| ->]]]]; destruct Hj as [->|[->|[->|[->| ->]]]];
        first [reflexivity|vm_compute in HZ; intuition congruence].
  - intros i Hi. apply E5 in Hi. destruct Hi as [->|[->|[->|[->| ->]]]]; vm_compute; split; discriminate.
  - intros i Hi E. apply (proj2 (neqb_eq QI_fields _ _)) in E. apply E5 in Hi.
    destruct Hi as [->|[->|[->|[->| ->]]]]; vm_compute in E; discriminate.
Qed.

Example C61_zgbtrs_run :
  forallb (fun trans =>
    let B := gb_rhs trans in
    match zgbtrs 2 trans 5 1 1 2 (0, 0) 6 gb_ipiv (1, 0) 6 2 3 with
    | PRuns ph => let M := fold_left (fun M ks => krun ks M) ph (gb_mem B) in
      forallb (fun i => forallb (fun j => neqb (M (1, i + 6 * j)) (gb_X i j)) (zrange 0 2)) (zrange 0 5)
    | PReturns _ => false
    end) [PlasmaNoTrans; PlasmaTrans; PlasmaConjTrans] = true.
Proof. vm_compute. reflexivity. Qed.
