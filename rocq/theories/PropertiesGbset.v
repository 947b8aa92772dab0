(* C59: zeroing a matrix outside of a band. *)
From Coq Require Import ZArith List Lia.
From Verif Require Import Base NumModel NumInstances TaskModel TaskSpec DescModel DescSpec MatModel MatSpec
  DriverModel DriverSpec GbsetModel GbsetSpec GbsetProofs GbsetRefProofs.
Import ListNotations.
Open Scope Z_scope.

(* Every element outside of the band becomes zero, the band and all other memory stay as they
   are, for every tile size nb and every schedule of every call of plasma_zlaset. Partial: holds
   of the code only if the band is wide (kl + ku >= m), or if the array is not padded (lda = m)
   and the matrix is not tall or its band narrow; see the refutations below. *)
Theorem C59_zgbset_partial : forall (N : numbers) nb m n kl ku (pA : loc) lda b (M : mem N),
  0 < nb -> 0 <= kl < m -> 0 <= ku < n -> m <= lda -> fst pA <> b ->
  m <= kl + ku \/ (lda = m /\ (m <= n \/ kl <= 1 \/ kl + ku <= n)) ->
  calls_ensure (zgbset nb m n kl ku pA lda b) M (fun M' =>
    (forall i j, in_matrix m n i j -> off_band kl ku i j -> ul M' pA lda i j = n0) /\
    (forall i j, in_matrix m n i j -> ~ off_band kl ku i j -> ul M' pA lda i j = ul M pA lda i j) /\
    (forall l, fst l <> b -> ~ in_user pA lda m n l -> M' l = M l)).
Proof. exact zgbset_main. Qed.
Print Assumptions C59_zgbset_partial.

(* 4 x 6 with 1 subdiagonal and 1 superdiagonal: 5 calls; the first one clears the strips between
   the columns of the band. 5 x 4 with 3 and 2 in an array with 7 rows: 2 calls. *)
Example C59_case : gbset_calls 4 6 1 1 4
    = [Call 2 3 2 5; Call 1 2 16 4; Call 1 2 17 4; Call 1 2 18 4; Call 1 1 23 4] /\
  gbset_calls 5 4 3 2 7 = [Call 1 1 4 8; Call 1 1 21 8] /\
  off_band 1 1 3 0 /\ off_band 1 1 0 2 /\ ~ off_band 1 1 1 2.
Proof. unfold off_band. repeat split; try reflexivity; lia. Qed.

(* with a padded array an element outside of the band is not zeroed, and padding is *)
Theorem C59_zgbset_padded_refuted : exists nb m n kl ku lda (pA : loc) b (M : mem G_numbers),
  0 < nb /\ 0 <= kl < m /\ 0 <= ku < n /\ m <= lda /\ fst pA <> b /\
  ~ calls_ensure (zgbset nb m n kl ku pA lda b) M (fun M' =>
      forall i j, in_matrix m n i j -> off_band kl ku i j -> ul M' pA lda i j = n0) /\
  ~ calls_ensure (zgbset nb m n kl ku pA lda b) M (fun M' =>
      forall l, fst l <> b -> ~ in_user pA lda m n l -> M' l = M l).
Proof. exact gbset_padded. Qed.
Print Assumptions C59_zgbset_padded_refuted.

(* for a tall matrix an element of the band is zeroed, and memory before the array *)
Theorem C59_zgbset_tall_refuted : exists nb m n kl ku lda (pA : loc) b (M : mem G_numbers),
  0 < nb /\ 0 <= kl < m /\ 0 <= ku < n /\ lda = m /\ fst pA <> b /\
  ~ calls_ensure (zgbset nb m n kl ku pA lda b) M (fun M' =>
      forall i j, in_matrix m n i j -> ~ off_band kl ku i j -> ul M' pA lda i j = ul M pA lda i j) /\
  ~ calls_ensure (zgbset nb m n kl ku pA lda b) M (fun M' =>
      forall l, fst l <> b -> ~ in_user pA lda m n l -> M' l = M l).
Proof. exact gbset_tall_wrong. Qed.
Print Assumptions C59_zgbset_tall_refuted.
