(* Specification vocabulary for norms of general band matrices. *)
From Coq Require Import ZArith List Bool.
From Verif Require Import Base NumModel TaskModel DescSpec MatModel.
Open Scope Z_scope.

(* the general band matrix with kl subdiagonals and ku superdiagonals in the band storage of
   LAPACK, kl + ku + 1 rows: element (i,j) is in row ku + i - j of column j *)
Definition gb_el {N : numbers} (M : mem N) (kl ku : Z) (p : loc) (ld i j : Z) : N :=
  if (j - ku <=? i) && (i <=? j + kl) then M (fst p, snd p + (ku + i - j) + ld * j) else n0.

(* the same matrix with kl more rows above the band, as the tests lay it out
   (test/test_zlangb.c): element (i,j) is in row kl + ku + i - j of column j *)
Definition gb_row {N : numbers} (M : mem N) (kl ku : Z) (p : loc) (ld i j : Z) : N :=
  M (fst p, snd p + (kl + ku + i - j) + ld * j).
Definition gb_fill_el {N : numbers} (M : mem N) (kl ku : Z) (p : loc) (ld i j : Z) : N :=
  if (j - ku <=? i) && (i <=? j + kl) then gb_row M kl ku p ld i j else n0.

(* the elements (i,j) of tiles of size nb that are copied from the array: all of the diagonal tile, else
   those from kl + ku diagonals above the main one to kl + nb below it, as far as there are tiles *)
Definition gb_reads (nb kl ku i j : Z) : Prop :=
  (i / nb = j / nb \/ - (kl + ku) <= i - j <= kl + nb) /\ i / nb - j / nb <= (kl + nb - 1) / nb.

(* those of them outside the band are zero *)
Definition gb_zeros {N : numbers} (M : mem N) (nb m n kl ku : Z) (p : loc) (ld : Z) : Prop :=
  forall i j, in_matrix m n i j -> gb_reads nb kl ku i j ->
    i - j < - ku \/ kl < i - j -> gb_row M kl ku p ld i j = n0.

(* the array is zero but for the band *)
Definition zero_padded {N : numbers} (M : mem N) (n kl ku : Z) (p : loc) (ld : Z) : Prop :=
  forall r j, 0 <= j < n -> 0 <= r < ld -> r < kl \/ 2 * kl + ku < r -> M (fst p, snd p + r + ld * j) = n0.
