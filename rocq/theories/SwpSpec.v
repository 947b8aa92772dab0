(* Specification vocabulary for interchanges. *)
From Coq Require Import ZArith List.
Import ListNotations.
Open Scope Z_scope.

(* the transposition of a and b *)
Definition transposed (a b i : Z) : Z :=
  if i =? a then b else if i =? b then a else i.

(* The interchanges (a1,b1), (a2,b2), ... carried out in this order put into row i what was
   in row [source ... i] before. *)
Definition source (swaps : list (Z * Z)) (i : Z) : Z :=
  fold_right (fun s r => transposed (fst s) (snd s) r) i swaps.

(* the interchanges an LAPACK pivot vector of length k stands for: row i with row
   ipiv(i)-1 (rows counted from 0, entries of ipiv from 1), for i = 0, 1, ..., k-1 *)
Fixpoint interchanges (ipiv : Z -> Z) (k : nat) : list (Z * Z) :=
  match k with
  | O => []
  | S k' => interchanges ipiv k' ++ [(Z.of_nat k', ipiv (Z.of_nat k') - 1)]
  end.

(* a pivot vector of length k: every entry is the number of a row *)
Definition legal_pivots (ipiv : Z -> Z) (k : Z) : Prop := forall i, 0 <= i < k -> 1 <= ipiv i <= k.
