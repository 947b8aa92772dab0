(* Specification vocabulary for the LU factorization of a general band matrix. *)
From Coq Require Import ZArith List.
From Verif Require Import Base NumModel FieldModel TaskModel TaskSpec DescModel DescSpec MatModel MatSpec GuardSpec
  NormBandSpec GetrfModel GetrfSpec GbtrsSpec GbtrfDriverModel.
Import ListNotations.
Open Scope Z_scope.

(* The routine ends, on every schedule of its three regions, and Q holds of the final memory and
   the code returned. *)
Definition bdriver_ensures {V} (d : bdriver V) (M : mem V) (Q : mem V -> Z -> Prop) : Prop :=
  match d with
  | BReturns code => Q M code
  | BRuns first main last =>
      region_ensures first M (fun M1 =>
        gregion_ensures main M1 (fun M2 st =>
          if st =? 0 then region_ensures last M2 (fun M' => Q M' 0) else Q M2 st))
  end.

Section Spec.
  Context {F : fields}.

  (* a and ipiv are what the factorization of the n x n matrix A0 with kl subdiagonals, by blocks of
     nb columns, is to give: they stand for A0 (GbtrsSpec.v), the rows interchanged with row t are
     among those a column of its block reaches, U has no zero on its diagonal, and no candidate for
     a pivot was bigger than the pivot *)
  Definition band_lu (bigger : F -> F -> bool) (nb n kl : Z) (A0 a : Z -> Z -> F) (ipiv : Z -> Z) : Prop :=
    (forall t, 0 <= t < n -> t + 1 <= ipiv t <= Z.min n ((t / nb + 1) * nb + kl)) /\
    (forall i j, in_matrix n n i j -> GbtrsSpec.factored nb n a ipiv (zrange 0 ((n + nb - 1) / nb)) i j = A0 i j) /\
    (forall t, 0 <= t < n -> a t t <> n0) /\
    (comparison bigger -> well_pivoted bigger n n a).

  (* the places of the user's array for the elements that are copied *)
  Definition in_band_array (nb n kl ku : Z) (p : loc) (ld : Z) (l : loc) : Prop :=
    exists i j, in_matrix n n i j /\ gb_reads nb kl ku i j /\ l = (fst p, snd p + (kl + ku + i - j) + ld * j).
End Spec.
