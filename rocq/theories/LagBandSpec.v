(* What the conversion of a band matrix covers. *)
From Coq Require Import ZArith.
Open Scope Z_scope.

(* element (i,j) lies in a tile at most ceil(kl/nb) tiles below or ceil(ku/nb) tiles right of the
   diagonal; the elements of the band all do *)
Definition near_band (nb kl ku i j : Z) : Prop :=
  i / nb - j / nb <= (kl + nb - 1) / nb /\ j / nb - i / nb <= (ku + nb - 1) / nb.
