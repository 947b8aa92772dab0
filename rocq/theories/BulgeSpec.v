(* What the bulge chasing needs of the storage of its vectors. *)
From Coq Require Import ZArith List.
From Verif Require Import Base BulgeModel.
Open Scope Z_scope.

(* sweep sw (from 0) of a matrix of order N uses a vector that starts in row st and has len elements *)
Definition uses_vector (N nb sw st len : Z) : Prop :=
  0 <= sw < N - 1 /\ exists myid, chase_reached N nb (sw + 1) myid /\ In (st, len) (chase_vectors N nb (sw + 1) myid).
