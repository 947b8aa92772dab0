(* Specification vocabulary for drivers. *)
From Coq Require Import ZArith List.
From Verif Require Import Base NumModel TaskModel TaskSpec DescModel DriverModel MatModel MatSpec.
Import ListNotations.
Open Scope Z_scope.

(* the driver ends with success and memory satisfying Q, on every schedule *)
Definition driver_ensures {V} (d : driver V) (M : mem V) (Q : mem V -> Prop) : Prop :=
  match d with
  | Returns code => code = PlasmaSuccess /\ Q M
  | Runs ks => region_ensures ks M Q
  end.

(* element (i,j) of op(A), A being the user's array at p *)
Definition op_ul {N : numbers} (M : mem N) (trans : Z) (p : loc) (ld i j : Z) : N :=
  if trans =? PlasmaNoTrans then ul M p ld i j
  else if trans =? PlasmaTrans then ul M p ld j i
  else nconj (ul M p ld j i).

(* two user matrices share no element *)
Definition apart (p : loc) (ld m n : Z) (p' : loc) (ld' m' n' : Z) : Prop :=
  forall l, in_user p ld m n l -> ~ in_user p' ld' m' n' l.

Definition valid_trans (t : Z) : Prop := t = PlasmaNoTrans \/ t = PlasmaTrans \/ t = PlasmaConjTrans.

(* element (i,j) is in the triangle named by uplo *)
Definition selects (uplo i j : Z) : Prop :=
  (uplo = PlasmaUpper /\ i <= j) \/ (uplo = PlasmaLower /\ j <= i).
Definition valid_uplo (uplo : Z) : Prop := uplo = PlasmaUpper \/ uplo = PlasmaLower.
