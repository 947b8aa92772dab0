(* Specification vocabulary for triangular matrices. *)
From Coq Require Import ZArith.
From Verif Require Import Base NumModel TaskModel TaskSpec DescModel DescSpec DriverSpec MatModel MatSpec.
Open Scope Z_scope.

(* S is the k x k triangular matrix stored in the triangle uplo of the array at p; its
   diagonal is stored unless diag says it is one *)
Definition is_triangle {N : numbers} (M : mem N) (uplo diag : Z) (p : loc) (ld k : Z) (S : Z -> Z -> N) : Prop :=
  forall i j, in_matrix k k i j ->
    (selects uplo i j -> i <> j \/ diag = PlasmaNonUnit -> S i j = ul M p ld i j) /\
    (i = j -> diag = PlasmaUnit -> S i j = n1) /\
    (~ selects uplo i j -> S i j = n0).

(* op(S) *)
Definition op_of {N : numbers} (trans : Z) (S : Z -> Z -> N) (i j : Z) : N :=
  if trans =? PlasmaNoTrans then S i j
  else if trans =? PlasmaTrans then S j i
  else nconj (S j i).
