(* Specification vocabulary for matrices in memory. *)
From Coq Require Import ZArith.
From Verif Require Import Base NumModel TaskModel DescModel DescSpec.
Open Scope Z_scope.

(* element (i,j) of the tile matrix described by A, stored in block b *)
Definition el {V} (M : mem V) (b : Z) (A : desc) (i j : Z) : V := M (b, elem_off A i j).

(* element (i,j) of the user's column-major array at p with leading dimension ld *)
Definition ul {V} (M : mem V) (p : loc) (ld i j : Z) : V := M (fst p, snd p + i + j * ld).

(* l is one of the elements of the user's m x n matrix *)
Definition in_user (p : loc) (ld m n : Z) (l : loc) : Prop :=
  exists i j, 0 <= i < m /\ 0 <= j < n /\ l = (fst p, snd p + i + j * ld).
