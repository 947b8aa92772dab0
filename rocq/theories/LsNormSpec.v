(* The norm of a complex vector. *)
From Coq Require Import Reals ZArith.
From Verif Require Import Base NumModel FieldModel ComplexInstances LsSpec.
Open Scope Z_scope.

(* the square of the Euclidean norm of elements 0..n-1 of a complex vector *)
Definition norm2 (x : Z -> C_fields) (n : Z) : R := fst (sum_squares x 0 n : R * R).
