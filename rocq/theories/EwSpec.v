(* Specification vocabulary for the element-wise operations. *)
From Coq Require Import ZArith.
From Verif Require Import Base DescModel DriverModel DriverSpec.
Open Scope Z_scope.

(* position (i,j) is in the part of the matrix named by uplo: everything, the upper or the
   lower trapezoid, diagonal included *)
Definition in_part (uplo i j : Z) : Prop := uplo = PlasmaGeneral \/ selects uplo i j.
Definition valid_part (uplo : Z) : Prop := uplo = PlasmaGeneral \/ valid_uplo uplo.
