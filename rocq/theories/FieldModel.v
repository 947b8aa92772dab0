(* Exact arithmetic with division. *)
From Coq Require Import ZArith.
From Verif Require Import Base NumModel.
Open Scope Z_scope.

(* C99 complex division, e.g. compute/pztrsm.c:236 (-1.0/alpha) and inside the BLAS ztrsm.
   Division by zero has no value here: nothing is assumed about finv n0. *)
Record fields := mkfields {
  fnum :> numbers;
  finv : fnum -> fnum;
  finv_l : forall x : fnum, x <> n0 -> nmul (finv x) x = n1 }.
Arguments finv {_} _.
