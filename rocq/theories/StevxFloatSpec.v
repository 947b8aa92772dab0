(* Binary64 numbers without overflow, and the middle of two of them as it is computed. *)
From Coq Require Import ZArith Reals.
From Flocq Require Import Core.
Open Scope R_scope.

(* r is a binary64 number (of any size) *)
Definition binary64 (r : R) : Prop := generic_format radix2 (FLT_exp (-1074) 53) r.

(* (x + y) * 0.5, both operations rounded to nearest, ties to even (compute/zlaebz2.c:254) *)
Definition average (x y : R) : R :=
  round radix2 (FLT_exp (-1074) 53) ZnearestE (round radix2 (FLT_exp (-1074) 53) ZnearestE (x + y) * / 2).

(* num numbers the binary64 numbers in increasing order *)
Definition numbering (num : Z -> R) : Prop :=
  (forall i j, (i < j)%Z -> num i < num j) /\ (forall r, binary64 r <-> exists i, num i = r).
