(* Exact arithmetic standing for plasma_complex64_t.

   Simplification: floating point numbers are replaced by the elements of an arbitrary
   commutative ring with an involution (complex conjugation). No rounding, no overflow,
   no NaN. The instances used in examples are the integers and the Gaussian integers. *)
From Coq Require Import ZArith List Ring Bool.
From Verif Require Import Base.
Open Scope Z_scope.

(* include/plasma_types.h (plasma_complex64_t) and C99 complex arithmetic, conj() *)
Record numbers := mknumbers {
  num :> Type;
  n0 : num; n1 : num;
  nadd : num -> num -> num; nmul : num -> num -> num; nsub : num -> num -> num;
  nopp : num -> num;
  nconj : num -> num;
  neqb : num -> num -> bool;
  nring : ring_theory n0 n1 nadd nmul nsub nopp (@eq num);
  nconj_add : forall x y, nconj (nadd x y) = nadd (nconj x) (nconj y);
  nconj_mul : forall x y, nconj (nmul x y) = nmul (nconj x) (nconj y);
  nconj_conj : forall x, nconj (nconj x) = x;
  neqb_eq : forall x y, neqb x y = true <-> x = y }.

Arguments n0 {_}. Arguments n1 {_}. Arguments nadd {_} _ _. Arguments nmul {_} _ _.
Arguments nsub {_} _ _. Arguments nopp {_} _. Arguments nconj {_} _. Arguments neqb {_} _ _.

Declare Scope num_scope.
Delimit Scope num_scope with num.
Notation "x + y" := (nadd x y) : num_scope.
Notation "x * y" := (nmul x y) : num_scope.
Notation "x - y" := (nsub x y) : num_scope.
Notation "- x" := (nopp x) : num_scope.

(* sum of f over lo, lo+1, ..., hi-1: the usual mathematical sum
   (the sums in the products of core_blas/core_zgemm.c:89-102) *)
Definition nsum {N : numbers} (f : Z -> N) (lo hi : Z) : N :=
  fold_right (fun i s => nadd (f i) s) n0 (zrange lo hi).
