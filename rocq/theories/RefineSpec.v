(* What iterative refinement should report. *)
From Coq Require Import ZArith.
Open Scope Z_scope.

(* Refinement of an approximate solution: a first iterate, the next iterate, the test, and the
   solution computed directly. *)
Record refinement (D : Type) := mkref {
  first : D;
  next : D -> D;
  accept : D -> Prop }.
Arguments mkref {_}. Arguments first {_}. Arguments next {_}. Arguments accept {_}.

(* The k-th iterate. *)
Fixpoint iterate {D} (r : refinement D) (k : nat) : D :=
  match k with O => first r | S k => next r (iterate r k) end.

(* iter = k says that the k-th iterate is the first acceptable one and is the result; -(lim+1)
   that none of the iterates 0 to lim is acceptable. *)
Definition reports {D} (r : refinement D) (lim : nat) (iter : Z) (result direct : D) : Prop :=
  (exists k : nat, (k <= lim)%nat /\ iter = Z.of_nat k /\ accept r (iterate r k) /\
     (forall j, (j < k)%nat -> ~ accept r (iterate r j)) /\ result = iterate r k) \/
  (iter = - (Z.of_nat lim + 1) /\ (forall j, (j <= lim)%nat -> ~ accept r (iterate r j)) /\
     result = direct).
