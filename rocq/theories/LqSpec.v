(* Orthonormal rows. *)
From Coq Require Import ZArith.
From Verif Require Import Base NumModel.
Open Scope Z_scope.

(* the rows of the m x n matrix Q are orthonormal *)
Definition orthonormal_rows {N : numbers} (m n : Z) (Q : Z -> Z -> N) : Prop :=
  forall r c, 0 <= r < m -> 0 <= c < m ->
    nsum (fun i => nmul (Q r i) (nconj (Q c i))) 0 n = if r =? c then n1 else n0.
