(* What a solution of a least squares problem is. *)
From Coq Require Import ZArith List Bool.
From Verif Require Import Base NumModel.
Open Scope Z_scope.

Section LsSpec.
  Context {N : numbers}.

  (* A*x for a matrix with n columns *)
  Definition mat_vec (n : Z) (A : Z -> Z -> N) (x : Z -> N) (i : Z) : N :=
    nsum (fun l => nmul (A i l) (x l)) 0 n.

  (* the sum of the squares of the moduli of elements lo..hi-1 *)
  Definition sum_squares (x : Z -> N) (lo hi : Z) : N :=
    nsum (fun i => nmul (nconj (x i)) (x i)) lo hi.

  (* the columns of the m x n matrix A are independent: A has a left inverse *)
  Definition full_column_rank (m n : Z) (A : Z -> Z -> N) : Prop :=
    exists L : Z -> Z -> N, forall r c, 0 <= r < n -> 0 <= c < n ->
      nsum (fun i => nmul (L r i) (A i c)) 0 m = if r =? c then n1 else n0.

  (* the rows of the m x n matrix A are independent: A has a right inverse *)
  Definition full_row_rank (m n : Z) (A : Z -> Z -> N) : Prop :=
    exists L : Z -> Z -> N, forall r c, 0 <= r < m -> 0 <= c < m ->
      nsum (fun i => nmul (A r i) (L i c)) 0 n = if r =? c then n1 else n0.

  (* x solves min |b - A*x|: the residual is orthogonal to the columns of A *)
  Definition least_squares (m n : Z) (A : Z -> Z -> N) (b x : Z -> N) : Prop :=
    forall r, 0 <= r < n ->
      nsum (fun i => nmul (nconj (A i r)) (nsub (b i) (mat_vec n A x i))) 0 m = n0.

  (* x is the solution of A*x = b of least norm: it is orthogonal to the null space of A *)
  Definition minimum_norm (m n : Z) (A : Z -> Z -> N) (b x : Z -> N) : Prop :=
    (forall i, 0 <= i < m -> mat_vec n A x i = b i) /\
    forall z, (forall i, 0 <= i < m -> mat_vec n A z i = n0) ->
      nsum (fun l => nmul (nconj (x l)) (z l)) 0 n = n0.

  (* the columns of the m x n matrix Q are orthonormal *)
  Definition orthonormal_columns (m n : Z) (Q : Z -> Z -> N) : Prop :=
    forall r c, 0 <= r < n -> 0 <= c < n ->
      nsum (fun i => nmul (nconj (Q i r)) (Q i c)) 0 m = if r =? c then n1 else n0.
End LsSpec.
