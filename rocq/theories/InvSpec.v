(* Specification vocabulary for inverses. *)
From Coq Require Import ZArith.
From Verif Require Import Base NumModel TaskModel TaskSpec DescModel DescSpec DriverSpec MatModel MatSpec.
Open Scope Z_scope.

(* X is the inverse of the n x n matrix S: S*X and X*S are the identity *)
Definition is_inverse {N : numbers} (n : Z) (S X : Z -> Z -> N) : Prop :=
  forall i j, in_matrix n n i j ->
    nsum (fun l => nmul (S i l) (X l j)) 0 n = (if i =? j then n1 else n0) /\
    nsum (fun l => nmul (X i l) (S l j)) 0 n = (if i =? j then n1 else n0).

(* the diagonal kinds a triangular matrix can have (include/plasma_types.h:84-85) *)
Definition valid_diag (diag : Z) : Prop := diag = PlasmaUnit \/ diag = PlasmaNonUnit.

(* an element of the array that stores part of the triangular matrix: the triangle uplo,
   without its diagonal if diag says the diagonal is one *)
Definition in_stored_triangle (uplo diag : Z) (p : loc) (ld n : Z) (l : loc) : Prop :=
  exists i j, in_matrix n n i j /\ selects uplo i j /\ (i <> j \/ diag = PlasmaNonUnit) /\
    l = (fst p, snd p + i + j * ld).

(* T^H*T (lower) or T*T^H (upper), the order opposite to that of the Cholesky factorization *)
Definition reverse_product {N : numbers} (uplo n : Z) (T : Z -> Z -> N) (i j : Z) : N :=
  if uplo =? PlasmaLower
  then nsum (fun l => nmul (nconj (T l i)) (T l j)) 0 n
  else nsum (fun l => nmul (T i l) (nconj (T j l))) 0 n.
