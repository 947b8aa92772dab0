(* Specification vocabulary for the Cholesky factorization. *)
From Coq Require Import ZArith List.
From Verif Require Import Base NumModel FieldModel TaskModel TaskSpec DescModel DescSpec DriverSpec MatModel MatSpec
  GuardModel GuardSpec PotrfModel.
Open Scope Z_scope.

(* the routine ends, on every schedule, and Q holds of the final memory and the code returned *)
Definition gdriver_ensures {V} (d : gdriver V) (M : mem V) (Q : mem V -> Z -> Prop) : Prop :=
  match d with
  | GReturns code => Q M code
  | GRuns ks => gregion_ensures ks M Q
  end.

(* S is the n x n Hermitian matrix whose triangle uplo is stored at p *)
Definition is_hermitian {N : numbers} (M : mem N) (uplo : Z) (p : loc) (ld n : Z) (S : Z -> Z -> N) : Prop :=
  (forall i j, in_matrix n n i j -> selects uplo i j -> S i j = ul M p ld i j) /\
  (forall i j, in_matrix n n i j -> S j i = nconj (S i j)).

(* an element of the triangle uplo of the user's matrix *)
Definition in_triangle (uplo : Z) (p : loc) (ld n : Z) (l : loc) : Prop :=
  exists i j, in_matrix n n i j /\ selects uplo i j /\ l = (fst p, snd p + i + j * ld).

(* T*T^H (lower) or T^H*T (upper) *)
Definition factor_product {N : numbers} (uplo n : Z) (T : Z -> Z -> N) (i j : Z) : N :=
  if uplo =? PlasmaLower
  then nsum (fun l => nmul (T i l) (nconj (T j l))) 0 n
  else nsum (fun l => nmul (nconj (T l i)) (T l j)) 0 n.

(* which numbers are positive *)
Record positivity (F : fields) := mkpositivity {
  fpos : F -> Prop;
  fpos_add : forall x y, fpos x -> fpos y -> fpos (nadd x y);
  fpos_sq : forall x, x <> n0 -> fpos (nmul (nconj x) x);
  fpos_0 : ~ fpos n0 }.
Arguments fpos {F} _ _.

(* every positive number has a square root *)
Definition has_roots {F : fields} (P : positivity F) (R : roots F) : Prop :=
  forall d, nconj d = d -> fpos P d -> rt R d <> None.

(* the leading k x k matrix is positive definite: x^H*S*x > 0 for every nonzero x *)
Definition pos_def {F : fields} (P : positivity F) (k : Z) (S : Z -> Z -> F) : Prop :=
  forall x : Z -> F, (exists i, 0 <= i < k /\ x i <> n0) ->
    fpos P (nsum (fun i => nsum (fun j => nmul (nconj (x i)) (nmul (S i j) (x j))) 0 k) 0 k).
