(* Specification vocabulary for band matrices, independent of the model: LAPACK's band
   storage of a triangle and Hermitian band matrices. *)
From Coq Require Import ZArith List.
From Verif Require Import Base NumModel TaskModel DescModel DescSpec DriverSpec MatModel MatSpec.
Open Scope Z_scope.

(* position (i,j) of the triangle uplo lies within kd diagonals of the main diagonal *)
Definition in_band (uplo kd i j : Z) : Prop :=
  (uplo = PlasmaUpper /\ 0 <= j - i <= kd) \/ (uplo = PlasmaLower /\ 0 <= i - j <= kd).

(* where LAPACK keeps element (i,j) of the band: column j of the array, with the diagonal in
   row kd (upper) or in row 0 (lower) *)
Definition band_loc (uplo kd : Z) (p : loc) (ld i j : Z) : loc :=
  (fst p, snd p + ((if uplo =? PlasmaUpper then kd else 0) + i - j) + j * ld).

(* element (i,j) of the user's band array *)
Definition bel {V} (M : mem V) (uplo kd : Z) (p : loc) (ld i j : Z) : V := M (band_loc uplo kd p ld i j).

(* l is one of the elements of the user's band *)
Definition in_user_band (uplo kd : Z) (p : loc) (ld n : Z) (l : loc) : Prop :=
  exists i j, in_matrix n n i j /\ in_band uplo kd i j /\ l = band_loc uplo kd p ld i j.

(* the n x n triangular band matrix stored at p: T is the stored elements and zeros *)
Definition is_band_triangle {N : numbers} (M : mem N) (uplo kd : Z) (p : loc) (ld n : Z) (T : Z -> Z -> N)
    : Prop :=
  forall i j, in_matrix n n i j ->
    (in_band uplo kd i j -> T i j = bel M uplo kd p ld i j) /\ (~ in_band uplo kd i j -> T i j = n0).

(* S is the n x n Hermitian band matrix whose triangle uplo is stored at p *)
Definition is_hermitian_band {N : numbers} (M : mem N) (uplo kd : Z) (p : loc) (ld n : Z) (S : Z -> Z -> N)
    : Prop :=
  (forall i j, in_matrix n n i j -> in_band uplo kd i j -> S i j = bel M uplo kd p ld i j) /\
  (forall i j, in_matrix n n i j -> ~ (- kd <= i - j <= kd) -> S i j = n0) /\
  (forall i j, in_matrix n n i j -> S j i = nconj (S i j)).
