(* Specification vocabulary for descriptors, independent of the storage formulas. *)
From Coq Require Import ZArith List.
From Verif Require Import Base DescModel.
Open Scope Z_scope.

(* Where the library finds element (i,j) of the submatrix described by A (0-based):
   the tile that contains it, plus its position inside the tile stored by columns with
   the leading dimension the library uses for that tile. This is how every tile kernel
   addresses its operand, e.g. compute/pzge2desc.c:45-60. *)
Definition elem_off (A : desc) (i j : Z) : Z :=
  tile_addr A (i / d_mb A) (j / d_nb A)
  + i mod d_mb A + (j mod d_nb A) * tile_mmain A (i / d_mb A).

(* the same for band storage, whose leading dimension is tile_mmain_band
   (compute/pzgb2desc.c, pzpb2desc.c) *)
Definition band_elem_off (A : desc) (i j : Z) : Z :=
  tile_addr A (i / d_mb A) (j / d_nb A)
  + i mod d_mb A
  + (j mod d_nb A) * tile_mmain_band A (i / d_mb A) (j / d_nb A).

(* A set of matrix positions is stored without overlap inside [size] elements *)
Definition stored_within (addr : Z -> Z -> Z) (inside : Z -> Z -> Prop) (size : Z) : Prop :=
  forall i j, inside i j -> 0 <= addr i j < size.

Definition stored_apart (addr : Z -> Z -> Z) (inside : Z -> Z -> Prop) : Prop :=
  forall i j i' j', inside i j -> inside i' j' ->
    addr i j = addr i' j' -> i = i' /\ j = j'.

Definition stored_onto (addr : Z -> Z -> Z) (inside : Z -> Z -> Prop) (size : Z) : Prop :=
  forall a, 0 <= a < size -> exists i j, inside i j /\ addr i j = a.

Definition in_matrix (m n : Z) (i j : Z) : Prop := 0 <= i < m /\ 0 <= j < n.

(* sum of f over 0..k-1 *)
Definition zsum (f : Z -> Z) (k : Z) : Z :=
  fold_left Z.add (map f (zrange 0 k)) 0.

(* the tiles that packed storage keeps *)
Definition in_stored_tile (upper : bool) (nb n i j : Z) : Prop :=
  0 <= i < n /\ 0 <= j < n /\ (if upper then i / nb <= j / nb else j / nb <= i / nb).

(* the tile positions a band descriptor has room for *)
Definition in_tile_band (A : desc) (i j : Z) : Prop :=
  0 <= i < d_m A /\ 0 <= j < d_n A /\
  1 - d_kut A <= i / d_mb A - j / d_nb A <= d_klt A - 1.
