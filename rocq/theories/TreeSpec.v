(* What a valid order of kernels for the QR factorization of mt by nt tiles is. *)
From Coq Require Import ZArith List Bool.
From Verif Require Import TreeModel.
Import ListNotations.
Open Scope Z_scope.

(* A tile on or below the diagonal has not been treated, is upper triangular, or is zero. *)
Inductive tile_state := Full | Triangular | Zero.

Definition tiling := Z -> Z -> tile_state.

Definition untreated : tiling := fun _ _ => Full.

Definition put (S : tiling) (r c : Z) (x : tile_state) : tiling :=
  fun r' c' => if (r' =? r) && (c' =? c) then x else S r' c'.

(* The rows r and p take part in column c: they lie on or below its diagonal, and the tiles to the left are zero. *)
Definition row_ready (mt minnt : Z) (S : tiling) (r c : Z) : Prop :=
  0 <= c < minnt /\ c <= r < mt /\ (0 < c -> S r (c - 1) = Zero).

(* When an operation may be done.
   kernel 1: the full tile (row, col) is made triangular;
   kernel 2: the triangular tile (row, col) is eliminated with the triangular tile (piv, col);
   kernel 3: the full tile (row, col) is eliminated with the triangular tile (piv, col). *)
Definition allowed (mt minnt : Z) (S : tiling) (o : top) : Prop :=
  let c := t_col o in
  let r := t_row o in
  let p := t_piv o in
  row_ready mt minnt S r c /\
  ( (t_kernel o = 1 /\ S r c = Full)
    \/ (t_kernel o = 2 /\ S r c = Triangular /\ p < r /\ row_ready mt minnt S p c /\ S p c = Triangular)
    \/ (t_kernel o = 3 /\ S r c = Full /\ p < r /\ row_ready mt minnt S p c /\ S p c = Triangular)).

(* What it does. *)
Definition effect (S : tiling) (o : top) : tiling :=
  put S (t_row o) (t_col o) (if t_kernel o =? 1 then Triangular else Zero).

Fixpoint effects (S : tiling) (ops : list top) : tiling :=
  match ops with
  | [] => S
  | o :: r => effects (effect S o) r
  end.

Fixpoint all_allowed (mt minnt : Z) (S : tiling) (ops : list top) : Prop :=
  match ops with
  | [] => True
  | o :: r => allowed mt minnt S o /\ all_allowed mt minnt (effect S o) r
  end.

(* How often a list of operations eliminates a tile, and makes it triangular. *)
Definition eliminations (ops : list top) (r c : Z) : nat :=
  length (filter (fun o => negb (t_kernel o =? 1) && (t_row o =? r) && (t_col o =? c)) ops).
Definition triangularisations (ops : list top) (r c : Z) : nat :=
  length (filter (fun o => (t_kernel o =? 1) && (t_row o =? r) && (t_col o =? c)) ops).

(* The list is a QR elimination scheme: every operation is allowed when its turn comes; every
   tile below the diagonal of the first min(mt, nt) columns is eliminated exactly once, and no
   other; each tile is made triangular at most once, those on the diagonal exactly once; at
   the end the diagonal tiles are triangular and those below are zero. *)
Definition elimination_scheme (mt nt : Z) (ops : list top) : Prop :=
  let minnt := Z.min mt nt in
  all_allowed mt minnt untreated ops /\
  (forall r c, eliminations ops r c = if (0 <=? c) && (c <? minnt) && (c <? r) && (r <? mt) then 1%nat else 0%nat) /\
  (forall r c, (triangularisations ops r c <= 1)%nat) /\
  (forall c, 0 <= c < minnt -> triangularisations ops c c = 1%nat) /\
  (forall c, 0 <= c < minnt -> effects untreated ops c c = Triangular) /\
  (forall r c, 0 <= c < minnt -> c < r < mt -> effects untreated ops r c = Zero).
