(* Translation between the user's column-major arrays and tile layout. *)
From Coq Require Import ZArith List Bool.
From Verif Require Import Base TaskModel TaskSpec DescModel MatModel.
Import ListNotations.
Open Scope Z_scope.

Section Layout.
  Context {V : Type}.

  (* compute/pzge2desc.c:38-55 (loop body; the same text is in pzdesc2ge.c:38-55,
     pztr2desc.c:33-50 and pzdesc2tr.c:33-51): the block of the user's array that
     corresponds to tile (m,n): rows, columns, user pointer, tile pointer.
     Note the tile column offset x1*A.nb. *)
  Definition cp_x1 (A : desc) (n : Z) : Z := if n =? 0 then d_j A mod d_nb A else 0.
  (* compute/pzge2desc.c:38-55: first row in the tile *)
  Definition cp_y1 (A : desc) (m : Z) : Z := if m =? 0 then d_i A mod d_mb A else 0.
  (* compute/pzge2desc.c:38-55: end of the columns in the tile *)
  Definition cp_x2 (A : desc) (n : Z) : Z :=
    if n =? d_nt A - 1 then (d_j A + d_n A - 1) mod d_nb A + 1 else d_nb A.
  (* compute/pzge2desc.c:38-55: end of the rows in the tile *)
  Definition cp_y2 (A : desc) (m : Z) : Z :=
    if m =? d_mt A - 1 then (d_i A + d_m A - 1) mod d_mb A + 1 else d_mb A.
  (* compute/pzge2desc.c:38-55: pointer into the user's array *)
  Definition cp_user (pA : loc) (lda : Z) (A : desc) (m n : Z) : loc :=
    (fst pA, snd pA + (d_nb A * lda * n + d_mb A * m) + (cp_x1 A n * lda + cp_y1 A m)).
  (* compute/pzge2desc.c:38-55: pointer into the tile *)
  Definition cp_tile (b : Z) (A : desc) (m n : Z) : loc :=
    (b, tile_addr A m n + (cp_x1 A n * d_nb A + cp_y1 A m)).

  (* compute/pzge2desc.c:38-55: the task that fills tile (m,n) *)
  Definition copy_in (pA : loc) (lda b : Z) (A : desc) (m n : Z) : ktask V :=
    omp_zlacpy PlasmaGeneral (cp_y2 A m - cp_y1 A m) (cp_x2 A n - cp_x1 A n)
      (cp_user pA lda A m n) lda (cp_tile b A m n) (tile_mmain A m).
  (* compute/pzdesc2ge.c:38-55: the task that copies tile (m,n) back *)
  Definition copy_out (b : Z) (A : desc) (pA : loc) (lda m n : Z) : ktask V :=
    omp_zlacpy PlasmaGeneral (cp_y2 A m - cp_y1 A m) (cp_x2 A n - cp_x1 A n)
      (cp_tile b A m n) (tile_mmain A m) (cp_user pA lda A m n) lda.

  (* compute/pzge2desc.c:22-56 plasma_pzge2desc; the early return for a failed sequence is
     left out (no task submitted before it can fail) *)
  Definition pzge2desc (pA : loc) (lda b : Z) (A : desc) : list (ktask V) :=
    flat_map (fun m => flat_map (fun n => [copy_in pA lda b A m n]) (zrange 0 (d_nt A)))
      (zrange 0 (d_mt A)).

  (* compute/pzdesc2ge.c:22-56 plasma_pzdesc2ge *)
  Definition pzdesc2ge (b : Z) (A : desc) (pA : loc) (lda : Z) : list (ktask V) :=
    flat_map (fun m => flat_map (fun n => [copy_out b A pA lda m n]) (zrange 0 (d_nt A)))
      (zrange 0 (d_mt A)).

  (* compute/pztr2desc.c:21-52 plasma_pztr2desc *)
  Definition tr_start (A : desc) (m : Z) : Z := if d_type A =? PlasmaUpper then m else 0.
  (* compute/pztr2desc.c:33-34: end of the tiles of row m *)
  Definition tr_end (A : desc) (m : Z) : Z := if d_type A =? PlasmaUpper then d_nt A else m + 1.
  (* compute/pztr2desc.c:21-52 plasma_pztr2desc *)
  Definition pztr2desc (pA : loc) (lda b : Z) (A : desc) : list (ktask V) :=
    flat_map (fun m => flat_map (fun n => [copy_in pA lda b A m n])
                         (zrange (tr_start A m) (tr_end A m)))
      (zrange 0 (d_mt A)).

  (* compute/pzdesc2tr.c:21-53 plasma_pzdesc2tr *)
  Definition pzdesc2tr (b : Z) (A : desc) (pA : loc) (lda : Z) : list (ktask V) :=
    flat_map (fun m => flat_map (fun n => [copy_out b A pA lda m n])
                         (zrange (tr_start A m) (tr_end A m)))
      (zrange 0 (d_mt A)).
End Layout.
