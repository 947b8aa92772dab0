(* Setting a matrix to constants: compute/pzlaset.c. *)
From Coq Require Import ZArith List Bool.
From Verif Require Import Base NumModel TaskModel TaskSpec DescModel MatModel.
Import ListNotations.
Open Scope Z_scope.

Section Laset.
  Context {V : Type}.

  (* core_blas/core_zlaset.c:57-70 plasma_core_zlaset: LAPACK zlaset, alpha off the diagonal
     and beta on it. The memset used for a zero matrix with m = lda has the same effect. *)
  Definition core_zlaset (uplo m n : Z) (alpha beta : V) (A : loc) (lda : Z) (M : mem V) : mem V :=
    mset A lda m n (uplo_sel uplo) (fun i j => if i =? j then beta else alpha) M.

  (* core_blas/core_zlaset.c:73-84 plasma_core_omp_zlaset *)
  Definition omp_zlaset (uplo mb nb i j m n : Z) (alpha beta : V) (A : loc) : ktask V :=
    {| k_deps := [dep_out A];
       k_fun := core_zlaset uplo m n alpha beta (fst A, snd A + i + j * mb) mb;
       k_reads := fun _ => False;
       k_writes := reg (fst A, snd A + i + j * mb) mb m n (uplo_sel uplo) |}.

  (* compute/pzlaset.c:45-52 and 55-62: rows (columns) of tile i to be set; d_i mod mb is
     C's % on non-negative numbers *)
  Definition las_m (A : desc) (i : Z) : Z :=
    if (i =? 0) && (i =? d_mt A - 1) then d_m A
    else if i =? 0 then d_mb A - d_i A mod d_mb A
    else if i =? d_mt A - 1 then (d_i A + d_m A + d_mb A - 1) mod d_mb A + 1
    else d_mb A.
  (* compute/pzlaset.c:55-62: the columns of tile column j to be set *)
  Definition las_n (A : desc) (j : Z) : Z :=
    if (j =? 0) && (j =? d_nt A - 1) then d_n A
    else if j =? 0 then d_nb A - d_j A mod d_nb A
    else if j =? d_nt A - 1 then (d_j A + d_n A + d_nb A - 1) mod d_nb A + 1
    else d_nb A.

  (* compute/pzlaset.c:64-76: the task for tile (i,j), if any *)
  Definition las_tile (uplo : Z) (alpha beta : V) (b : Z) (A : desc) (i j : Z) : list (ktask V) :=
    let lm1 := d_gm A / d_mb A in
    let ln1 := d_gn A / d_nb A in
    if (uplo =? PlasmaGeneral) || ((uplo =? PlasmaLower) && (j <=? i)) || ((uplo =? PlasmaUpper) && (i <=? j))
    then [omp_zlaset (if i =? j then uplo else PlasmaGeneral)
            (if d_i A / d_mb A + i =? lm1 then d_gm A - lm1 * d_mb A else d_mb A)
            (if d_j A / d_nb A + j =? ln1 then d_gn A - ln1 * d_nb A else d_nb A)
            (if i =? 0 then d_i A mod d_mb A else 0)
            (if j =? 0 then d_j A mod d_nb A else 0)
            (las_m A i) (las_n A j) alpha (if i =? j then beta else alpha) (tptr b A i j)]
    else [].

  (* compute/pzlaset.c:29-78 plasma_pzlaset *)
  Definition pzlaset (uplo : Z) (alpha beta : V) (b : Z) (A : desc) : list (ktask V) :=
    flat_map (fun i => flat_map (las_tile uplo alpha beta b A i) (zrange 0 (d_nt A)))
      (zrange 0 (d_mt A)).
End Laset.
