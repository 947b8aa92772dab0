(* Kernels on flat memory: matrices are addressed by a pointer and a leading dimension,
   exactly as BLAS and LAPACK do. *)
From Coq Require Import ZArith List Bool.
From Verif Require Import Base NumModel TaskModel TaskSpec DescModel.
Import ListNotations.
Open Scope Z_scope.

(* include/plasma_types.h:74-88: operation, triangle, diagonal, side *)
Definition PlasmaNoTrans : Z := 111.
(* include/plasma_types.h:75 *)
Definition PlasmaTrans : Z := 112.
(* include/plasma_types.h:76 *)
Definition PlasmaConjTrans : Z := 113.
(* include/plasma_types.h:84 *)
Definition PlasmaNonUnit : Z := 131.
(* include/plasma_types.h:85 *)
Definition PlasmaUnit : Z := 132.
(* include/plasma_types.h:87 *)
Definition PlasmaLeft : Z := 141.
(* include/plasma_types.h:88 *)
Definition PlasmaRight : Z := 142.

(* C pointer arithmetic: p + i + j*ld (column-major element (i,j))
   (e.g. compute/pzge2desc.c:50) *)
Definition at_ (p : loc) (ld i j : Z) : loc := (fst p, snd p + i + j * ld).

(* reading element (i,j) (e.g. core_blas/core_zlacpy.c:60-73) *)
Definition rd {V} (M : mem V) (p : loc) (ld i j : Z) : V := M (at_ p ld i j).

(* the locations of the elements (i,j) of an m x n matrix that satisfy P
   (the operands of the kernels, e.g. core_blas/core_zlacpy.c:60-73) *)
Definition reg (p : loc) (ld m n : Z) (P : Z -> Z -> bool) (l : loc) : Prop :=
  exists i j, 0 <= i < m /\ 0 <= j < n /\ P i j = true /\ l = at_ p ld i j.
(* all elements, e.g. the operand C of core_blas/core_zgemm.c:89-102 *)
Definition everywhere (i j : Z) : bool := true.

(* assigning f i j to the elements (i,j) of an m x n matrix that satisfy P (m <= ld).
   Division finds the element a location belongs to.
   The effect of a kernel, e.g. core_blas/core_zlacpy.c:60-73. *)
Definition mset {V} (p : loc) (ld m n : Z) (P : Z -> Z -> bool) (f : Z -> Z -> V)
    (M : mem V) : mem V :=
  fun l =>
    let o := snd l - snd p in
    let i := o mod ld in
    let j := o / ld in
    if (fst l =? fst p) && (0 <? ld) && (i <? m) && (0 <=? j) && (j <? n) && P i j
    then f i j else M l.

(* the macros A(m,n) of compute/pz*.c, e.g. compute/pzgemm.c:23: the pointer to tile (m,n)
   of descriptor A, whose storage is block b *)
Definition tptr (b : Z) (A : desc) (m n : Z) : loc := (b, tile_addr A m n).

(* the part of a matrix selected by uplo, as LAPACK zlacpy and zlaset understand it
   (called in core_blas/core_zlacpy.c:60-73 and core_zlaset.c) *)
Definition uplo_sel (uplo i j : Z) : bool :=
  if uplo =? PlasmaUpper then i <=? j
  else if uplo =? PlasmaLower then j <=? i
  else true.

(* core_blas/core_zlacpy.c:60-73 plasma_core_zlacpy, transa = PlasmaNoTrans: LAPACK zlacpy *)
Definition core_zlacpy {V} (uplo m n : Z) (A : loc) (lda : Z) (B : loc) (ldb : Z)
    (M : mem V) : mem V :=
  mset B ldb m n (uplo_sel uplo) (fun i j => rd M A lda i j) M.

(* core_blas/core_zlacpy.c:114-129 plasma_core_omp_zlacpy, transa = PlasmaNoTrans *)
Definition omp_zlacpy {V} (uplo m n : Z) (A : loc) (lda : Z) (B : loc) (ldb : Z) : ktask V :=
  {| k_deps := [dep_in A; dep_out B];
     k_fun := core_zlacpy uplo m n A lda B ldb;
     k_reads := reg A lda m n (uplo_sel uplo);
     k_writes := reg B ldb m n (uplo_sel uplo) |}.

Section Kernels.
  Context {N : numbers}.

  (* op(A)(i,j) of BLAS, A given by pointer and leading dimension; anything other than
     NoTrans and Trans is treated as ConjTrans (core_blas/core_zgemm.c:89-102) *)
  Definition op_rd (M : mem N) (trans : Z) (p : loc) (ld i j : Z) : N :=
    if trans =? PlasmaNoTrans then rd M p ld i j
    else if trans =? PlasmaTrans then rd M p ld j i
    else nconj (rd M p ld j i).

  (* the stored matrix behind op(A) of size m x n (core_blas/core_zgemm.c:89-102) *)
  Definition op_reg (trans : Z) (p : loc) (ld m n : Z) : loc -> Prop :=
    if trans =? PlasmaNoTrans then reg p ld m n everywhere else reg p ld n m everywhere.

  (* core_blas/core_zgemm.c:89-102 plasma_core_zgemm: calls cblas_zgemm, whose effect
     (C := alpha*op(A)*op(B) + beta*C) is trusted *)
  Definition core_zgemm (transa transb m n k : Z) (alpha : N) (A : loc) (lda : Z)
      (B : loc) (ldb : Z) (beta : N) (C : loc) (ldc : Z) (M : mem N) : mem N :=
    mset C ldc m n everywhere
      (fun i j => nadd (nmul alpha (nsum (fun l => nmul (op_rd M transa A lda i l)
                                                         (op_rd M transb B ldb l j)) 0 k))
                       (nmul beta (rd M C ldc i j))) M.

  (* core_blas/core_zgemm.c:105-136 plasma_core_omp_zgemm. The test of sequence->status in
     the body is left out: it is PlasmaSuccess as long as no task fails, and no task of the
     routines using this kernel does. *)
  Definition omp_zgemm (transa transb m n k : Z) (alpha : N) (A : loc) (lda : Z)
      (B : loc) (ldb : Z) (beta : N) (C : loc) (ldc : Z) : ktask N :=
    {| k_deps := [dep_in A; dep_in B; dep_inout C];
       k_fun := core_zgemm transa transb m n k alpha A lda B ldb beta C ldc;
       k_reads := fun l => op_reg transa A lda m k l \/ op_reg transb B ldb k n l
                           \/ reg C ldc m n everywhere l;
       k_writes := reg C ldc m n everywhere |}.
End Kernels.
