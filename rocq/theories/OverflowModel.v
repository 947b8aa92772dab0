(* The address arithmetic of include/plasma_descriptor.h and control/descriptor.c in the types of
   C: int has 32 bits, size_t 64. Quotients and remainders are of non-negative numbers. *)
From Coq Require Import ZArith List Bool.
From Verif Require Import Base DescModel.
Open Scope Z_scope.

(* a result of type int; undefined if it does not fit (e.g. the products in
   include/plasma_descriptor.h:131) *)
Definition checked (z : Z) : option Z := if (- 2 ^ 31 <=? z) && (z <? 2 ^ 31) then Some z else None.

(* a result of type int as compilers compute it where the standard leaves it undefined: modulo
   2^32 (e.g. the products in include/plasma_descriptor.h:131) *)
Definition wrapped (z : Z) : option Z := Some ((z + 2 ^ 31) mod 2 ^ 32 - 2 ^ 31).

(* a result of type size_t, and the conversion from int to it, e.g.
   include/plasma_descriptor.h:105 *)
Definition csize (z : Z) : Z := z mod 2 ^ 64.

(* sequencing of expressions that may be undefined, e.g. include/plasma_descriptor.h:93-115 *)
Definition obind {X Y} (x : option X) (f : X -> option Y) : option Y :=
  match x with Some v => f v | None => None end.
Notation "v <- x ;; e" := (obind x (fun v => e)) (at level 80, x at next level, right associativity).

(* include/plasma_descriptor.h:79-90 plasma_element_size, in bytes; the assertion for other types
   is left out *)
Definition element_size (prec : Z) : Z :=
  if prec =? PlasmaRealFloat then 4
  else if prec =? PlasmaRealDouble then 8
  else if prec =? PlasmaComplexFloat then 8
  else 16.

Section Machine.
  (* what an operation on int gives: checked or wrapped *)
  Variable int : Z -> option Z.

  (* control/descriptor.c:134-175 plasma_desc_general_init *)
  Definition general_init32 (prec mb nb lm ln i j m n : Z) : option desc :=
    rm <- int (lm - lm mod mb) ;;
    rn <- int (ln - ln mod nb) ;;
    let A21 := csize (csize rm * csize rn) in
    let A12 := csize (csize (csize (lm mod mb) * csize rn) + A21) in
    let A22 := csize (csize (csize rm * csize (ln mod nb)) + A12) in
    gmt <- (if lm mod mb =? 0 then Some (lm / mb) else int (lm / mb + 1)) ;;
    gnt <- (if ln mod nb =? 0 then Some (ln / nb) else int (ln / nb + 1)) ;;
    mt <- (if m =? 0 then Some 0 else im <- int (i + m) ;; im1 <- int (im - 1) ;; d <- int (im1 / mb - i / mb) ;; int (d + 1)) ;;
    nt <- (if n =? 0 then Some 0 else jn <- int (j + n) ;; jn1 <- int (jn - 1) ;; d <- int (jn1 / nb - j / nb) ;; int (d + 1)) ;;
    kl <- int (m - 1) ;;
    ku <- int (n - 1) ;;
    Some {| d_type := PlasmaGeneral; d_uplo := PlasmaGeneral; d_prec := prec;
            d_A21 := A21; d_A12 := A12; d_A22 := A22;
            d_mb := mb; d_nb := nb; d_gm := lm; d_gn := ln; d_gmt := gmt; d_gnt := gnt;
            d_i := i; d_j := j; d_m := m; d_n := n; d_mt := mt; d_nt := nt;
            d_kl := kl; d_ku := ku; d_klt := mt; d_kut := nt |}.

  (* control/descriptor.c:39-40: the bytes allocated by plasma_desc_general_create *)
  Definition general_size32 (A : desc) : Z :=
    csize (csize (csize (d_gm A) * csize (d_gn A)) * element_size (d_prec A)).

  (* include/plasma_descriptor.h:93-115 plasma_tile_addr_general: offset in bytes *)
  Definition tile_addr_general32 (A : desc) (m n : Z) : option Z :=
    mm <- int (m + d_i A / d_mb A) ;;
    nn <- int (n + d_j A / d_nb A) ;;
    let lm1 := d_gm A / d_mb A in
    let ln1 := d_gn A / d_nb A in
    offset <- (if mm <? lm1 then
                 if nn <? ln1 then
                   b <- int (d_mb A * d_nb A) ;;
                   Some (csize (csize b * csize (csize mm + csize (csize lm1 * csize nn))))
                 else Some (csize (d_A12 A + csize (csize (csize (d_mb A) * csize (d_gn A mod d_nb A)) * csize mm)))
               else
                 if nn <? ln1 then Some (csize (d_A21 A + csize (csize (csize (d_nb A) * csize (d_gm A mod d_mb A)) * csize nn)))
                 else Some (d_A22 A)) ;;
    Some (csize (offset * element_size (d_prec A))).

  (* control/descriptor.c:216-264 plasma_desc_triangular_init *)
  Definition triangular_init32 (prec uplo mb nb lm ln i j m n : Z) : option desc :=
    let lm1 := lm / mb in
    let ln1 := ln / nb in
    p <- int (1 + lm1) ;;
    q <- int (ln1 * p) ;;
    let mnt := q / 2 in
    b <- int (mb * nb) ;;
    let A21 := csize (csize b * csize mnt) in
    let A12 := csize (csize b * csize mnt) in
    rm <- int (lm - lm mod mb) ;;
    let A22 := csize (csize (csize rm * csize (ln mod nb)) + A12) in
    gmt <- (if lm mod mb =? 0 then Some (lm / mb) else int (lm / mb + 1)) ;;
    gnt <- (if ln mod nb =? 0 then Some (ln / nb) else int (ln / nb + 1)) ;;
    mt <- (if m =? 0 then Some 0 else im <- int (i + m) ;; im1 <- int (im - 1) ;; d <- int (im1 / mb - i / mb) ;; int (d + 1)) ;;
    nt <- (if n =? 0 then Some 0 else jn <- int (j + n) ;; jn1 <- int (jn - 1) ;; d <- int (jn1 / nb - j / nb) ;; int (d + 1)) ;;
    kl <- int (m - 1) ;;
    ku <- int (n - 1) ;;
    Some {| d_type := uplo; d_uplo := PlasmaGeneral; d_prec := prec;
            d_A21 := A21; d_A12 := A12; d_A22 := A22;
            d_mb := mb; d_nb := nb; d_gm := lm; d_gn := ln; d_gmt := gmt; d_gnt := gnt;
            d_i := i; d_j := j; d_m := m; d_n := n; d_mt := mt; d_nt := nt;
            d_kl := kl; d_ku := ku; d_klt := mt; d_kut := nt |}.

  (* control/descriptor.c:107-112: the bytes allocated by plasma_desc_triangular_create. Only the
     sum, computed as int, is converted to size_t. *)
  Definition triangular_size32 (prec mb nb lm ln : Z) : option Z :=
    let lm1 := lm / mb in
    let ln1 := ln / nb in
    p <- int (1 + lm1) ;;
    q <- int (ln1 * p) ;;
    let mnt := q / 2 in
    t <- int (mnt * mb) ;;
    u <- int (t * nb) ;;
    v <- int (lm * (ln mod nb)) ;;
    s <- int (u + v) ;;
    Some (csize (csize s * element_size prec)).

  (* include/plasma_descriptor.h:118-151 plasma_tile_addr_triangle: offset in bytes. The products
     of lines 131 and 134 are computed as int. *)
  Definition tile_addr_triangle32 (A : desc) (m n : Z) : option Z :=
    mm <- int (m + d_i A / d_mb A) ;;
    nn <- int (n + d_j A / d_nb A) ;;
    let lm1 := d_gm A / d_mb A in
    let ln1 := d_gn A / d_nb A in
    offset <- (if mm <? lm1 then
                 if nn <? ln1 then
                   if d_type A =? PlasmaUpper then
                     b <- int (d_mb A * d_nb A) ;;
                     n1 <- int (nn + 1) ;;
                     nn1 <- int (nn * n1) ;;
                     s <- int (mm + nn1 / 2) ;;
                     o <- int (b * s) ;;
                     Some (csize o)
                   else
                     b <- int (d_mb A * d_nb A) ;;
                     d <- int (mm - nn) ;;
                     l2 <- int (2 * lm1) ;;
                     n1 <- int (nn - 1) ;;
                     e <- int (l2 - n1) ;;
                     ne <- int (nn * e) ;;
                     s <- int (d + ne / 2) ;;
                     o <- int (b * s) ;;
                     Some (csize o)
                 else Some (csize (d_A12 A + csize (csize (csize (d_mb A) * csize (d_gn A mod d_nb A)) * csize mm)))
               else
                 if nn <? ln1 then Some (csize (d_A21 A + csize (csize (csize (d_nb A) * csize (d_gm A mod d_mb A)) * csize nn)))
                 else Some (d_A22 A)) ;;
    Some (csize (offset * element_size (d_prec A))).
End Machine.
