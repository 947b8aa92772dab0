(* The storage arithmetic of band descriptors in 32-bit int and 64-bit size_t: control/descriptor.c
   and include/plasma_descriptor.h. Quotients are of non-negative numbers. *)
From Coq Require Import ZArith List Bool.
From Verif Require Import Base DescModel OverflowModel.
Open Scope Z_scope.

Section Machine.
  (* what an operation on int gives: checked or wrapped (OverflowModel.v; e.g. the sums in
     control/descriptor.c:201-202) *)
  Variable int : Z -> option Z.

  (* control/descriptor.c:201 (and 202, 206, 209): the number of tiles within the band on one side,
     1+(i+k + b-1)/b - i/b; the sum i+k is an argument, computed by the caller *)
  Definition band_tiles32 (b i ik : Z) : option Z :=
    x <- int (ik + b) ;; y <- int (x - 1) ;; z <- int (1 + y / b) ;; int (z - i / b).

  (* control/descriptor.c:178-213 plasma_desc_general_band_init *)
  Definition general_band_init32 (prec uplo mb nb lm ln i j m n kl ku : Z) : option desc :=
    A <- general_init32 int prec mb nb lm ln i j m n ;;
    klt <- (if uplo =? PlasmaGeneral then s <- int (i + kl) ;; band_tiles32 mb i s
            else if uplo =? PlasmaUpper then Some 1
            else s <- int (i + kl) ;; band_tiles32 mb i s) ;;
    kut <- (if uplo =? PlasmaGeneral then s <- int (i + ku) ;; t <- int (s + kl) ;; band_tiles32 nb i t
            else if uplo =? PlasmaUpper then s <- int (i + ku) ;; band_tiles32 nb i s
            else Some 1) ;;
    Some {| d_type := PlasmaGeneralBand; d_uplo := uplo; d_prec := d_prec A;
            d_A21 := d_A21 A; d_A12 := d_A12 A; d_A22 := d_A22 A;
            d_mb := d_mb A; d_nb := d_nb A; d_gm := d_gm A; d_gn := d_gn A;
            d_gmt := d_gmt A; d_gnt := d_gnt A;
            d_i := d_i A; d_j := d_j A; d_m := d_m A; d_n := d_n A;
            d_mt := d_mt A; d_nt := d_nt A;
            d_kl := kl; d_ku := ku; d_klt := klt; d_kut := kut |}.

  (* control/descriptor.c:344, 346 and 348: the fewest rows of tiles in rows of elements,
     mb*((k + mb)/mb); the number k is an argument, computed by the caller *)
  Definition band_rows32 (mb k : Z) : option Z :=
    x <- int (k + mb) ;; int (mb * (x / mb)).

  (* control/descriptor.c:343-348: whether the leading row dimension is too small; the repeated test
     of PlasmaUpper at line 347 is kept, and so is the order in which || evaluates *)
  Definition band_short32 (A : desc) : option bool :=
    a <- (if d_uplo A =? PlasmaGeneral then
            x <- int (2 * d_kl A) ;; y <- int (x + d_ku A) ;; r <- band_rows32 (d_mb A) y ;; Some (d_gm A <? r)
          else Some false) ;;
    if a : bool then Some true else
    b <- (if d_uplo A =? PlasmaUpper then r <- band_rows32 (d_mb A) (d_ku A) ;; Some (d_gm A <? r)
          else Some false) ;;
    if b : bool then Some true else
    if d_uplo A =? PlasmaUpper then r <- band_rows32 (d_mb A) (d_kl A) ;; Some (d_gm A <? r)
    else Some false.

  (* control/descriptor.c:322-371 plasma_desc_general_band_check *)
  Definition general_band_check32 (A : desc) : option Z :=
    if negb (valid_precision (d_prec A)) then Some PlasmaErrorIllegalValue
    else if (d_mb A <=? 0) || (d_nb A <=? 0) then Some PlasmaErrorIllegalValue
    else if (d_m A <? 0) || (d_n A <? 0) then Some PlasmaErrorIllegalValue
    else if d_gn A <? d_n A then Some PlasmaErrorIllegalValue
    else
      short <- band_short32 A ;;
      if short : bool then Some PlasmaErrorIllegalValue
      else if ((0 <? d_i A) && (d_gm A <=? d_i A)) || ((0 <? d_j A) && (d_gn A <=? d_j A))
           then Some PlasmaErrorIllegalValue
      else
        jn <- int (d_j A + d_n A) ;;
        if d_gn A <? jn then Some PlasmaErrorIllegalValue
        else if negb (d_i A mod d_mb A =? 0) || negb (d_j A mod d_nb A =? 0)
             then Some PlasmaErrorIllegalValue
        else
          kl1 <- int (d_kl A + 1) ;;
          if d_m A <? kl1 then Some PlasmaErrorIllegalValue
          else
            ku1 <- int (d_ku A + 1) ;;
            if d_n A <? ku1 then Some PlasmaErrorIllegalValue else Some PlasmaSuccess.

  (* include/plasma_descriptor.h:154-157 plasma_tile_addr_general_band: offset in bytes *)
  Definition tile_addr_general_band32 (A : desc) (m n : Z) : option Z :=
    a <- int (d_kut A - 1) ;; b <- int (a + m) ;; c <- int (b - n) ;; tile_addr_general32 int A c n.

  (* compute/zgbtrf.c:101-103 (also zgbsv.c:117-119, zlangb.c:130-132, zgbmm.c:206-211): the number of rows of the storage *)
  Definition gb_rows32 (nb kl ku : Z) : option Z :=
    a <- int (ku + kl) ;; b <- int (a + nb) ;; c <- int (b - 1) ;;
    d <- int (kl + nb) ;; e <- int (d - 1) ;;
    f <- int (c / nb + e / nb) ;; g <- int (f + 1) ;; int (g * nb).

  (* compute/zpbtrf.c:119 (also zpbsv.c:143, zpbtrs.c:132): the number of rows of the storage *)
  Definition pb_rows32 (nb kd : Z) : option Z :=
    a <- int (kd + nb) ;; b <- int (a - 1) ;; c <- int (1 + b / nb) ;; int (nb * c).
End Machine.
