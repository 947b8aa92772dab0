(* Model of include/plasma_descriptor.h and control/descriptor.c.

   Simplifications, valid for every definition below:
   - C int and size_t are unbounded integers Z; C division and remainder are Z.div and
     Z.modulo, which agree with C on the non-negative operands that occur
     (overflow is treated separately in OverflowModel.v: C47);
   - a pointer into the tile matrix is an offset, counted in elements, from A.matrix:
     the multiplication by plasma_element_size (plasma_descriptor.h:79-90) is left out;
   - printing of error messages is left out. *)
From Coq Require Import ZArith Bool.
Open Scope Z_scope.

(* include/plasma_types.h:79-82 (enumerators used by descriptors) *)
Definition PlasmaUpper : Z := 121.
(* include/plasma_types.h:80 *)
Definition PlasmaLower : Z := 122.
(* include/plasma_types.h:81 *)
Definition PlasmaGeneral : Z := 123.
(* include/plasma_types.h:82 *)
Definition PlasmaGeneralBand : Z := 124.
(* include/plasma_types.h:49-56: matrix element types *)
Definition PlasmaRealFloat : Z := 2.
(* include/plasma_types.h:53 *)
Definition PlasmaRealDouble : Z := 3.
(* include/plasma_types.h:54 *)
Definition PlasmaComplexFloat : Z := 4.
(* include/plasma_types.h:55 *)
Definition PlasmaComplexDouble : Z := 5.
(* include/plasma_types.h:123-140: return codes; the Householder mode is at 145-148 *)
Definition PlasmaSuccess : Z := 0.
(* include/plasma_types.h:127 *)
Definition PlasmaErrorNotInitialized : Z := -101.
(* include/plasma_types.h:129 *)
Definition PlasmaErrorIllegalValue : Z := -103.
(* include/plasma_types.h:130 *)
Definition PlasmaErrorOutOfMemory : Z := -104.
(* include/plasma_types.h:147 *)
Definition PlasmaTreeHouseholder : Z := 1.

(* include/plasma_descriptor.h:40-76, struct plasma_desc_t. The field [matrix] (base
   pointer) is left out: addresses are offsets from it. *)
Record desc := mkdesc {
  d_type : Z; d_uplo : Z; d_prec : Z;
  d_A21 : Z; d_A12 : Z; d_A22 : Z;
  d_mb : Z; d_nb : Z;
  d_gm : Z; d_gn : Z; d_gmt : Z; d_gnt : Z;
  d_i : Z; d_j : Z; d_m : Z; d_n : Z; d_mt : Z; d_nt : Z;
  d_kl : Z; d_ku : Z; d_klt : Z; d_kut : Z }.

(* include/plasma_descriptor.h:93-115 plasma_tile_addr_general *)
Definition tile_addr_general (A : desc) (m n : Z) : Z :=
  let mm := m + d_i A / d_mb A in
  let nn := n + d_j A / d_nb A in
  let lm1 := d_gm A / d_mb A in
  let ln1 := d_gn A / d_nb A in
  if mm <? lm1 then
    if nn <? ln1 then d_mb A * d_nb A * (mm + lm1 * nn)
    else d_A12 A + d_mb A * (d_gn A mod d_nb A) * mm
  else
    if nn <? ln1 then d_A21 A + d_nb A * (d_gm A mod d_mb A) * nn
    else d_A22 A.

(* include/plasma_descriptor.h:118-151 plasma_tile_addr_triangle *)
Definition tile_addr_triangle (A : desc) (m n : Z) : Z :=
  let mm := m + d_i A / d_mb A in
  let nn := n + d_j A / d_nb A in
  let lm1 := d_gm A / d_mb A in
  let ln1 := d_gn A / d_nb A in
  if mm <? lm1 then
    if nn <? ln1 then
      if d_type A =? PlasmaUpper
      then d_mb A * d_nb A * (mm + (nn * (nn + 1)) / 2)
      else d_mb A * d_nb A * ((mm - nn) + (nn * (2 * lm1 - (nn - 1))) / 2)
    else d_A12 A + d_mb A * (d_gn A mod d_nb A) * mm
  else
    if nn <? ln1 then d_A21 A + d_nb A * (d_gm A mod d_mb A) * nn
    else d_A22 A.

(* include/plasma_descriptor.h:154-157 plasma_tile_addr_general_band *)
Definition tile_addr_general_band (A : desc) (m n : Z) : Z :=
  tile_addr_general A ((d_kut A - 1) + m - n) n.

(* include/plasma_descriptor.h:160-175 plasma_tile_addr; [None] is the fatal error *)
Definition tile_addr_opt (A : desc) (m n : Z) : option Z :=
  if d_type A =? PlasmaGeneral then Some (tile_addr_general A m n)
  else if d_type A =? PlasmaGeneralBand then Some (tile_addr_general_band A m n)
  else if (d_type A =? PlasmaUpper) || (d_type A =? PlasmaLower)
       then Some (tile_addr_triangle A m n)
  else None.

(* plasma_tile_addr as a total function: 0 where the C code exits the process;
   include/plasma_descriptor.h:160-175. Used only on descriptors of a valid type. *)
Definition tile_addr (A : desc) (m n : Z) : Z :=
  match tile_addr_opt A m n with Some a => a | None => 0 end.

(* include/plasma_descriptor.h:182-193 plasma_tile_mmain *)
Definition tile_mmain (A : desc) (k : Z) : Z :=
  if d_type A =? PlasmaGeneralBand then d_mb A
  else if d_i A / d_mb A + k <? d_gm A / d_mb A then d_mb A
  else d_gm A mod d_mb A.

(* include/plasma_descriptor.h:200-206 plasma_tile_nmain *)
Definition tile_nmain (A : desc) (k : Z) : Z :=
  if d_j A / d_nb A + k <? d_gn A / d_nb A then d_nb A
  else d_gn A mod d_nb A.

(* include/plasma_descriptor.h:214-223 plasma_tile_mview *)
Definition tile_mview (A : desc) (k : Z) : Z :=
  if k <? d_mt A - 1 then d_mb A
  else if (d_i A + d_m A) mod d_mb A =? 0 then d_mb A
  else (d_i A + d_m A) mod d_mb A.

(* include/plasma_descriptor.h:231-240 plasma_tile_nview *)
Definition tile_nview (A : desc) (k : Z) : Z :=
  if k <? d_nt A - 1 then d_nb A
  else if (d_j A + d_n A) mod d_nb A =? 0 then d_nb A
  else (d_j A + d_n A) mod d_nb A.

(* include/plasma_descriptor.h:243-246 plasma_tile_mmain_band *)
Definition tile_mmain_band (A : desc) (m n : Z) : Z :=
  tile_mmain A ((d_kut A - 1) + m - n).

(* control/descriptor.c:134-175 plasma_desc_general_init. [uplo] is not assigned by the
   C code; the model leaves PlasmaGeneral there, no modelled function reads it for this
   type. *)
Definition general_init (prec mb nb lm ln i j m n : Z) : desc :=
  let A21 := (lm - lm mod mb) * (ln - ln mod nb) in
  let A12 := (lm mod mb) * (ln - ln mod nb) + A21 in
  let A22 := (lm - lm mod mb) * (ln mod nb) + A12 in
  let mt := if m =? 0 then 0 else (i + m - 1) / mb - i / mb + 1 in
  let nt := if n =? 0 then 0 else (j + n - 1) / nb - j / nb + 1 in
  {| d_type := PlasmaGeneral; d_uplo := PlasmaGeneral; d_prec := prec;
     d_A21 := A21; d_A12 := A12; d_A22 := A22;
     d_mb := mb; d_nb := nb; d_gm := lm; d_gn := ln;
     d_gmt := if lm mod mb =? 0 then lm / mb else lm / mb + 1;
     d_gnt := if ln mod nb =? 0 then ln / nb else ln / nb + 1;
     d_i := i; d_j := j; d_m := m; d_n := n; d_mt := mt; d_nt := nt;
     d_kl := m - 1; d_ku := n - 1; d_klt := mt; d_kut := nt |}.

(* control/descriptor.c:178-213 plasma_desc_general_band_init *)
Definition general_band_init (prec uplo mb nb lm ln i j m n kl ku : Z) : desc :=
  let A := general_init prec mb nb lm ln i j m n in
  let klt :=
    if uplo =? PlasmaGeneral then 1 + (i + kl + mb - 1) / mb - i / mb
    else if uplo =? PlasmaUpper then 1
    else 1 + (i + kl + mb - 1) / mb - i / mb in
  let kut :=
    if uplo =? PlasmaGeneral then 1 + (i + ku + kl + nb - 1) / nb - i / nb
    else if uplo =? PlasmaUpper then 1 + (i + ku + nb - 1) / nb - i / nb
    else 1 in
  {| d_type := PlasmaGeneralBand; d_uplo := uplo; d_prec := d_prec A;
     d_A21 := d_A21 A; d_A12 := d_A12 A; d_A22 := d_A22 A;
     d_mb := d_mb A; d_nb := d_nb A; d_gm := d_gm A; d_gn := d_gn A;
     d_gmt := d_gmt A; d_gnt := d_gnt A;
     d_i := d_i A; d_j := d_j A; d_m := d_m A; d_n := d_n A;
     d_mt := d_mt A; d_nt := d_nt A;
     d_kl := kl; d_ku := ku; d_klt := klt; d_kut := kut |}.

(* control/descriptor.c:216-264 plasma_desc_triangular_init; lm <> ln only prints a
   message (lines 221-223) *)
Definition triangular_init (prec uplo mb nb lm ln i j m n : Z) : desc :=
  let lm1 := lm / mb in
  let ln1 := ln / nb in
  let mnt := (ln1 * (1 + lm1)) / 2 in
  let A21 := (mb * nb) * mnt in
  let A12 := (mb * nb) * mnt in
  let A22 := (lm - lm mod mb) * (ln mod nb) + A12 in
  let mt := if m =? 0 then 0 else (i + m - 1) / mb - i / mb + 1 in
  let nt := if n =? 0 then 0 else (j + n - 1) / nb - j / nb + 1 in
  {| d_type := uplo; d_uplo := PlasmaGeneral; d_prec := prec;
     d_A21 := A21; d_A12 := A12; d_A22 := A22;
     d_mb := mb; d_nb := nb; d_gm := lm; d_gn := ln;
     d_gmt := if lm mod mb =? 0 then lm / mb else lm / mb + 1;
     d_gnt := if ln mod nb =? 0 then ln / nb else ln / nb + 1;
     d_i := i; d_j := j; d_m := m; d_n := n; d_mt := mt; d_nt := nt;
     d_kl := m - 1; d_ku := n - 1; d_klt := mt; d_kut := nt |}.

(* control/descriptor.c:286-289 and 324-327: the element types that are accepted *)
Definition valid_precision (p : Z) : bool :=
  (* control/descriptor.c:286-289 and 324-327 *)
  (p =? PlasmaRealFloat) || (p =? PlasmaRealDouble)
  || (p =? PlasmaComplexFloat) || (p =? PlasmaComplexDouble).

(* control/descriptor.c:284-319 plasma_desc_general_check *)
Definition general_check (A : desc) : Z :=
  if negb (valid_precision (d_prec A)) then PlasmaErrorIllegalValue
  else if (d_mb A <=? 0) || (d_nb A <=? 0) then PlasmaErrorIllegalValue
  else if (d_m A <? 0) || (d_n A <? 0) then PlasmaErrorIllegalValue
  else if (d_gm A <? d_m A) || (d_gn A <? d_n A) then PlasmaErrorIllegalValue
  else if ((0 <? d_i A) && (d_gm A <=? d_i A)) || ((0 <? d_j A) && (d_gn A <=? d_j A))
       then PlasmaErrorIllegalValue
  else if (d_gm A <? d_i A + d_m A) || (d_gn A <? d_j A + d_n A)
       then PlasmaErrorIllegalValue
  else if negb (d_i A mod d_mb A =? 0) || negb (d_j A mod d_nb A =? 0)
       then PlasmaErrorIllegalValue
  else PlasmaSuccess.

(* control/descriptor.c:322-371 plasma_desc_general_band_check; the repeated test of
   PlasmaUpper at line 347 is kept *)
Definition general_band_check (A : desc) : Z :=
  if negb (valid_precision (d_prec A)) then PlasmaErrorIllegalValue
  else if (d_mb A <=? 0) || (d_nb A <=? 0) then PlasmaErrorIllegalValue
  else if (d_m A <? 0) || (d_n A <? 0) then PlasmaErrorIllegalValue
  else if d_gn A <? d_n A then PlasmaErrorIllegalValue
  else if ((d_uplo A =? PlasmaGeneral) &&
           (d_gm A <? d_mb A * ((2 * d_kl A + d_ku A + d_mb A) / d_mb A)))
       || ((d_uplo A =? PlasmaUpper) &&
           (d_gm A <? d_mb A * ((d_ku A + d_mb A) / d_mb A)))
       || ((d_uplo A =? PlasmaUpper) &&
           (d_gm A <? d_mb A * ((d_kl A + d_mb A) / d_mb A)))
       then PlasmaErrorIllegalValue
  else if ((0 <? d_i A) && (d_gm A <=? d_i A)) || ((0 <? d_j A) && (d_gn A <=? d_j A))
       then PlasmaErrorIllegalValue
  else if d_gn A <? d_j A + d_n A then PlasmaErrorIllegalValue
  else if negb (d_i A mod d_mb A =? 0) || negb (d_j A mod d_nb A =? 0)
       then PlasmaErrorIllegalValue
  else if (d_m A <? d_kl A + 1) || (d_n A <? d_ku A + 1) then PlasmaErrorIllegalValue
  else PlasmaSuccess.

(* control/descriptor.c:267-281 plasma_desc_check *)
Definition desc_check (A : desc) : Z :=
  if (d_type A =? PlasmaGeneral) || (d_type A =? PlasmaUpper) || (d_type A =? PlasmaLower)
  then general_check A
  else if d_type A =? PlasmaGeneralBand then general_band_check A
  else PlasmaErrorIllegalValue.

(* Outcome of a create function: the return code, and on success the descriptor together
   with the number of elements allocated for it. The C code checks first that PLASMA is
   initialised (control/descriptor.c:20-24, 55-59, 89-93); that check belongs to ControlModel.v. *)
Inductive create_result :=
| CrError (code : Z)
| CrOk (A : desc) (size : Z).

(* control/descriptor.c:15-47 plasma_desc_general_create; malloc is assumed to succeed.
   The division by mb, nb inside general_init precedes the check, as in the C code. *)
Definition general_create (prec mb nb lm ln i j m n : Z) : create_result :=
  let A := general_init prec mb nb lm ln i j m n in
  if desc_check A =? PlasmaSuccess then CrOk A (d_gm A * d_gn A)
  else CrError PlasmaErrorIllegalValue.

(* control/descriptor.c:50-82 plasma_desc_general_band_create; malloc assumed to succeed *)
Definition general_band_create (prec uplo mb nb lm ln i j m n kl ku : Z) : create_result :=
  let A := general_band_init prec uplo mb nb lm ln i j m n kl ku in
  if desc_check A =? PlasmaSuccess then CrOk A (d_gm A * d_gn A)
  else CrError PlasmaErrorIllegalValue.

(* control/descriptor.c:85-119 plasma_desc_triangular_create; malloc assumed to succeed *)
Definition triangular_create (prec uplo mb nb lm ln i j m n : Z) : create_result :=
  let A := triangular_init prec uplo mb nb lm ln i j m n in
  if desc_check A =? PlasmaSuccess then
    let lm1 := lm / mb in
    let ln1 := ln / nb in
    let mnt := (ln1 * (1 + lm1)) / 2 in
    CrOk A (mnt * mb * nb + lm * (ln mod nb))
  else CrError PlasmaErrorIllegalValue.

(* control/descriptor.c:374-397 plasma_desc_view; [None] is the fatal error (exit) *)
Definition desc_view_opt (A : desc) (i j m n : Z) : option desc :=
  if d_gm A <? d_i A + i + m then None
  else if d_gn A <? d_j A + j + n then None
  else
    let bi := d_i A + i in
    let bj := d_j A + j in
    Some
    {| d_type := d_type A; d_uplo := d_uplo A; d_prec := d_prec A;
       d_A21 := d_A21 A; d_A12 := d_A12 A; d_A22 := d_A22 A;
       d_mb := d_mb A; d_nb := d_nb A; d_gm := d_gm A; d_gn := d_gn A;
       d_gmt := d_gmt A; d_gnt := d_gnt A;
       d_i := bi; d_j := bj; d_m := m; d_n := n;
       d_mt := if m =? 0 then 0 else (bi + m - 1) / d_mb A - bi / d_mb A + 1;
       d_nt := if n =? 0 then 0 else (bj + n - 1) / d_nb A - bj / d_nb A + 1;
       d_kl := d_kl A; d_ku := d_ku A; d_klt := d_klt A; d_kut := d_kut A |}.

(* control/descriptor.c:400-424 plasma_descT_create *)
Definition descT_create (A : desc) (ib householder_mode : Z) : create_result :=
  let mb := ib in
  let nb := d_nb A in
  let mt := d_mt A in
  let nt := if householder_mode =? PlasmaTreeHouseholder then 2 * d_nt A else d_nt A in
  let m := mt * mb in
  let n := nt * nb in
  general_create (d_prec A) mb nb m n 0 0 m n.
