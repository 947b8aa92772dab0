(* Where the bulge chasing of plasma_zgesdd keeps its Householder vectors: include/bulge.h,
   compute/pzgbbrd_static.c, core_blas/core_zgbtype1cb.c, core_zgbtype2cb.c, core_zgbtype3cb.c. C int is Z. *)
From Coq Require Import ZArith List Bool.
From Verif Require Import Base.
Import ListNotations.
Open Scope Z_scope.

(* include/bulge.h:29-34 plasma_ceildiv for a >= 0 and b > 0. The code divides as double, which is
   exact enough for arguments of type int: a quotient that is not an integer differs from one by at
   least 1/b. *)
Definition ceildiv (a b : Z) : Z := (a + b - 1) / b.

(* include/bulge.h:51-52, 77-78: the number of blocks of vectors that belong to column block c *)
Definition col_blocks (N NB V c : Z) : Z := ceildiv (N - (c * V + 2)) NB.

(* include/bulge.h:49-54, 75-80: the loop that adds them up for the column blocks before c *)
Definition blocks_before (N NB V c : Z) : Z :=
  fold_left (fun acc i => acc + col_blocks N NB V i) (zrange 0 c) 0.

(* the results of findVTpos: *Vpos, *TAUpos, *Tpos (include/bulge.h:60-63; *myblkid is not used by
   the callers) *)
Record positions := { p_v : Z; p_tau : Z; p_t : Z }.

(* include/bulge.h:38-64 findVTpos; None: division by zero *)
Definition findVTpos (N NB V sweep st : Z) : option positions :=
  if V =? 0 then None
  else
    let blkid := blocks_before N NB V (Z.quot sweep V) + ceildiv (st - sweep) NB - 1 in
    let locj := Z.rem sweep V in
    let LDV := NB + V - 1 in
    Some {| p_v := blkid * V * LDV + locj * LDV + locj;
            p_tau := blkid * V + locj;
            p_t := blkid * V * V + locj * V + locj |}.

(* include/bulge.h:68-83 findVTsiz: *blkcnt and *LDV; None: division by zero *)
Definition findVTsiz (N NB V : Z) : option (Z * Z) :=
  if V =? 0 then None
  else Some (blocks_before N NB V (ceildiv (N - 1) V) + 1, NB + V - 1).

(* compute/zgesdd.c:498 *)
Definition zgesdd_vblksiz (nb : Z) : Z := Z.quot nb 4.

(* compute/pzgbbrd_static.c:123-136: stind-1, edind-1 (the arguments of the kernels) and blklastind of
   step myid of sweep sweepid *)
Definition chase_step (N nb sweepid myid : Z) : Z * Z * Z :=
  if Z.even myid then
    let colpt := Z.quot myid 2 * nb + 1 + sweepid - 1 in
    let stind := colpt - nb + 1 in
    (stind - 1, Z.min colpt N - 1, colpt)
  else
    let colpt := Z.quot (myid + 1) 2 * nb + 1 + sweepid - 1 in
    let stind := colpt - nb + 1 in
    let edind := Z.min colpt N in
    (stind - 1, edind - 1, if (edind - 1 <=? stind) && (edind =? N) then N else 0).

(* compute/pzgbbrd_static.c:166-169: a sweep ends with the first step whose blklastind is at least
   minmn-1. The order in which the steps of different sweeps are executed is not modelled. *)
Definition chase_reached (N nb sweepid myid : Z) : Prop :=
  1 <= myid /\ forall i, 1 <= i < myid -> snd (chase_step N nb sweepid i) < N - 1.

(* core_blas/core_zgbtype1cb.c:141-146, core_zgbtype3cb.c:137-142 and core_zgbtype2cb.c:140-175, 196-220:
   first row and length of the vectors that the kernel of a step reads or writes (the same for VQ and VP) *)
Definition chase_vectors (N nb sweepid myid : Z) : list (Z * Z) :=
  let '(st, ed, _) := chase_step N nb sweepid myid in
  if Z.even myid then
    let J1 := ed + 1 in
    let J2 := Z.min (ed + nb) (N - 1) in
    let len := J2 - J1 + 1 in
    (if 0 <? len then [(st, ed - st + 1)] else []) ++ (if 1 <? len then [(J1, len)] else [])
  else [(st, ed - st + 1)].

(* core_blas/core_zgbtype1cb.c:137-139 (also core_zgbtype2cb.c, core_zgbtype3cb.c): vpos and taupos if no
   vectors are wanted *)
Definition novec_pos (n sweep st : Z) : Z := Z.rem (sweep + 1) 2 * n + st.

(* one call of LAPACK zlarft (compute/pzlarft_blgtrd.c:109-113): positions of V, TAU and T, rows and
   columns of V. The leading dimensions are LDV = NB+Vblksiz-1 and LDT = Vblksiz. *)
Record larft_call := { l_pos : positions; l_m : Z; l_n : Z }.

(* compute/pzlarft_blgtrd.c:95-106: the call for block column blkj (nt of them) and tile i = mt-blki *)
Definition larft_at (N NB V nt blkj i : Z) : option larft_call :=
  let firstrow := blkj * V + 1 in
  let myrow := firstrow + i * NB in
  let mycol := blkj * V in
  let Vm := Z.min (NB + V - 1) (N - myrow) in
  let Vn := if (blkj =? nt - 1) && (i =? 0) then Z.min V Vm else Z.min V (Vm - 1) in
  option_map (fun p => {| l_pos := p; l_m := Vm; l_n := Vn |}) (findVTpos N NB V mycol myrow).

(* compute/pzlarft_blgtrd.c:86-91: mt *)
Definition larft_mt (N NB V nt blkj : Z) : Z :=
  let firstrow := blkj * V + 1 in
  if blkj =? nt - 1 then ceildiv (N - firstrow) NB else ceildiv (N - (firstrow + 1)) NB.

(* compute/pzlarft_blgtrd.c:56-118: the calls of plasma_pzlarft_blgtrd. The loops run backwards and
   each call is made by the core number (blkid/blkpercore)%cores_num; both are left out. A call with
   l_m or l_n not positive is listed but not made. *)
Definition larft_calls (N NB V : Z) : list (option larft_call) :=
  if (N =? 0) || (NB =? 0) || (NB =? 1) then []
  else
    let nt := ceildiv (N - 1) V in
    flat_map (fun blkj => map (larft_at N NB V nt blkj) (zrange 0 (larft_mt N NB V nt blkj))) (zrange 0 nt).
