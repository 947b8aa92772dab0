(* Zeroing a full matrix outside of a band: compute/zgbset.c. *)
From Coq Require Import ZArith List Bool.
From Verif Require Import Base NumModel TaskModel TaskSpec DescModel DescDriverModel MatModel
  LayoutModel DriverModel EwModel.
Import ListNotations.
Open Scope Z_scope.

(* compute/zgbset.c:50, 62, 68, 77, 90, 102, 107, 119: one call of plasma_zlaset with
   PlasmaGeneral and both scalars 0: the number of rows and columns, the offset of the first
   element from pA, the leading dimension *)
Record laset_call := Call { c_rows : Z; c_cols : Z; c_off : Z; c_ld : Z }.

(* for(; e > 0; e--) of compute/zgbset.c:59, 65, 99, 104: the values of e *)
Definition down_to_1 (e : Z) : list Z := rev (zrange 1 (e + 1)).

(* compute/zgbset.c:45-80: the calls for m >= n. Offsets are int in the code; lda*cornerJ is
   taken not to overflow. *)
Definition gbset_tall (m n kl ku lda : Z) : list laset_call :=
  let extralower := if kl + ku <? m then ku - 1 else m - 1 - kl in
  let extraupper := if kl + ku <? m then kl - 1 else n - 1 - ku in
  (if kl + ku <? m then [Call (m - kl - ku) (n - 1) (1 + kl) (lda + 1)] else [])
  ++ map (fun e => Call 1 (if e <? n then e else n) (m - e) (lda + 1)) (down_to_1 extralower)
  ++ map (fun e => Call 1 e (lda * (n - e)) (lda + 1)) (down_to_1 extraupper)
  ++ (if n + kl <? m then [Call (m - n - kl) 1 (lda * (n - 1) + (n + kl)) lda] else []).

(* compute/zgbset.c:82-122: the calls for m < n *)
Definition gbset_wide (m n kl ku lda : Z) : list laset_call :=
  let extralower := if kl + ku <? m then ku - 1 else m - 1 - kl in
  let extraupper := if kl + ku <? m then kl - 1 else m - 1 - ku in
  (if kl + ku <? m then [Call (m - kl - ku) (m - 1) (1 + kl) (lda + 1)] else [])
  ++ map (fun e => Call 1 e (m - e) (lda + 1)) (down_to_1 extralower)
  ++ map (fun e => Call 1 e (lda * (m - e)) (lda + 1)) (down_to_1 extraupper)
  ++ flat_map (fun i =>
       let blcols := if 0 <? i - (m - 1) + ku then i - (m - 1) + ku else 0 in
       if n - (m + blcols) <=? 0 then []
       else [Call 1 (n - (m + blcols)) (lda * (m + blcols) + i) lda]) (zrange 0 m).

(* compute/zgbset.c:27-124 plasma_zgbset: the calls it makes *)
Definition gbset_calls (m n kl ku lda : Z) : list laset_call :=
  if (m =? 0) || (n =? 0) then []
  else if (kl <? 0) || (m - 1 <? kl) then []
  else if (ku <? 0) || (n - 1 <? ku) then []
  else if n <=? m then gbset_tall m n kl ku lda else gbset_wide m n kl ku lda.

(* compute/zgbset.c:27-124 plasma_zgbset. nb is plasma->nb; b the block malloc returns for the
   tile matrix of each call, which is freed before the next one. *)
Definition zgbset {N : numbers} (nb m n kl ku : Z) (pA : loc) (lda b : Z) : list (driver N) :=
  map (fun c => zlaset nb PlasmaGeneral (c_rows c) (c_cols c) n0 n0 (fst pA, snd pA + c_off c) (c_ld c) b)
    (gbset_calls m n kl ku lda).
