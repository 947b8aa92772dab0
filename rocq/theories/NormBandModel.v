(* The norm of a general band matrix: compute/zlangb.c, pzlangb.c. *)
From Coq Require Import ZArith List Bool.
From Verif Require Import Base NumModel FieldModel TaskModel TaskSpec DescModel DescDriverModel MatModel
  LayoutModel BandModel NormModel NormTriModel.
Import ListNotations.
Open Scope Z_scope.

Section NormBand.
  Context {N : normed}.
  Variable lassq : list N -> N * N -> N * N.
  Variable nsqrt : N -> N.

  (* compute/pzlangb.c:49, 81, 108, 140: first tile row of column n *)
  Definition lb_start (A : desc) (n : Z) : Z := Z.quot (Z.max 0 (n * d_nb A - d_ku A)) (d_nb A).
  (* compute/pzlangb.c:50, 82, 109, 141: last tile row of column n *)
  Definition lb_end (A : desc) (n : Z) : Z := Z.quot (Z.min (d_m A - 1) ((n + 1) * d_nb A + d_kl A - 1)) (d_nb A).
  (* compute/pzlangb.c:47-51 (also 79-83, 106-110, 138-143): the tiles (m,n) in the order of the
     loops *)
  Definition lb_tiles (A : desc) : list (Z * Z) :=
    flat_map (fun n => map (fun m => (m, n)) (zrange (lb_start A n) (lb_end A n + 1))) (zrange 0 (d_nt A)).
  (* compute/pzlangb.c:74-78, 133-135: ldwork *)
  Definition lb_ldwork (A : desc) : Z :=
    Z.quot (d_ku A + d_nb A - 1) (d_nb A) + Z.quot (d_kl A + d_nb A - 1) (d_nb A) + 1.

  (* compute/pzlangb.c:28-160 plasma_pzlangb: the tasks before and after the taskwait; wcnt of
     lines 46 and 59 is the position of the tile in the order of the loops *)
  Definition pzlangb (norm : Z) (bA : Z) (A : desc) (work value : loc) : list (list (ktask N)) :=
    if norm =? PlasmaMaxNorm then
      [map (fun w => let m := fst (snd w) in let n := snd (snd w) in
          omp_zlange_max (tile_mview A m) (tile_nview A n) (tptr bA A m n) (tile_mmain_band A m n)
            (pplus work (fst w)))
         (combine (zrange 0 (Z.of_nat (length (lb_tiles A)))) (lb_tiles A));
       [omp_zlange_max 1 (Z.of_nat (length (lb_tiles A))) work 1 value]]
    else if norm =? PlasmaOneNorm then
      [map (fun t => let m := fst t in let n := snd t in
          omp_zlange_aux_one (tile_mview A m) (tile_nview A n) (tptr bA A m n) (tile_mmain_band A m n)
            (pplus work ((m - lb_start A n) * d_n A + n * d_nb A))) (lb_tiles A);
       [omp_dlange_inf (d_n A) (lb_ldwork A) work (d_n A) (pplus work (d_n A * lb_ldwork A)) value]]
    else if norm =? PlasmaInfNorm then
      [map (fun t => let m := fst t in let n := snd t in
          omp_zlange_aux_inf (tile_mview A m) (tile_nview A n) (tptr bA A m n) (tile_mmain_band A m n)
            (pplus work (m * d_mb A + n * (d_mb A * d_mt A)))) (lb_tiles A);
       [omp_dlange_inf (d_mb A * d_mt A) (d_nt A) work (d_mb A * d_mt A)
          (pplus work (d_mb A * d_mt A * d_nt A)) value]]
    else if norm =? PlasmaFrobeniusNorm then
      [map (fun t => let m := fst t in let n := snd t in
          omp_zgessq lassq (tile_mview A m) (tile_nview A n) (tptr bA A m n) (tile_mmain_band A m n)
            (pplus work (n * lb_ldwork A + m - lb_start A n))
            (pplus (pplus work (lb_ldwork A * d_nt A)) (n * lb_ldwork A + m - lb_start A n))) (lb_tiles A);
       [omp_dgessq_aux nsqrt (lb_ldwork A * d_nt A) work (pplus work (lb_ldwork A * d_nt A)) value]]
    else [].

  (* compute/zlangb.c:141-166: the number of doubles allocated for work *)
  Definition zlangb_work (norm nb kl ku : Z) (A : desc) : Z :=
    let tku := Z.quot (ku + kl + nb - 1) nb in
    let tkl := Z.quot (kl + nb - 1) nb in
    if norm =? PlasmaMaxNorm then (d_klt A + d_kut A - 1) * d_nt A
    else if norm =? PlasmaOneNorm then d_n A * (tku + tkl + 1) + d_n A
    else if norm =? PlasmaInfNorm then d_nt A * d_mt A * d_mb A + d_mb A * d_mt A
    else 2 * (tku + tkl + 1) * d_nt A.

  (* compute/zlangb.c:81-201 plasma_zlangb with 256-299 plasma_omp_zlangb. bA is the block of the
     tile matrix, bW that of the workspace (its allocation succeeds; calloc except for
     PlasmaMaxNorm, see calloc_work), value the local variable. Not initialised: property C09;
     tuning: C10. *)
  Definition zlangb (nb norm m n kl ku : Z) (pAB : loc) (ldab bA bW : Z) (value : loc) : valued N :=
    if negb (norm_ok norm) then VReturns (-1)
    else if m <? 0 then VReturns (-2)
    else if n <? 0 then VReturns (-3)
    else if kl <? 0 then VReturns (-4)
    else if ku <? 0 then VReturns (-5)
    else if ldab <? Z.max 1 (1 + kl + ku) then VReturns (-7)
    else if Z.min n m =? 0 then VReturns 0
    else with_vdesc (gb_create nb m n kl ku) (fun A =>
      VRuns ((if norm =? PlasmaMaxNorm then [] else [[calloc_work bW (zlangb_work norm nb kl ku A)]])
             ++ match pzlangb norm bA A (bW, 0) value with
                | nil => [pzpb2desc pAB ldab bA A]
                | first :: rest => (pzpb2desc pAB ldab bA A ++ first) :: rest
                end) value).
End NormBand.
