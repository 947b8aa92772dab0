(* Norms of symmetric, Hermitian and triangular matrices: compute/pzlansy.c, pzlanhe.c,
   pzlantr.c and their drivers. *)
From Coq Require Import ZArith List Bool.
From Verif Require Import Base NumModel FieldModel TaskModel TaskSpec DescModel DescDriverModel
  MatModel LayoutModel DriverModel NormModel.
Import ListNotations.
Open Scope Z_scope.

Section NormTri.
  Context {N : normed}.
  Variable lassq : list N -> N * N -> N * N.
  Variable nsqrt : N -> N.

  (* core_blas/core_ztrssq.c:23-35 ssq; absa is the absolute value of its argument. The same
     computation is inlined at core_blas/core_zsyssq.c:40-52 and core_zhessq.c:40-52. *)
  Definition ssq (s : N * N) (absa : N) : N * N :=
    if neqb absa n0 then s
    else if nltb (fst s) absa
    then let q := nmul (fst s) (finv absa) in (absa, nadd n1 (nmul (snd s) (nmul q q)))
    else let q := nmul absa (finv (fst s)) in (fst s, nadd (snd s) (nmul q q)).

  (* The absolute value taken on the diagonal is a parameter dg: cabs for symmetric matrices
     (core_blas/core_zlansy.c:70), fabs(creal()) for Hermitian ones
     (core_blas/core_zlanhe.c:70). *)

  (* LAPACK zlansy and zlanhe, norm 'M', called at core_blas/core_zlansy.c:26-29 and
     core_zlanhe.c: the loops over the columns of the triangle *)
  Definition lansy_max (dg : N -> N) (uplo n : Z) (f : Z -> Z -> N) : N :=
    fold_left (fun v j => fold_left (fun v i => nmax v (if i =? j then dg (f i j) else nabs (f i j)))
        (if uplo =? PlasmaUpper then zrange 0 (j + 1) else zrange j n) v) (zrange 0 n) n0.

  (* core_blas/core_zlansy.c:33-45 plasma_core_omp_zlansy, norm = PlasmaMaxNorm (work unused) *)
  Definition omp_zlansy_max (dg : N -> N) (uplo n : Z) (A : loc) (lda : Z) (value : loc) : ktask N :=
    {| k_deps := [dep_in A; dep_out value];
       k_fun := fun M => fill value 1 (fun _ => lansy_max dg uplo n (rd M A lda)) M;
       k_reads := reg A lda n n everywhere;
       k_writes := seg value 1 |}.

  (* "value[i] += x", e.g. core_blas/core_zlansy.c:67 *)
  Definition vadd (v : Z -> N) (i : Z) (x : N) : Z -> N := fun k => if k =? i then nadd (v k) x else v k.

  (* core_blas/core_zlansy.c:48-89 plasma_core_omp_zlansy_aux, core_zlanhe.c:48-89: the array
     value after the loops *)
  Definition lansy_aux (dg : N -> N) (uplo n : Z) (f : Z -> Z -> N) : Z -> N :=
    if uplo =? PlasmaUpper then
      fold_left (fun v j =>
        vadd (fold_left (fun v i => vadd (vadd v i (nabs (f i j))) j (nabs (f i j))) (zrange 0 j) v)
             j (dg (f j j))) (zrange 0 n) (fun _ => n0)
    else
      fold_left (fun v j =>
        fold_left (fun v i => vadd (vadd v i (nabs (f i j))) j (nabs (f i j))) (zrange (j + 1) n)
          (vadd v j (dg (f j j)))) (zrange 0 n) (fun _ => n0).
  (* core_blas/core_zlansy.c:48-89 *)
  Definition omp_zlansy_aux (dg : N -> N) (uplo n : Z) (A : loc) (lda : Z) (value : loc) : ktask N :=
    {| k_deps := [dep_in A; dep_out value];
       k_fun := fun M => fill value n (lansy_aux dg uplo n (rd M A lda)) M;
       k_reads := reg A lda n n everywhere;
       k_writes := seg value n |}.

  (* "*sumsq *= 2.0": core_blas/core_zsyssq.c:39 and :101 *)
  Definition twice (s : N * N) : N * N := (fst s, nmul (nadd n1 n1) (snd s)).

  (* core_blas/core_zsyssq.c:21-53 plasma_core_zsyssq and core_zhessq.c:21-53, from
     *scale = 0.0, *sumsq = 1.0 *)
  Definition syssq (dg : N -> N) (uplo n : Z) (f : Z -> Z -> N) : N * N :=
    let s := if uplo =? PlasmaUpper
      then fold_left (fun s j => lassq (map (fun i => f i j) (zrange 0 j)) s) (zrange 1 n) (n0, n1)
      else fold_left (fun s j => lassq (map (fun i => f i j) (zrange (j + 1) n)) s) (zrange 0 (n - 1)) (n0, n1) in
    fold_left (fun s i => ssq s (dg (f i i))) (zrange 0 n) (twice s).
  (* core_blas/core_zsyssq.c:56-72 plasma_core_omp_zsyssq, core_zhessq.c:56-72 *)
  Definition omp_zsyssq (dg : N -> N) (uplo n : Z) (A : loc) (lda : Z) (scale sumsq : loc) : ktask N :=
    {| k_deps := [dep_in A; dep_out scale; dep_out sumsq];
       k_fun := fun M => fill sumsq 1 (fun _ => snd (syssq dg uplo n (rd M A lda)))
                           (fill scale 1 (fun _ => fst (syssq dg uplo n (rd M A lda))) M);
       k_reads := reg A lda n n everywhere;
       k_writes := fun l => seg scale 1 l \/ seg sumsq 1 l |}.

  (* core_blas/core_zsyssq.c:75-115 plasma_core_omp_zsyssq_aux in double precision: the loops *)
  Definition syssq_aux (m n : Z) (sc sm : Z -> N) : N * N :=
    fold_left (fun s j => ssq_add s (sc (m * j + j)) (sm (m * j + j))) (zrange 0 n)
      (twice (fold_left (fun s j => fold_left (fun s i => ssq_add s (sc (m * j + i)) (sm (m * j + i)))
         (zrange (j + 1) n) s) (zrange 0 n) (n0, n1))).
  (* core_blas/core_zsyssq.c:75-115. Reads at most m*n elements of scale and sumsq. *)
  Definition omp_dsyssq_aux (m n : Z) (scale sumsq value : loc) : ktask N :=
    {| k_deps := [dep_in scale; dep_in sumsq; dep_out value];
       k_fun := fun M =>
         fill value 1 (fun _ =>
           let s := syssq_aux m n (fun i => M (pplus scale i)) (fun i => M (pplus sumsq i)) in
           nmul (fst s) (nsqrt (snd s))) M;
       k_reads := fun l => seg scale (m * n) l \/ seg sumsq (m * n) l;
       k_writes := seg value 1 |}.

  (* The loop nest of compute/pzlansy.c:43-72 (and :82-121, :133-163, pzlanhe.c, and of
     pzlantr.c with the guards "n < imin(m, A.nt)" and "m < A.nt", which hold always when
     A.mt = A.nt): for each m the tiles (m, n) strictly inside the triangle, then (m, m) *)
  Definition tri_tiles {T : Type} (uplo : Z) (A : desc) (off : Z -> Z -> list T) (diag : Z -> T) : list T :=
    flat_map (fun m =>
      flat_map (fun n => off m n)
        (if uplo =? PlasmaLower then zrange 0 (Z.min m (d_nt A)) else zrange (m + 1) (d_nt A))
      ++ (if m <? d_nt A then [diag m] else [])) (zrange 0 (d_mt A)).

  (* compute/pzlansy.c:26-171 plasma_pzlansy (dg = nabs) and compute/pzlanhe.c
     plasma_pzlanhe: the tasks before and after the taskwait *)
  Definition pzlansy (dg : N -> N) (norm uplo : Z) (bA : Z) (A : desc) (work value : loc) : list (list (ktask N)) :=
    if norm =? PlasmaMaxNorm then
      [tri_tiles uplo A
         (fun m n => [omp_zlange_max (tile_mview A m) (tile_nview A n) (tptr bA A m n) (tile_mmain A m)
                        (pplus work (d_mt A * n + m))])
         (fun m => omp_zlansy_max dg uplo (tile_mview A m) (tptr bA A m m) (tile_mmain A m)
                        (pplus work (d_mt A * m + m)));
       [omp_zlansy_max nabs uplo (d_nt A) work (d_mt A) value]]
    else if (norm =? PlasmaOneNorm) || (norm =? PlasmaInfNorm) then
      [tri_tiles uplo A
         (fun m n => [omp_zlange_aux_one (tile_mview A m) (tile_nview A n) (tptr bA A m n) (tile_mmain A m)
                        (pplus work (d_n A * m + n * d_nb A));
                      omp_zlange_aux_inf (tile_mview A m) (tile_nview A n) (tptr bA A m n) (tile_mmain A m)
                        (pplus work (d_n A * n + m * d_nb A))])
         (fun m => omp_zlansy_aux dg uplo (tile_mview A m) (tptr bA A m m) (tile_mmain A m)
                        (pplus work (d_n A * m + m * d_nb A)));
       [omp_dlange_inf (d_n A) (d_mt A) work (d_n A) (pplus work (d_mt A * d_n A)) value]]
    else if norm =? PlasmaFrobeniusNorm then
      [tri_tiles uplo A
         (fun m n =>
            let o := if uplo =? PlasmaLower then d_mt A * n + m else d_mt A * m + n in
            [omp_zgessq lassq (tile_mview A m) (tile_nview A n) (tptr bA A m n) (tile_mmain A m)
               (pplus work o) (pplus (pplus work (d_mt A * d_nt A)) o)])
         (fun m => omp_zsyssq dg uplo (tile_mview A m) (tptr bA A m m) (tile_mmain A m)
               (pplus work (d_mt A * m + m)) (pplus (pplus work (d_mt A * d_nt A)) (d_mt A * m + m)));
       [omp_dsyssq_aux (d_mt A) (d_nt A) work (pplus work (d_mt A * d_nt A)) value]]
    else [].

  (* compute/zlansy.c:81-186 plasma_zlansy (dg = nabs), compute/zlanhe.c plasma_zlanhe *)
  Definition zlansy (dg : N -> N) (nb norm uplo n : Z) (pA : loc) (lda bA bW : Z) (value : loc) : valued N :=
    if negb (norm_ok norm) then VReturns (-1)
    else if negb ((uplo =? PlasmaUpper) || (uplo =? PlasmaLower)) then VReturns (-2)
    else if n <? 0 then VReturns (-3)
    else if lda <? Z.max 1 n then VReturns (-5)
    else if n =? 0 then VReturns 0
    else with_vdesc (ge_create nb n n) (fun A =>
      VRuns (norm_phases pA lda bA A (pzlansy dg norm uplo bA A (bW, 0) value)) value).
  (* compute/zlansy.c:133-146: the number of doubles allocated for work *)
  Definition zlansy_work (norm : Z) (A : desc) : Z :=
    if norm =? PlasmaMaxNorm then d_mt A * d_nt A
    else if (norm =? PlasmaOneNorm) || (norm =? PlasmaInfNorm) then d_mt A * d_n A + d_n A
    else 2 * d_mt A * d_nt A.

  (* LAPACK zlantr (dlantr on real data), norm 'M', called at core_blas/core_zlantr.c:37 *)
  Definition lantr_max (uplo diag m n : Z) (f : Z -> Z -> N) : N :=
    fold_left (fun v j => fold_left (fun v i => nmax v (nabs (f i j)))
        (if diag =? PlasmaUnit
         then (if uplo =? PlasmaUpper then zrange 0 (Z.min m j) else zrange (j + 1) m)
         else (if uplo =? PlasmaUpper then zrange 0 (Z.min m (j + 1)) else zrange j m)) v)
      (zrange 0 n) (if diag =? PlasmaUnit then n1 else n0).
  (* core_blas/core_zlantr.c:41-53 plasma_core_omp_zlantr, norm = PlasmaMaxNorm (work unused) *)
  Definition omp_zlantr_max (uplo diag m n : Z) (A : loc) (lda : Z) (value : loc) : ktask N :=
    {| k_deps := [dep_in A; dep_out value];
       k_fun := fun M => fill value 1 (fun _ => lantr_max uplo diag m n (rd M A lda)) M;
       k_reads := reg A lda m n everywhere;
       k_writes := seg value 1 |}.

  (* core_blas/core_zlantr.c:56-120 plasma_core_omp_zlantr_aux, PlasmaOneNorm: value[j] *)
  Definition lantr_one (uplo diag m n : Z) (f : Z -> Z -> N) (j : Z) : N :=
    if uplo =? PlasmaUpper then
      if diag =? PlasmaNonUnit then
        fold_left (fun s i => nadd s (nabs (f i j))) (zrange 1 (Z.min (j + 1) m)) (nabs (f 0 j))
      else if j <? Z.min n m then
        fold_left (fun s i => nadd s (nabs (f i j))) (zrange 0 j) n1
      else
        fold_left (fun s i => nadd s (nabs (f i j))) (zrange 1 m) (nabs (f 0 j))
    else if j <? Z.min n m then
      fold_left (fun s i => nadd s (nabs (f i j))) (zrange (j + 1) m)
        (if diag =? PlasmaNonUnit then nabs (f j j) else n1)
    else n0.
  (* core_blas/core_zlantr.c:121-186, PlasmaInfNorm: value[i]. The entries of value do not
     depend on one another; the additions to value[i] are made in the order of the columns. *)
  Definition lantr_inf (uplo diag m n : Z) (f : Z -> Z -> N) (i : Z) : N :=
    if uplo =? PlasmaUpper then
      if diag =? PlasmaNonUnit then
        fold_left (fun s j => if i <? Z.min (j + 1) m then nadd s (nabs (f i j)) else s) (zrange 0 n) n0
      else
        fold_left (fun s j => nadd s (nabs (f i j))) (zrange (Z.min n m) n)
          (fold_left (fun s j => if i <? j then nadd s (nabs (f i j)) else s) (zrange 0 (Z.min n m))
             (if i <? Z.min m n then n1 else n0))
    else if diag =? PlasmaNonUnit then
      fold_left (fun s j => if j <=? i then nadd s (nabs (f i j)) else s) (zrange 0 (Z.min n m)) n0
    else
      fold_left (fun s j => if j + 1 <=? i then nadd s (nabs (f i j)) else s) (zrange 0 (Z.min n m))
        (if i <? Z.min m n then n1 else n0).
  (* core_blas/core_zlantr.c:56-120 *)
  Definition omp_zlantr_one (uplo diag m n : Z) (A : loc) (lda : Z) (value : loc) : ktask N :=
    {| k_deps := [dep_in A; dep_out value];
       k_fun := fun M => fill value n (lantr_one uplo diag m n (rd M A lda)) M;
       k_reads := reg A lda m n everywhere;
       k_writes := seg value n |}.
  (* core_blas/core_zlantr.c:121-186 *)
  Definition omp_zlantr_inf (uplo diag m n : Z) (A : loc) (lda : Z) (value : loc) : ktask N :=
    {| k_deps := [dep_in A; dep_out value];
       k_fun := fun M => fill value m (lantr_inf uplo diag m n (rd M A lda)) M;
       k_reads := reg A lda m n everywhere;
       k_writes := seg value m |}.

  (* core_blas/core_ztrssq.c:39-87 plasma_core_ztrssq, from *scale = 0.0, *sumsq = 1.0 *)
  Definition trssq (uplo diag m n : Z) (f : Z -> Z -> N) : N * N :=
    if uplo =? PlasmaUpper then
      if diag =? PlasmaNonUnit then
        fold_left (fun s j => fold_left (fun s i => ssq s (nabs (f i j))) (zrange 1 (Z.min (j + 1) m))
          (ssq s (nabs (f 0 j)))) (zrange 0 n) (n0, n1)
      else
        fold_left (fun s j => fold_left (fun s i => ssq s (nabs (f i j))) (zrange 1 m) (ssq s (nabs (f 0 j))))
          (zrange (Z.min n m) n)
          (fold_left (fun s j => fold_left (fun s i => ssq s (nabs (f i j))) (zrange 0 j) (ssq s (nabs n1)))
             (zrange 0 (Z.min n m)) (n0, n1))
    else
      fold_left (fun s j => fold_left (fun s i => ssq s (nabs (f i j))) (zrange (j + 1) m)
          (ssq s (nabs (if diag =? PlasmaNonUnit then f j j else n1)))) (zrange 0 (Z.min n m)) (n0, n1).
  (* core_blas/core_ztrssq.c:90-106 plasma_core_omp_ztrssq *)
  Definition omp_ztrssq (uplo diag m n : Z) (A : loc) (lda : Z) (scale sumsq : loc) : ktask N :=
    {| k_deps := [dep_in A; dep_out scale; dep_out sumsq];
       k_fun := fun M => fill sumsq 1 (fun _ => snd (trssq uplo diag m n (rd M A lda)))
                           (fill scale 1 (fun _ => fst (trssq uplo diag m n (rd M A lda))) M);
       k_reads := reg A lda m n everywhere;
       k_writes := fun l => seg scale 1 l \/ seg sumsq 1 l |}.

  (* compute/pzlantr.c:27-215 plasma_pzlantr *)
  Definition pzlantr (norm uplo diag : Z) (bA : Z) (A : desc) (work value : loc) : list (list (ktask N)) :=
    if norm =? PlasmaMaxNorm then
      [tri_tiles uplo A
         (fun m n => [omp_zlange_max (tile_mview A m) (tile_nview A n) (tptr bA A m n) (tile_mmain A m)
                        (pplus work (d_mt A * n + m))])
         (fun m => omp_zlantr_max uplo diag (tile_mview A m) (tile_nview A m) (tptr bA A m m) (tile_mmain A m)
                        (pplus work (d_mt A * m + m)));
       [omp_zlantr_max uplo PlasmaNonUnit (d_mt A) (d_nt A) work (d_mt A) value]]
    else if norm =? PlasmaOneNorm then
      [tri_tiles uplo A
         (fun m n => [omp_zlange_aux_one (tile_mview A m) (tile_nview A n) (tptr bA A m n) (tile_mmain A m)
                        (pplus work (d_n A * m + n * d_nb A))])
         (fun m => omp_zlantr_one uplo diag (tile_mview A m) (tile_nview A m) (tptr bA A m m) (tile_mmain A m)
                        (pplus work (d_n A * m + m * d_nb A)));
       [omp_dlange_inf (d_n A) (d_mt A) work (d_n A) (pplus work (d_mt A * d_n A)) value]]
    else if norm =? PlasmaInfNorm then
      [tri_tiles uplo A
         (fun m n => [omp_zlange_aux_inf (tile_mview A m) (tile_nview A n) (tptr bA A m n) (tile_mmain A m)
                        (pplus work (d_m A * n + m * d_mb A))])
         (fun m => omp_zlantr_inf uplo diag (tile_mview A m) (tile_nview A m) (tptr bA A m m) (tile_mmain A m)
                        (pplus work (d_m A * m + m * d_nb A)));
       [omp_dlange_inf (d_m A) (d_nt A) work (d_m A) (pplus work (d_nt A * d_m A)) value]]
    else if norm =? PlasmaFrobeniusNorm then
      [tri_tiles uplo A
         (fun m n => [omp_zgessq lassq (tile_mview A m) (tile_nview A n) (tptr bA A m n) (tile_mmain A m)
               (pplus work (d_mt A * n + m)) (pplus (pplus work (d_mt A * d_nt A)) (d_mt A * n + m))])
         (fun m => omp_ztrssq uplo diag (tile_mview A m) (tile_nview A m) (tptr bA A m m) (tile_mmain A m)
               (pplus work (d_mt A * m + m)) (pplus (pplus work (d_mt A * d_nt A)) (d_mt A * m + m)));
       [omp_dgessq_aux nsqrt (d_mt A * d_nt A) work (pplus work (d_mt A * d_nt A)) value]]
    else [].

  (* calloc, compute/zlantr.c:154-160: zeros are stored before the parallel region begins. A
     step of its own here, with no other task beside it. *)
  Definition calloc_work (bW size : Z) : ktask N :=
    {| k_deps := [];
       k_fun := fun M => fill (bW, 0) size (fun _ => n0) M;
       k_reads := fun _ => False;
       k_writes := seg (bW, 0) size |}.
  (* compute/zlantr.c:148-162: the number of doubles allocated for work *)
  Definition zlantr_work (norm : Z) (A : desc) : Z :=
    if norm =? PlasmaMaxNorm then d_mt A * d_nt A
    else if norm =? PlasmaOneNorm then d_mt A * d_n A + d_n A
    else if norm =? PlasmaInfNorm then d_nt A * d_m A + d_m A
    else 2 * d_mt A * d_nt A.
  (* compute/zlantr.c:84-193 plasma_zlantr *)
  Definition zlantr (nb norm uplo diag m n : Z) (pA : loc) (lda bA bW : Z) (value : loc) : valued N :=
    if negb (norm_ok norm) then VReturns (-1)
    else if negb ((uplo =? PlasmaUpper) || (uplo =? PlasmaLower)) then VReturns (-2)
    else if negb ((diag =? PlasmaUnit) || (diag =? PlasmaNonUnit)) then VReturns (-3)
    else if m <? 0 then VReturns (-4)
    else if n <? 0 then VReturns (-5)
    else if lda <? Z.max 1 m then VReturns (-7)
    else if Z.min n m =? 0 then VReturns 0
    else with_vdesc (ge_create nb m n) (fun A =>
      VRuns ((if norm =? PlasmaMaxNorm then [] else [[calloc_work bW (zlantr_work norm A)]])
             ++ norm_phases pA lda bA A (pzlantr norm uplo diag bA A (bW, 0) value)) value).
End NormTri.
