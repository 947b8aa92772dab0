(* Row and column interchanges: core_blas/core_zgeswp.c, compute/pzgeswp.c,
   compute/zgeswp.c. *)
From Coq Require Import ZArith List Bool.
From Verif Require Import Base TaskModel TaskSpec DescModel DescDriverModel MatModel LayoutModel
  DriverModel.
Import ListNotations.
Open Scope Z_scope.

(* include/plasma_types.h:113-114 *)
Definition PlasmaColumnwise : Z := 401.
(* include/plasma_types.h:114 *)
Definition PlasmaRowwise : Z := 402.

Section Swp.
  Context {V : Type}.

  (* one iteration of the reference BLAS zswap (called by core_blas/core_zgeswp.c:40-42):
     exchange the contents of two locations *)
  Definition swap_loc (a b : loc) (M : mem V) : mem V := upd (upd M a (M b)) b (M a).

  (* cblas_zswap(n, X, incx, Y, incy) with positive increments, as called by
     core_blas/core_zgeswp.c:40-42, 56-58, 75-77, 90-92 *)
  Definition zswap (n : Z) (X : loc) (incx : Z) (Y : loc) (incy : Z) (M : mem V) : mem V :=
    fold_left (fun M i => swap_loc (at_ X incx 0 i) (at_ Y incy 0 i) M) (zrange 0 n) M.

  (* core_blas/core_zgeswp.c:30, 47, 67, 82: the values of the loop variable, in order. For
     incx = 0 the C loop does not end; no theorem is about that case. *)
  Definition swp_indices (k1 k2 incx : Z) : list Z :=
    if 0 <? incx
    then map (fun t => k1 - 1 + t * incx) (zrange 0 ((k2 - k1) / incx + 1))
    else map (fun t => k2 - 1 + t * incx) (zrange 0 ((k2 - k1) / (- incx) + 1)).

  (* core_blas/core_zgeswp.c:31-43 (and 48-60): one interchange of rows. The array ipiv is
     given by its contents. *)
  Definition swp_row (b : Z) (A : desc) (ipiv : Z -> Z) (M : mem V) (m : Z) : mem V :=
    if ipiv m - 1 =? m then M
    else
      let m1 := m in
      let m2 := ipiv m - 1 in
      let lda1 := tile_mmain A (m1 / d_mb A) in
      let lda2 := tile_mmain A (m2 / d_mb A) in
      let a1 := tptr b A (m1 / d_mb A) 0 in
      let a2 := tptr b A (m2 / d_mb A) 0 in
      zswap (d_n A) (fst a1, snd a1 + m1 mod d_mb A) lda1 (fst a2, snd a2 + m2 mod d_mb A) lda2 M.

  (* core_blas/core_zgeswp.c:68-79 (and 83-94): one interchange of columns *)
  Definition swp_col (b : Z) (A : desc) (ipiv : Z -> Z) (M : mem V) (n : Z) : mem V :=
    if ipiv n - 1 =? n then M
    else
      let n1 := n in
      let n2 := ipiv n - 1 in
      let lda0 := tile_mmain A 0 in
      let a1 := tptr b A 0 (n1 / d_nb A) in
      let a2 := tptr b A 0 (n2 / d_nb A) in
      zswap (d_m A) (fst a1, snd a1 + (n1 mod d_nb A) * lda0) 1
                    (fst a2, snd a2 + (n2 mod d_nb A) * lda0) 1 M.

  (* core_blas/core_zgeswp.c:22-93 plasma_core_zgeswp *)
  Definition core_zgeswp (colrow b : Z) (A : desc) (k1 k2 : Z) (ipiv : Z -> Z) (incx : Z)
      (M : mem V) : mem V :=
    if colrow =? PlasmaRowwise
    then fold_left (swp_row b A ipiv) (swp_indices k1 k2 incx) M
    else fold_left (swp_col b A ipiv) (swp_indices k1 k2 incx) M.

  (* compute/pzgeswp.c:37-45, 61-69, 82-90, 103-111: a task that only increments a local
     variable *)
  Definition fake_task (deps : list dep) : ktask V :=
    {| k_deps := deps; k_fun := fun M => M; k_reads := fun _ => False; k_writes := fun _ => False |}.

  (* plasma_desc_view as called by the task bodies (compute/pzgeswp.c:57, 97); where the C
     program would stop with an error the model works on A itself *)
  Definition the_view (A : desc) (i j m n : Z) : desc :=
    match desc_view_opt A i j m n with Some W => W | None => A end.

  (* the elements of tile column n of A (compute/pzgeswp.c:54-60) *)
  Definition col_reg (b : Z) (A : desc) (n : Z) (l : loc) : Prop :=
    exists m, 0 <= m < d_mt A /\
      reg (tptr b A m n) (tile_mmain A m) (tile_mview A m) (tile_nview A n) everywhere l.
  (* the elements of tile row m of A (compute/pzgeswp.c:93-100) *)
  Definition row_reg (b : Z) (A : desc) (m : Z) (l : loc) : Prop :=
    exists n, 0 <= n < d_nt A /\
      reg (tptr b A m n) (tile_mmain A m) (tile_mview A m) (tile_nview A n) everywhere l.

  (* compute/pzgeswp.c:48-59: the task for tile column n; its footprint is what it can touch
     when the entries of ipiv are row numbers of A. pI is the array ipiv. *)
  Definition swp_task_row (b : Z) (A : desc) (pI : loc) (ipiv : Z -> Z) (incx n : Z) : ktask V :=
    {| k_deps := [dep_in pI; dep_inout (tptr b A 0 n); dep_inout (tptr b A (d_mt A - 1) n)];
       k_fun := core_zgeswp PlasmaRowwise b (the_view A 0 (n * d_nb A) (d_m A) (tile_nview A n))
                  1 (d_m A) ipiv incx;
       k_reads := col_reg b A n;
       k_writes := col_reg b A n |}.

  (* compute/pzgeswp.c:92-100: the task for tile row m *)
  Definition swp_task_col (b : Z) (A : desc) (pI : loc) (ipiv : Z -> Z) (incx m : Z) : ktask V :=
    {| k_deps := [dep_in pI; dep_inout (tptr b A m 0); dep_inout (tptr b A m (d_nt A - 1))];
       k_fun := core_zgeswp PlasmaColumnwise b (the_view A (m * d_mb A) 0 (tile_mview A m) (d_n A))
                  1 (d_n A) ipiv incx;
       k_reads := row_reg b A m;
       k_writes := row_reg b A m |}.

  (* compute/pzgeswp.c:22-114 plasma_pzgeswp *)
  Definition pzgeswp (colrow b : Z) (A : desc) (pI : loc) (ipiv : Z -> Z) (incx : Z)
      : list (ktask V) :=
    if colrow =? PlasmaRowwise then
      flat_map (fun n =>
        map (fun m => fake_task [dep_in (tptr b A m n); dep_inout (tptr b A 0 n)])
          (zrange 1 (d_mt A - 1)) ++
        [swp_task_row b A pI ipiv incx n] ++
        map (fun m => fake_task [dep_in (tptr b A 0 n); dep_inout (tptr b A m n)])
          (zrange 1 (d_mt A - 1))) (zrange 0 (d_nt A))
    else
      flat_map (fun m =>
        map (fun n => fake_task [dep_in (tptr b A m n); dep_inout (tptr b A m 0)])
          (zrange 1 (d_nt A - 1)) ++
        [swp_task_col b A pI ipiv incx m] ++
        map (fun n => fake_task [dep_in (tptr b A m 0); dep_inout (tptr b A m n)])
          (zrange 1 (d_nt A - 1))) (zrange 0 (d_mt A)).

  (* compute/zgeswp.c:105-146 plasma_omp_zgeswp (its checks pass for created descriptors, C07) *)
  Definition omp_async_zgeswp (colrow b : Z) (A : desc) (pI : loc) (ipiv : Z -> Z) (incx : Z)
      : list (ktask V) :=
    if Z.min (d_m A) (d_n A) =? 0 then [] else pzgeswp colrow b A pI ipiv incx.

  (* compute/zgeswp.c:22-102 plasma_zgeswp *)
  Definition zgeswp (nb colrow m n : Z) (pA : loc) (lda : Z) (pI : loc) (ipiv : Z -> Z) (incx bA : Z)
      : driver V :=
    if negb (colrow =? PlasmaColumnwise) && negb (colrow =? PlasmaRowwise) then Returns (-1)
    else if m <? 0 then Returns (-2)
    else if n <? 0 then Returns (-3)
    else if lda <? Z.max 1 m then Returns (-5)
    else if Z.min n m =? 0 then Returns PlasmaSuccess
    else
      with_desc (ge_create nb m n) (fun A =>
      Runs (pzge2desc pA lda bA A ++ omp_async_zgeswp colrow bA A pI ipiv incx
            ++ pzdesc2ge bA A pA lda)).
End Swp.
