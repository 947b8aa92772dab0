(* LU factorization with partial pivoting: core_blas/core_zgetrf.c, compute/pzgetrf.c,
   compute/zgetrf.c. *)
From Coq Require Import ZArith List Bool.
From Verif Require Import Base NumModel FieldModel TaskModel TaskSpec GuardModel GuardSpec DescModel
  DescDriverModel MatModel LayoutModel TriModel SwpModel DriverModel.
Import ListNotations.
Open Scope Z_scope.

(* A memory cell: matrix entries and the entries of the integer array ipiv live in the same
   memory (compute/pzgetrf.c:24 has both as arguments). The number is what a matrix entry
   holds, the integer what an entry of ipiv holds. *)
Definition cell (F : fields) : Type := (F * Z)%type.

Section Getrf.
  Context {F : fields}.
  (* plasma_core_dcabs1(a) > plasma_core_dcabs1(b), core_blas/core_zgetrf.c:56-57 (and
     65-66, 79-80) *)
  Variable bigger : F -> F -> bool.

  (* the matrix entries in memory, and a kernel that works on matrix entries only
     (core_blas/core_zgetrf.c: all calls of cblas) (core_blas/core_zgetrf.c:100-232) *)
  Definition nums (M : mem (cell F)) : mem F := fun l => fst (M l).
  (* see nums (core_blas/core_zgetrf.c: all calls of cblas) (core_blas/core_zgetrf.c:100-232) *)
  Definition on_nums (f : mem F -> mem F) (M : mem (cell F)) : mem (cell F) :=
    fun l => (f (nums M) l, snd (M l)).

  (* ipiv[i], read and assigned: core_blas/core_zgetrf.c:88, 164 *)
  Definition ipiv_rd (M : mem (cell F)) (pI : loc) (i : Z) : Z := snd (M (fst pI, snd pI + i)).
  (* core_blas/core_zgetrf.c:88, 164 *)
  Definition ipiv_set (pI : loc) (i v : Z) (M : mem (cell F)) : mem (cell F) :=
    upd M (fst pI, snd pI + i) (fst (M (fst pI, snd pI + i)), v).

  (* core_blas/core_zgetrf.c:49 (and 109, 192): the values of the loop variable,
     for (l = rank; l < mt; l += size) *)
  Definition rank_tiles (rank size mt : Z) : list Z :=
    map (fun t => rank + t * size) (zrange 0 ((mt - rank - 1) / size + 1)).

  (* core_blas/core_zgetrf.c:45-72: one thread's search for the pivot of column j; the result
     is (max_idx[rank], max_val[rank]) *)
  Definition search_rank (b : Z) (A : desc) (rank size j : Z) (M : mem F) : Z * F :=
    let a0 := tptr b A 0 0 in
    let lda0 := tile_mmain A 0 in
    let mva0 := tile_mview A 0 in
    fold_left (fun s l =>
      let al := tptr b A l 0 in
      let ldal := tile_mmain A l in
      let mval := tile_mview A l in
      if l =? 0
      then fold_left (fun s i =>
             let x := rd M a0 lda0 (j + i) j in
             if bigger x (snd s) then (i, x) else s) (zrange 1 (mva0 - j)) s
      else fold_left (fun s i =>
             let x := rd M al ldal i j in
             if bigger x (snd s) then (d_mb A * l + i - j, x) else s) (zrange 0 mval) s)
      (rank_tiles rank size (d_mt A)) (0, rd M a0 lda0 j j).

  (* core_blas/core_zgetrf.c:77-84: the search and the reduction by rank 0 *)
  Definition search (b : Z) (A : desc) (size j : Z) (M : mem F) : Z * F :=
    fold_left (fun s i =>
      let t := search_rank b A i size j M in
      if bigger (snd t) (snd s) then t else s)
      (zrange 1 size) (search_rank b A 0 size j M).

  (* core_blas/core_zgetrf.c:75-105: what rank 0 does between the barriers. The state is the
     memory and *info. *)
  Definition pivot_step (b : Z) (A : desc) (pI : loc) (size k kb j : Z) (s : mem (cell F) * Z)
      : mem (cell F) * Z :=
    let M := fst s in
    let info := snd s in
    let a0 := tptr b A 0 0 in
    let lda0 := tile_mmain A 0 in
    let mx := search b A size j (nums M) in
    let jp := j + fst mx in
    let M1 := ipiv_set pI j (jp - k + 1) M in
    if (info =? 0) && neqb (snd mx) n0 then (M1, j + 1)
    else if jp =? j then (M1, info)
    else
      let ap := tptr b A (jp / d_mb A) 0 in
      let ldap := tile_mmain A (jp / d_mb A) in
      (on_nums (zswap kb (at_ a0 lda0 j k) lda0 (at_ ap ldap (jp mod d_mb A) k) ldap) M1, info).

  (* cblas_zscal(n, alpha, X, 1), core_blas/core_zgetrf.c:127-134; the loops of lines 117-125
     do the same in exact arithmetic *)
  Definition zscal (n : Z) (alpha : F) (X : loc) (M : mem F) : mem F :=
    mset X (Z.max 1 n) n 1 everywhere (fun i _ => nmul alpha (rd M X 1 i 0)) M.

  (* cblas_zgeru(m, n, alpha, X, 1, Y, incy, A, lda), core_blas/core_zgetrf.c:139-152 *)
  Definition zgeru (m n : Z) (alpha : F) (X Y : loc) (incy : Z) (A : loc) (lda : Z) (M : mem F) : mem F :=
    mset A lda m n everywhere
      (fun i c => nadd (rd M A lda i c) (nmul alpha (nmul (rd M X 1 i 0) (rd M Y incy 0 c)))) M.

  (* core_blas/core_zgetrf.c:110-152: scaling of column j and trailing update of tile l *)
  Definition update_tile (b : Z) (A : desc) (info k kb j : Z) (M : mem F) (l : Z) : mem F :=
    let a0 := tptr b A 0 0 in
    let lda0 := tile_mmain A 0 in
    let mva0 := tile_mview A 0 in
    let al := tptr b A l 0 in
    let ldal := tile_mmain A l in
    let mval := tile_mview A l in
    let M1 :=
      if info =? 0
      then if l =? 0
           then zscal (mva0 - j - 1) (finv (rd M a0 lda0 j j)) (at_ a0 lda0 (j + 1) j) M
           else zscal mval (finv (rd M a0 lda0 j j)) (at_ al ldal 0 j) M
      else M in
    if l =? 0
    then zgeru (mva0 - j - 1) (k + kb - j - 1) (nopp n1) (at_ a0 lda0 (j + 1) j)
           (at_ a0 lda0 j (j + 1)) lda0 (at_ a0 lda0 (j + 1) (j + 1)) lda0 M1
    else zgeru mval (k + kb - j - 1) (nopp n1) (at_ al ldal 0 j)
           (at_ a0 lda0 j (j + 1)) lda0 (at_ al ldal 0 (j + 1)) ldal M1.

  (* core_blas/core_zgetrf.c:109-153: one thread's part of the scaling and trailing update *)
  Definition update_rank (b : Z) (A : desc) (size info k kb j : Z) (M : mem F) (rank : Z) : mem F :=
    fold_left (update_tile b A info k kb j) (rank_tiles rank size (d_mt A)) M.

  (* core_blas/core_zgetrf.c:44-155: column j of the panel. Between two barriers the threads
     are run one after the other here; update_threads of GetrfSpec.v has them run at the same time. *)
  Definition column_step (b : Z) (A : desc) (pI : loc) (size k kb : Z) (s : mem (cell F) * Z) (j : Z)
      : mem (cell F) * Z :=
    let s1 := pivot_step b A pI size k kb j s in
    (on_nums (fun M => fold_left (update_rank b A size (snd s1) k kb j) (zrange 0 size) M) (fst s1), snd s1).

  (* core_blas/core_zgetrf.c:168-173 (left: 227-234): exchange of row i with row
     ipiv[i]-1 in the columns c, ..., c+n-1 *)
  Definition swap_row (b : Z) (A : desc) (pI : loc) (n c : Z) (M : mem (cell F)) (i : Z) : mem (cell F) :=
    let r := ipiv_rd M pI i - 1 in
    let ai := tptr b A (i / d_mb A) 0 in
    let ap := tptr b A (r / d_mb A) 0 in
    let ldai := tile_mmain A (i / d_mb A) in
    let ldap := tile_mmain A (r / d_mb A) in
    on_nums (zswap n (at_ ai ldai (i mod d_mb A) c) ldai (at_ ap ldap (r mod d_mb A) c) ldap) M.

  (* core_blas/core_zgetrf.c:193-216: the gemm on tile i *)
  Definition gemm_tile (b : Z) (A : desc) (k kb : Z) (M : mem F) (i : Z) : mem F :=
    let a0 := tptr b A 0 0 in
    let lda0 := tile_mmain A 0 in
    let mva0 := tile_mview A 0 in
    let nva0 := tile_nview A 0 in
    let ai := tptr b A i 0 in
    let ldai := tile_mmain A i in
    let mvai := tile_mview A i in
    if i =? 0
    then core_zgemm PlasmaNoTrans PlasmaNoTrans (mva0 - k - kb) (nva0 - k - kb) kb
           (nopp n1) (at_ a0 lda0 (k + kb) k) lda0 (at_ a0 lda0 k (k + kb)) lda0
           n1 (at_ a0 lda0 (k + kb) (k + kb)) lda0 M
    else core_zgemm PlasmaNoTrans PlasmaNoTrans mvai (nva0 - k - kb) kb
           (nopp n1) (at_ ai ldai 0 k) ldai (at_ a0 lda0 k (k + kb)) lda0
           n1 (at_ ai ldai 0 (k + kb)) ldai M.

  (* core_blas/core_zgetrf.c:192-217: one thread's part of the gemm *)
  Definition gemm_rank (b : Z) (A : desc) (size k kb : Z) (M : mem F) (rank : Z) : mem F :=
    fold_left (gemm_tile b A k kb) (rank_tiles rank size (d_mt A)) M.

  (* core_blas/core_zgetrf.c:175-183: the triangular solve by rank 0 *)
  Definition block_trsm (b : Z) (A : desc) (k kb : Z) (M : mem F) : mem F :=
    let a0 := tptr b A 0 0 in
    let lda0 := tile_mmain A 0 in
    core_ztrsm PlasmaLeft PlasmaLower PlasmaNoTrans PlasmaUnit kb (tile_nview A 0 - k - kb)
      n1 (at_ a0 lda0 k k) lda0 (at_ a0 lda0 k (k + kb)) lda0 M.

  (* core_blas/core_zgetrf.c:34-219: the block of ib columns starting at k *)
  Definition block_step (b : Z) (A : desc) (pI : loc) (ib size : Z) (s : mem (cell F) * Z) (k : Z)
      : mem (cell F) * Z :=
    let kb := Z.min (Z.min (d_m A) (d_n A) - k) ib in
    let s1 := fold_left (column_step b A pI size k kb) (zrange k (k + kb)) s in
    (* pivot adjustment *)
    let M2 := fold_left (fun M i => ipiv_set pI (i - 1) (ipiv_rd M pI (i - 1) + k) M)
                (zrange (k + 1) (Z.min (d_m A) (k + kb) + 1)) (fst s1) in
    (* right pivoting *)
    let M3 := fold_left (swap_row b A pI (tile_nview A 0 - k - kb) (k + kb)) (zrange k (k + kb)) M2 in
    let M4 := on_nums (block_trsm b A k kb) M3 in
    (on_nums (fun M => fold_left (gemm_rank b A size k kb) (zrange 0 size) M) M4, snd s1).

  (* core_blas/core_zgetrf.c:28-238 plasma_core_zgetrf, called by the ranks 0, ..., size-1;
     the result is the memory and *info. The condition k%ib == rank of line 225 holds for
     rank 0 only, k being a multiple of ib. *)
  Definition core_zgetrf (b : Z) (A : desc) (pI : loc) (ib size : Z) (M : mem (cell F)) : mem (cell F) * Z :=
    let mn := Z.min (d_m A) (d_n A) in
    let blocks := map (fun t => t * ib) (zrange 0 ((mn - 1) / ib + 1)) in
    let s := fold_left (block_step b A pI ib size) blocks (M, 0) in
    (fold_left (fun M k => fold_left (swap_row b A pI ib (k - ib)) (zrange k mn) M) (tl blocks) (fst s), snd s).

  (* the elements of tile column n of A from tile row k on (the array sections a00 and a20,
     compute/pzgetrf.c:71-72, and a01, a11, a21, lines 143-145) *)
  Definition col_from (b : Z) (A : desc) (k n : Z) (l : loc) : Prop :=
    exists m, k <= m < d_mt A /\
      reg (tptr b A m n) (tile_mmain A m) (tile_mview A m) (tile_nview A n) everywhere l.

  (* the entries ipiv[lo], ..., ipiv[hi-1] (compute/pzgetrf.c:73, 207) *)
  Definition ipiv_sec (pI : loc) (lo hi : Z) (l : loc) : Prop :=
    exists i, lo <= i < hi /\ l = (fst pI, snd pI + i).

  (* compute/pzgetrf.c:76-125: the body of the panel task, size threads. The pivot
     adjustment of lines 123-124 is not guarded by the sequence status in C; here it is (it
     only matters after a failure). The failure is reported at the end of the task. *)
  Definition panel_fun (b : Z) (A : desc) (pI : loc) (ib size k : Z) (M : mem (cell F)) : mem (cell F) * Z :=
    let nvak := tile_nview A k in
    let W := the_view A (k * d_mb A) (k * d_nb A) (d_m A - k * d_mb A) nvak in
    let s := core_zgetrf b W (fst pI, snd pI + k * d_mb A) ib size M in
    (fold_left (fun M i => ipiv_set pI (i - 1) (ipiv_rd M pI (i - 1) + k * d_mb A) M)
       (zrange (k * d_mb A + 1) (Z.min (d_m A) (k * d_mb A + nvak) + 1)) (fst s),
     if snd s =? 0 then 0 else k * d_mb A + snd s).
  (* compute/pzgetrf.c:71-125: the panel task with its depend clauses; mpt is
     plasma->max_panel_threads (lines 67-68) *)
  Definition panel_task (b : Z) (A : desc) (pI : loc) (ib mpt k : Z) : cktask (cell F) :=
    let size := Z.min mpt (Z.min (d_mt A) (d_nt A) - k) in
    let R := fun l => col_from b A k k l \/
                      ipiv_sec pI (k * d_mb A) (Z.min (d_m A) (k * d_mb A + tile_nview A k)) l in
    {| ck_task :=
         {| k_deps := [dep_inout (tptr b A k k); dep_inout (tptr b A (d_mt A - 1) k);
                       dep_out (fst pI, snd pI + k * d_mb A)];
            k_fun := fun M => fst (panel_fun b A pI ib size k M);
            k_reads := R;
            k_writes := R |};
       ck_info := fun M => snd (panel_fun b A pI ib size k M);
       ck_may_fail := true |}.

  (* The row interchanges of compute/pzgetrf.c:149-154 and 212-216: rows k1, ..., k2 of tile
     column n. An entry of ipiv that is not the number of a row of A at or below row k1 would
     lead plasma_core_zgeswp outside of the part of the column the task declares; the model
     does nothing then. *)
  Definition swap_rows (b : Z) (A : desc) (pI : loc) (w n k1 k2 : Z) (M : mem (cell F)) : mem (cell F) :=
    if forallb (fun i => (k1 <=? ipiv_rd M pI i) && (ipiv_rd M pI i <=? d_m A)) (zrange (k1 - 1) k2)
    then on_nums (core_zgeswp PlasmaRowwise b (the_view A 0 (n * d_nb A) (d_m A) w) k1 k2 (ipiv_rd M pI) 1) M
    else M.

  (* compute/pzgetrf.c:147-179: the body of the update of tile column n. The gemm tasks it
     creates (they have no depend clauses, write different tiles and are waited for) are run
     one after the other. *)
  Definition update_fun (b : Z) (A : desc) (pI : loc) (k n : Z) (M : mem (cell F)) : mem (cell F) :=
    let nvan := tile_nview A n in
    let mvak := tile_mview A k in
    let ldak := tile_mmain A k in
    let M1 := swap_rows b A pI nvan n (k * d_mb A + 1) (Z.min (k * d_mb A + d_mb A) (d_m A)) M in
    let M2 := on_nums (core_ztrsm PlasmaLeft PlasmaLower PlasmaNoTrans PlasmaUnit mvak nvan n1
                (tptr b A k k) ldak (tptr b A k n) ldak) M1 in
    on_nums (fun M => fold_left (fun M m =>
      let mvam := tile_mview A m in
      let ldam := tile_mmain A m in
      core_zgemm PlasmaNoTrans PlasmaNoTrans mvam nvan (d_nb A)
        (nopp n1) (tptr b A m k) ldam (tptr b A k n) ldak n1 (tptr b A m n) ldam M)
      (zrange (k + 1) (d_mt A)) M) M2.
  (* compute/pzgetrf.c:140-180: the update task *)
  Definition update_task (b : Z) (A : desc) (pI : loc) (k n : Z) : ktask (cell F) :=
    {| k_deps := [dep_in (tptr b A k k); dep_in (tptr b A (d_mt A - 1) k);
                  dep_in (fst pI, snd pI + k * d_mb A);
                  dep_inout (tptr b A k n); dep_inout (tptr b A (k + 1) n);
                  dep_inout (tptr b A (d_mt A - 1) n)];
       k_fun := update_fun b A pI k n;
       k_reads := fun l => col_from b A k k l \/ col_from b A k n l \/
                    ipiv_sec pI (k * d_mb A) (Z.min (k * d_mb A + d_mb A) (d_m A)) l;
       k_writes := col_from b A k n |}.

  (* compute/pzgetrf.c:207-218: pivoting to the left, tile column k *)
  Definition left_task (b : Z) (A : desc) (pI : loc) (k : Z) : ktask (cell F) :=
    {| k_deps := [dep_in pI; dep_inout (tptr b A (k + 1) k); dep_inout (tptr b A (d_mt A - 1) k)];
       k_fun := swap_rows b A pI (d_nb A) k ((k + 1) * d_mb A + 1) (Z.min (d_m A) (d_n A));
       k_reads := fun l => col_from b A (k + 1) k l \/
                    ipiv_sec pI ((k + 1) * d_mb A) (Z.min (d_m A) (d_n A)) l;
       k_writes := col_from b A (k + 1) k |}.

  (* compute/pzgetrf.c:24-233 plasma_pzgetrf; A(m,n) is the macro of line 21 *)
  Definition pzgetrf (b : Z) (A : desc) (pI : loc) (ib mpt : Z) : list (cktask (cell F)) :=
    let minmtnt := Z.min (d_mt A) (d_nt A) in
    flat_map (fun k =>
      map (fun m => sure (fake_task [dep_in (tptr b A m k); dep_inout (tptr b A k k)]))
        (zrange (k + 1) (d_mt A - 1)) ++
      panel_task b A pI ib mpt k ::
      map (fun n => sure (update_task b A pI k n)) (zrange (k + 1) (d_nt A)))
      (zrange 0 minmtnt) ++
    map (fun m => sure (fake_task [dep_in (fst pI, snd pI + m * d_mb A); dep_inout pI])) (zrange 0 minmtnt) ++
    flat_map (fun k =>
      sure (left_task b A pI k) ::
      map (fun m => sure (fake_task [dep_in (tptr b A (k + 1) k); dep_inout (tptr b A m k)]))
        (zrange (k + 2) (d_mt A - 1)))
      (zrange 0 (minmtnt - 1)).

  (* A routine with two parallel regions, the second of which is only entered if no task of
     the first has failed (compute/zgetrf.c:80-102); fcode turns the sequence status into
     the code returned after a failure. *)
  Inductive rdriver (V : Type) :=
  | RReturns (code : Z)
  | RRuns (first : list (cktask V)) (second : list (ktask V)) (fcode : Z -> Z).
  Arguments RReturns {V} _.
  Arguments RRuns {V} _ _ _.

  (* creation of a tile matrix, compute/zgetrf.c:62-70 *)
  Definition with_rdesc {V} (r : create_result) (f : desc -> rdriver V) : rdriver V :=
    match r with
    | CrError code => RReturns code
    | CrOk A _ => f A
    end.

  (* compute/zgetrf.c:115-150 plasma_omp_zgetrf (its checks pass for created descriptors, C07) *)
  Definition omp_async_zgetrf (b : Z) (A : desc) (pI : loc) (ib mpt : Z) : list (cktask (cell F)) :=
    if (d_m A =? 0) || (d_n A =? 0) then [] else pzgetrf b A pI ib mpt.

  (* compute/zgetrf.c:25-110 plasma_zgetrf; bA is the block of the tile matrix *)
  Definition zgetrf (nb ib mpt m n : Z) (pA : loc) (lda : Z) (pI : loc) (bA : Z) : rdriver (cell F) :=
    if m <? 0 then RReturns (-1)
    else if n <? 0 then RReturns (-2)
    else if lda <? Z.max 1 m then RReturns (-4)
    else if Z.min m n =? 0 then RReturns PlasmaSuccess
    else
      with_rdesc (ge_create nb m n) (fun A =>
        RRuns (map sure (pzge2desc pA lda bA A) ++ omp_async_zgetrf bA A pI ib mpt)
              (pzdesc2ge bA A pA lda)
              (fun st => Z.min m n + st)).
End Getrf.
Arguments RReturns {V} _.
Arguments RRuns {V} _ _ _.
