(* LU factorization of a general band matrix: compute/pzgbtrf.c, compute/zgbtrf.c. *)
From Coq Require Import ZArith List Bool.
From Verif Require Import Base NumModel FieldModel TaskModel TaskSpec GuardModel GuardSpec DescModel
  DescDriverModel MatModel LayoutModel TriModel SwpModel DriverModel BandModel GetrfModel.
Import ListNotations.
Open Scope Z_scope.

(* view.type = PlasmaGeneral: compute/pzgbtrf.c:82, 124 *)
Definition as_general (A : desc) : desc :=
  {| d_type := PlasmaGeneral; d_uplo := d_uplo A; d_prec := d_prec A;
     d_A21 := d_A21 A; d_A12 := d_A12 A; d_A22 := d_A22 A;
     d_mb := d_mb A; d_nb := d_nb A; d_gm := d_gm A; d_gn := d_gn A;
     d_gmt := d_gmt A; d_gnt := d_gnt A;
     d_i := d_i A; d_j := d_j A; d_m := d_m A; d_n := d_n A;
     d_mt := d_mt A; d_nt := d_nt A;
     d_kl := d_kl A; d_ku := d_ku A; d_klt := d_klt A; d_kut := d_kut A |}.

(* mak, the number of rows of panel k: compute/pzgbtrf.c:47 *)
Definition gb_rows (A : desc) (k : Z) : Z := Z.min (d_m A - k * d_mb A) (tile_mview A k + d_kl A).

(* the view of these rows of tile column n: compute/pzgbtrf.c:80-82 (n = k), 120-124 *)
Definition gb_view (A : desc) (k n : Z) : desc :=
  as_general (the_view A ((d_kut A - 1 + k - n) * d_mb A) (n * d_nb A) (gb_rows A k) (tile_nview A n)).

Section Gbtrf.
  Context {F : fields}.
  (* the comparison of absolute values of core_blas/core_zgetrf.c:56-57 (and 65-66, 79-80) *)
  Variable bigger : F -> F -> bool.

  (* the tiles of column n from row k to row k+klt-1, which the tasks of step k touch
     (compute/pzgbtrf.c:80-87, 120-146) *)
  Definition gb_part (b : Z) (A : desc) (k n : Z) (l : loc) : Prop :=
    exists m, k <= m < Z.min (k + d_klt A) (d_mt A) /\
      reg (tptr b A m n) (tile_mmain_band A m n) (tile_mview A m) (tile_nview A n) everywhere l.

  (* compute/pzgbtrf.c:84 &ipiv[k*A.mb] *)
  Definition gb_ipiv (A : desc) (pI : loc) (k : Z) : loc := (fst pI, snd pI + k * d_mb A).

  (* compute/pzgbtrf.c:70-98: the body of the panel task, size threads. The failure is reported
     at the end of the task; the allocations of lines 60-68 succeed. *)
  Definition gb_panel_fun (b : Z) (A : desc) (pI : loc) (ib size k : Z) (M : mem (cell F)) : mem (cell F) * Z :=
    let s := core_zgetrf bigger b (gb_view A k k) (gb_ipiv A pI k) ib size M in
    (fst s, if snd s =? 0 then 0 else k * d_mb A + snd s).
  (* compute/pzgbtrf.c:44-98: the panel task with its depend clauses; mpt is
     plasma->max_panel_threads (line 34) *)
  Definition gb_panel (b : Z) (A : desc) (pI : loc) (ib mpt k : Z) : cktask (cell F) :=
    let size := Z.min mpt (Z.min (Z.min (d_mt A) (d_nt A) - k) (d_klt A)) in
    let R := fun l => gb_part b A k k l \/ ipiv_sec (gb_ipiv A pI k) 0 (Z.min (gb_rows A k) (tile_nview A k)) l in
    {| ck_task :=
         {| k_deps := [dep_inout (tptr b A k k); dep_out (gb_ipiv A pI k)];
            k_fun := fun M => fst (gb_panel_fun b A pI ib size k M);
            k_reads := R;
            k_writes := R |};
       ck_info := fun M => snd (gb_panel_fun b A pI ib size k M);
       ck_may_fail := true |}.

  (* compute/pzgbtrf.c:117-126: the row interchanges in tile column n. An entry of ipiv that is
     not the number of a row of the view would lead plasma_core_zgeswp outside of the part of the
     column the task declares; the model does nothing then. *)
  Definition gb_swap (b : Z) (A : desc) (pI : loc) (k n : Z) (M : mem (cell F)) : mem (cell F) :=
    let k1 := k * d_mb A + 1 in
    let k2 := Z.min (k * d_mb A + d_mb A) (d_m A) in
    let p := gb_ipiv A pI k in
    if forallb (fun i => (1 <=? ipiv_rd M p i) && (ipiv_rd M p i <=? gb_rows A k)) (zrange 0 (k2 - k1 + 1))
    then on_nums (core_zgeswp PlasmaRowwise b (gb_view A k n) 1 (k2 - k1 + 1) (ipiv_rd M p) 1) M
    else M.

  (* compute/pzgbtrf.c:116-150: the body of the update of tile column n. The gemm tasks it
     creates (they have no depend clauses, write different tiles and are waited for) are run
     one after the other. *)
  Definition gb_update_fun (b : Z) (A : desc) (pI : loc) (k n : Z) (M : mem (cell F)) : mem (cell F) :=
    let M1 := gb_swap b A pI k n M in
    let M2 := on_nums (core_ztrsm PlasmaLeft PlasmaLower PlasmaNoTrans PlasmaUnit (tile_mview A k) (tile_nview A n) n1
                (tptr b A k k) (tile_mmain_band A k k) (tptr b A k n) (tile_mmain_band A k n)) M1 in
    on_nums (fun M => fold_left (fun M m =>
      core_zgemm PlasmaNoTrans PlasmaNoTrans (tile_mview A m) (tile_nview A n) (d_nb A)
        (nopp n1) (tptr b A m k) (tile_mmain_band A m k) (tptr b A k n) (tile_mmain_band A k n)
        n1 (tptr b A m n) (tile_mmain_band A m n) M)
      (zrange (Z.max (k + 1) (n - d_kut A)) (Z.min (k + d_klt A) (d_mt A))) M) M2.
  (* compute/pzgbtrf.c:101-151: the update task with its depend clauses *)
  Definition gb_update (b : Z) (A : desc) (pI : loc) (k n : Z) : ktask (cell F) :=
    {| k_deps := [dep_in (tptr b A k k); dep_inout (gb_ipiv A pI k);
                  dep_inout (tptr b A k n); dep_inout (tptr b A (k + 1) n)];
       k_fun := gb_update_fun b A pI k n;
       k_reads := fun l => gb_part b A k k l \/ gb_part b A k n l \/
                    ipiv_sec (gb_ipiv A pI k) 0 (Z.min (k * d_mb A + d_mb A) (d_m A) - k * d_mb A) l;
       k_writes := gb_part b A k n |}.

  (* compute/pzgbtrf.c:153-160: the task that turns the pivots of panel k into row numbers of A *)
  Definition gb_shift (A : desc) (pI : loc) (k : Z) : ktask (cell F) :=
    let p := gb_ipiv A pI k in
    let q := Z.min (gb_rows A k) (tile_nview A k) in
    {| k_deps := [dep_in p];
       k_fun := fun M => if 0 <? k
                  then fold_left (fun M i => ipiv_set p i (ipiv_rd M p i + k * d_mb A) M) (zrange 0 q) M
                  else M;
       k_reads := ipiv_sec p 0 q;
       k_writes := ipiv_sec p 0 q |}.

  (* compute/pzgbtrf.c:24-162 plasma_pzgbtrf; A(m,n) is the macro of line 21 *)
  Definition pzgbtrf (b : Z) (A : desc) (pI : loc) (ib mpt : Z) : list (cktask (cell F)) :=
    flat_map (fun k =>
      gb_panel b A pI ib mpt k ::
      map (fun n => sure (gb_update b A pI k n)) (zrange (k + 1) (Z.min (d_nt A) (k + d_kut A))) ++
      [sure (gb_shift A pI k)])
      (zrange 0 (Z.min (d_mt A) (d_nt A))).
End Gbtrf.
