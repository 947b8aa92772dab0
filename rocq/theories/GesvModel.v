(* General systems and the inverse of a general matrix, from the matrix itself:
   compute/zgesv.c, compute/zgeinv.c. *)
From Coq Require Import ZArith List Bool.
From Verif Require Import Base NumModel FieldModel TaskModel TaskSpec GuardModel GuardSpec DescModel
  DescDriverModel MatModel LayoutModel TriModel DriverModel SwpModel PotrfModel TrtriModel GetriModel GetrfModel.
Import ListNotations.
Open Scope Z_scope.

Section Gesv.
  Context {F : fields}.
  (* plasma_core_dcabs1(a) > plasma_core_dcabs1(b), core_blas/core_zgetrf.c:56-57 *)
  Variable bigger : F -> F -> bool.

  (* A task that works on matrix entries only, in the memory that holds ipiv as well (the
     tasks of compute/pztrsm.c, compute/pztrtri.c and compute/pzgetri_aux.c, as created by
     compute/zgesv.c:162-170 and compute/zgeinv.c:229-232). It keeps the integers of the cells
     it writes, so it counts as reading them. *)
  Definition on_cells (k : ktask F) : ktask (cell F) :=
    {| k_deps := k_deps k; k_fun := on_nums (k_fun k);
       k_reads := fun l => k_reads k l \/ k_writes k l; k_writes := k_writes k |}.
  (* the same for a task that may fail (compute/pztrtri.c, as created by compute/zgeinv.c:229) *)
  Definition on_ccells (k : cktask F) : cktask (cell F) :=
    {| ck_task := on_cells (ck_task k); ck_info := fun M => ck_info k (nums M); ck_may_fail := ck_may_fail k |}.

  (* compute/pzgeswp.c:57, 97 with the array ipiv read from memory. An entry of ipiv that is
     not the number of a row (column) of A would lead plasma_core_zgeswp outside of what the
     task declares; the model does nothing then. len is the number of interchanges. The task
     of compute/pzgeswp.c does not look at the status of the sequence, that of the model does:
     see the theorems about singular matrices. *)
  Definition swp_read (pI : loc) (len : Z) (f : (Z -> Z) -> mem F -> mem F) (M : mem (cell F)) : mem (cell F) :=
    if forallb (fun i => (1 <=? ipiv_rd M pI i) && (ipiv_rd M pI i <=? len)) (zrange 0 len)
    then on_nums (f (ipiv_rd M pI)) M
    else M.

  (* the task k pv, which makes the interchanges pv (compute/pzgeswp.c:48-59, 92-100), with
     pv read from the len entries of ipiv at pI *)
  Definition swp_reads (pI : loc) (len : Z) (k : (Z -> Z) -> ktask F) : ktask (cell F) :=
    {| k_deps := k_deps (k (fun _ => 0));
       k_fun := swp_read pI len (fun pv => k_fun (k pv));
       k_reads := fun l => k_reads (k (fun _ => 0)) l \/ ipiv_sec pI 0 len l;
       k_writes := k_writes (k (fun _ => 0)) |}.

  (* compute/pzgeswp.c:22-114 plasma_pzgeswp, ipiv being read from memory *)
  Definition pzgeswp_mem (colrow b : Z) (A : desc) (pI : loc) (incx : Z) : list (ktask (cell F)) :=
    if colrow =? PlasmaRowwise then
      flat_map (fun n =>
        map (fun m => fake_task [dep_in (tptr b A m n); dep_inout (tptr b A 0 n)])
          (zrange 1 (d_mt A - 1)) ++
        [swp_reads pI (d_m A) (fun pv => swp_task_row b A pI pv incx n)] ++
        map (fun m => fake_task [dep_in (tptr b A 0 n); dep_inout (tptr b A m n)])
          (zrange 1 (d_mt A - 1))) (zrange 0 (d_nt A))
    else
      flat_map (fun m =>
        map (fun n => fake_task [dep_in (tptr b A m n); dep_inout (tptr b A m 0)])
          (zrange 1 (d_nt A - 1)) ++
        [swp_reads pI (d_n A) (fun pv => swp_task_col b A pI pv incx m)] ++
        map (fun n => fake_task [dep_in (tptr b A m 0); dep_inout (tptr b A m n)])
          (zrange 1 (d_nt A - 1))) (zrange 0 (d_mt A)).

  (* compute/zgesv.c:119-171 plasma_omp_zgesv (its argument checks cannot fail for created
     descriptors, C07) *)
  Definition omp_async_zgesv (bA : Z) (A : desc) (pI : loc) (bB : Z) (B : desc) (ib mpt : Z)
      : list (cktask (cell F)) :=
    if (d_n A =? 0) || (d_n B =? 0) then []
    else
      pzgetrf bigger bA A pI ib mpt
      ++ map sure (pzgeswp_mem PlasmaRowwise bB B pI 1)
      ++ map sure (map on_cells (pztrsm PlasmaLeft PlasmaLower PlasmaNoTrans PlasmaUnit n1 bA A bB B))
      ++ map sure (map on_cells (pztrsm PlasmaLeft PlasmaUpper PlasmaNoTrans PlasmaNonUnit n1 bA A bB B)).

  (* compute/zgesv.c:25-114 plasma_zgesv; bA and bB are the blocks of the tile matrices. Not
     initialised: property C09; tuning: C10. *)
  Definition zgesv (nb ib mpt n nrhs : Z) (pA : loc) (lda : Z) (pI : loc) (pB : loc) (ldb : Z) (bA bB : Z)
      : gdriver (cell F) :=
    if n <? 0 then GReturns (-1)
    else if nrhs <? 0 then GReturns (-2)
    else if lda <? Z.max 1 n then GReturns (-4)
    else if ldb <? Z.max 1 n then GReturns (-7)
    else if Z.min n nrhs =? 0 then GReturns PlasmaSuccess
    else
      with_gdesc (ge_create nb n n) (fun A =>
      with_gdesc (ge_create nb n nrhs) (fun B =>
        GRuns (map sure (pzge2desc pA lda bA A ++ pzge2desc pB ldb bB B)
               ++ omp_async_zgesv bA A pI bB B ib mpt
               ++ map sure (pzdesc2ge bA A pA lda ++ pzdesc2ge bB B pB ldb)))).

  (* compute/zgeinv.c:192-236 plasma_omp_zgeinv (its argument checks cannot fail for created
     descriptors, C07) *)
  Definition omp_async_zgeinv (bA : Z) (A : desc) (pI : loc) (bW : Z) (W : desc) (ib mpt : Z)
      : list (cktask (cell F)) :=
    if (d_m A =? 0) || (d_n A =? 0) then []
    else
      pzgetrf bigger bA A pI ib mpt
      ++ map on_ccells (pztrtri PlasmaUpper PlasmaNonUnit bA A)
      ++ map sure (map on_cells (pzgetri_aux bA A bW W))
      ++ map sure (pzgeswp_mem PlasmaColumnwise bA A pI (-1)).

  (* compute/zgeinv.c:62-145 plasma_zgeinv. Not initialised: property C09; tuning: C10. *)
  Definition zgeinv (nb ib mpt m n : Z) (pA : loc) (lda : Z) (pI : loc) (bA bW : Z) : gdriver (cell F) :=
    if m <? 0 then GReturns (-1)
    else if n <? 0 then GReturns (-2)
    else if lda <? Z.max 1 n then GReturns (-4)
    else if (Z.max n 0 =? 0) || (Z.max m 0 =? 0) then GReturns PlasmaSuccess
    else
      with_gdesc (ge_create nb m n) (fun A =>
      with_gdesc (ge_create nb n nb) (fun W =>
        GRuns (map sure (pzge2desc pA lda bA A)
               ++ omp_async_zgeinv bA A pI bW W ib mpt
               ++ map sure (pzdesc2ge bA A pA lda)))).
End Gesv.
