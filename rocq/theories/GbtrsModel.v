(* Systems with a general band matrix, from its LU factorization: compute/zgbtrs.c, and the row
   interchanges of compute/pztbsm.c. *)
From Coq Require Import ZArith List Bool.
From Verif Require Import Base NumModel FieldModel TaskModel TaskSpec DescModel DescDriverModel MatModel
  LayoutModel LasetModel TriModel DriverModel SwpModel BandModel PbtrsModel.
Import ListNotations.
Open Scope Z_scope.

(* what the master thread does in a region: generate a task, or (compute/pztbsm.c:127-130, 195-198)
   wait for all tasks generated so far and then execute a statement itself *)
Inductive item (V : Type) :=
| Task (k : ktask V)
| Alone (k : ktask V).
Arguments Task {V} k.
Arguments Alone {V} k.

(* the same as lists of tasks with a taskwait between them (compute/pztbsm.c:127, 195); cur are
   the tasks generated since the last one *)
Fixpoint waits {V} (cur : list (ktask V)) (l : list (item V)) : list (list (ktask V)) :=
  match l with
  | [] => [cur]
  | Task k :: r => waits (cur ++ [k]) r
  | Alone k :: r => cur :: [k] :: waits [] r
  end.

(* the outcome of a routine whose region has taskwaits: an error code or lists of tasks
   (compute/zgbtrs.c:81-191) *)
Inductive pdriver (V : Type) :=
| PReturns (code : Z)
| PRuns (ph : list (list (ktask V))).
Arguments PReturns {V} code.
Arguments PRuns {V} ph.

Section Gbtrs.
  Context {F : fields}.

  (* compute/pztbsm.c:122-130 and 189-198: the interchanges k1, ..., k2 (counted from 1) of the rows
     of tile column n of B, executed by the master thread when no task is left. The array ipiv is
     given by its contents; the footprint is what is touched when its entries are row numbers. *)
  Definition tbsm_swap (A : desc) (bB : Z) (B : desc) (ipiv : Z -> Z) (incx k1 k2 n : Z) : ktask F :=
    {| k_deps := [];
       k_fun := core_zgeswp PlasmaRowwise bB (the_view B 0 (n * d_nb A) (d_m A) (tile_nview B n)) k1 k2 ipiv incx;
       k_reads := col_reg bB B n;
       k_writes := col_reg bB B n |}.

  (* compute/pztbsm.c:110-155 plasma_pztbsm with PlasmaLeft, PlasmaLower, PlasmaNoTrans and ipiv
     not NULL *)
  Definition tbsm_lower (trans diag : Z) (alpha : F) (bA : Z) (A : desc) (bB : Z) (B : desc) (ipiv : Z -> Z)
      : list (item F) :=
    let mt := d_mt B in
    let nt := d_nt B in
    flat_map (fun k =>
      let lalpha := if k =? 0 then alpha else n1 in
      flat_map (fun n =>
        [Alone (tbsm_swap A bB B ipiv 1 (k * d_nb A + 1) (k * d_nb A + tile_mview B k) n);
         Task (omp_ztrsm PlasmaLeft PlasmaLower trans diag (tile_mview B k) (tile_nview B n) lalpha
                 (tptr bA A k k) (tile_mmain A k) (tptr bB B k n) (tile_mmain B k))])
        (zrange 0 nt)
      ++ flat_map (fun m => map (fun n =>
           Task (omp_zgemm PlasmaNoTrans PlasmaNoTrans (tile_mview B m) (tile_nview B n) (d_mb B) (nopp n1)
             (tptr bA A m k) (tile_mmain A m) (tptr bB B k n) (tile_mmain B k)
             lalpha (tptr bB B m n) (tile_mmain B m)))
           (zrange 0 nt)) (zrange (k + 1) (Z.min (k + d_klt A) (d_mt A))))
      (zrange 0 mt).

  (* compute/pztbsm.c:156-202 the same with trans other than PlasmaNoTrans *)
  Definition tbsm_lower_trans (trans diag : Z) (alpha : F) (bA : Z) (A : desc) (bB : Z) (B : desc) (ipiv : Z -> Z)
      : list (item F) :=
    let mt := d_mt B in
    let nt := d_nt B in
    flat_map (fun k =>
      let lalpha := if k =? 0 then alpha else n1 in
      flat_map (fun m => map (fun n =>
           Task (omp_zgemm trans PlasmaNoTrans (tile_mview B (mt - k - 1)) (tile_nview B n) (tile_mview B m) (nopp n1)
             (tptr bA A m (mt - k - 1)) (tile_mmain A m) (tptr bB B m n) (tile_mmain B m)
             lalpha (tptr bB B (mt - k - 1) n) (tile_mmain B (mt - k - 1))))
           (zrange 0 nt)) (zrange (mt - k - 1 + 1) (Z.min (mt - k - 1 + d_klt A) (d_mt A)))
      ++ flat_map (fun n =>
        [Task (omp_ztrsm PlasmaLeft PlasmaLower trans diag (tile_mview B (mt - k - 1)) (tile_nview B n) lalpha
                 (tptr bA A (mt - k - 1) (mt - k - 1)) (tile_mmain A (mt - k - 1))
                 (tptr bB B (mt - k - 1) n) (tile_mmain B (mt - k - 1)));
         Alone (let k1 := 1 + (mt - k - 1) * d_nb A in
                tbsm_swap A bB B ipiv (-1) k1 (k1 + tile_mview B (mt - k - 1) - 1) n)])
        (zrange 0 nt))
      (zrange 0 mt).

  (* compute/zgbtrs.c:286-318 plasma_omp_zgbtrs after its argument checks, which cannot fail here;
     with PlasmaUpper plasma_pztbsm does not look at ipiv (compute/pztbsm.c:39-108) *)
  Definition omp_zgbtrs (trans : Z) (bA : Z) (A : desc) (ipiv : Z -> Z) (bB : Z) (B : desc) : list (item F) :=
    if (d_n A =? 0) || (d_n B =? 0) then []
    else if trans =? PlasmaNoTrans then
      tbsm_lower PlasmaNoTrans PlasmaUnit n1 bA A bB B ipiv
      ++ map Task (pztbsm PlasmaLeft PlasmaUpper PlasmaNoTrans PlasmaNonUnit n1 bA A bB B)
    else
      map Task (pztbsm PlasmaLeft PlasmaUpper trans PlasmaNonUnit n1 bA A bB B)
      ++ tbsm_lower_trans trans PlasmaUnit n1 bA A bB B ipiv.

  (* compute/zgbtrs.c:81-191 plasma_zgbtrs with 246-319 plasma_omp_zgbtrs and the quick return of
     zpb2desc.c:62-64 (zge2desc.c and zdesc2ge.c have the same one, but then generate no task anyway). Not initialised: property C09; tuning: C10. *)
  Definition zgbtrs (nb trans n kl ku nrhs : Z) (pAB : loc) (ldab : Z) (ipiv : Z -> Z) (pB : loc) (ldb : Z)
      (bA bB : Z) : pdriver F :=
    if negb (trans =? PlasmaNoTrans) && negb (trans =? PlasmaTrans) && negb (trans =? PlasmaConjTrans)
    then PReturns (-1)
    else if n <? 0 then PReturns (-2)
    else if kl <? 0 then PReturns (-3)
    else if ku <? 0 then PReturns (-4)
    else if nrhs <? 0 then PReturns (-5)
    else if ldab <? Z.max 1 (1 + kl + ku) then PReturns (-7)
    else if ldb <? Z.max 1 n then PReturns (-10)
    else if Z.max n nrhs =? 0 then PReturns PlasmaSuccess
    else
      match gb_create nb n n kl ku with
      | CrError code => PReturns code
      | CrOk A _ =>
        match ge_create nb n nrhs with
        | CrError code => PReturns code
        | CrOk B _ =>
          PRuns (waits []
            (map Task ((if (d_m A =? 0) || (d_n A =? 0) then [] else pzpb2desc pAB ldab bA A) ++ pzge2desc pB ldb bB B)
             ++ omp_zgbtrs trans bA A ipiv bB B
             ++ map Task (pzdesc2ge bB B pB ldb)))
        end
      end.
End Gbtrs.
