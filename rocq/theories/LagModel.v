(* Conversion between double and single precision: compute/zlag2c.c, clag2z.c. *)
From Coq Require Import ZArith List Bool.
From Verif Require Import Base NumModel TaskModel TaskSpec DescModel DescDriverModel MatModel GuardModel GuardSpec
  LayoutModel DriverModel FieldModel PotrfModel.
Import ListNotations.
Open Scope Z_scope.

Section Lag.
  (* Values of either precision. narrow and widen convert one number, fits says whether a
     number in double precision is in the range of single precision: what LAPACK zlag2c and
     clag2z do with one element is trusted, see DESIGN.md. Descriptors and offsets count
     elements, so the precision of a tile matrix does not appear in them. *)
  Context {V : Type}.
  Variables (narrow widen : V -> V) (fits : V -> bool).

  (* LAPACK zlag2c goes through the matrix column by column and stops at the first element out
     of range (core_blas/core_zlag2c.c:49-56): whether it gets past element (i,j) *)
  Definition lag_reaches (M : mem V) (m : Z) (A : loc) (lda i j : Z) : bool :=
    forallb (fun c => forallb (fun r => fits (rd M A lda r c)) (zrange 0 (if c =? j then i + 1 else m)))
      (zrange 0 (j + 1)).
  (* core_blas/core_zlag2c.c:49-56: no element is out of range *)
  Definition lag_all (M : mem V) (m n : Z) (A : loc) (lda : Z) : bool :=
    forallb (fun c => forallb (fun r => fits (rd M A lda r c)) (zrange 0 m)) (zrange 0 n).

  (* core_blas/core_zlag2c.c:49-56 plasma_core_zlag2c: calls LAPACK zlag2c. An element not
     reached keeps its value, which the model expresses by writing it back. *)
  Definition core_zlag2c (m n : Z) (A : loc) (lda : Z) (As : loc) (ldas : Z) (M : mem V) : mem V :=
    mset As ldas m n everywhere
      (fun i j => if lag_reaches M m A lda i j then narrow (rd M A lda i j) else rd M As ldas i j) M.
  (* core_blas/core_zlag2c.c:49-56: the value returned by LAPACK zlag2c *)
  Definition core_zlag2c_info (m n : Z) (A : loc) (lda : Z) (M : mem V) : Z :=
    if lag_all M m n A lda then 0 else 1.

  (* core_blas/core_zlag2c.c:59-79 plasma_core_omp_zlag2c *)
  Definition omp_zlag2c (m n : Z) (A : loc) (lda : Z) (As : loc) (ldas : Z) : cktask V :=
    {| ck_task :=
         {| k_deps := [dep_in A; dep_out As];
            k_fun := core_zlag2c m n A lda As ldas;
            k_reads := fun l => reg A lda m n everywhere l \/ reg As ldas m n everywhere l;
            k_writes := reg As ldas m n everywhere |};
       ck_info := core_zlag2c_info m n A lda;
       ck_may_fail := true |}.

  (* core_blas/core_clag2z.c:49-54 plasma_core_clag2z: calls LAPACK clag2z *)
  Definition core_clag2z (m n : Z) (As : loc) (ldas : Z) (A : loc) (lda : Z) (M : mem V) : mem V :=
    mset A lda m n everywhere (fun i j => widen (rd M As ldas i j)) M.
  (* core_blas/core_clag2z.c:57-68 plasma_core_omp_clag2z *)
  Definition omp_clag2z (m n : Z) (As : loc) (ldas : Z) (A : loc) (lda : Z) : ktask V :=
    {| k_deps := [dep_in As; dep_out A];
       k_fun := core_clag2z m n As ldas A lda;
       k_reads := reg As ldas m n everywhere;
       k_writes := reg A lda m n everywhere |}.

  (* compute/pzlag2c.c:47-85 plasma_pzlag2c for general matrices (lines 53-67); the branch for
     band matrices (lines 68-84) is in LagBandModel.v. The early return
     (lines 51-52) is left out, see pzpotrf in PotrfModel.v. *)
  Definition pzlag2c (bA : Z) (A : desc) (bS : Z) (As : desc) : list (cktask V) :=
    flat_map (fun m =>
      map (fun n =>
        omp_zlag2c (tile_mview A m) (tile_nview A n) (tptr bA A m n) (tile_mmain A m)
          (tptr bS As m n) (tile_mmain As m)) (zrange 0 (d_nt A)))
      (zrange 0 (d_mt A)).

  (* compute/pclag2z.c:28-67 plasma_pclag2z for general matrices (lines 35-48) *)
  Definition pclag2z (bS : Z) (As : desc) (bA : Z) (A : desc) : list (ktask V) :=
    flat_map (fun m =>
      map (fun n =>
        omp_clag2z (tile_mview As m) (tile_nview As n) (tptr bS As m n) (tile_mmain As m)
          (tptr bA A m n) (tile_mmain A m)) (zrange 0 (d_nt As)))
      (zrange 0 (d_mt As)).

  (* compute/zlag2c.c:59-149 plasma_zlag2c (plasma_omp_zlag2c, zlag2c.c:192-231, adds nothing).
     bA and bS are the memory blocks of the tile matrices. *)
  Definition zlag2c (nb m n : Z) (pA : loc) (lda : Z) (pS : loc) (ldas : Z) (bA bS : Z) : gdriver V :=
    if m <? 0 then GReturns (-1)
    else if n <? 0 then GReturns (-2)
    else if lda <? Z.max 1 m then GReturns (-4)
    else if ldas <? Z.max 1 m then GReturns (-6)
    else if Z.min n m =? 0 then GReturns PlasmaSuccess
    else
      with_gdesc (ge_create nb m n) (fun A =>
      with_gdesc (ge_create nb m n) (fun As =>
        GRuns (map sure (pzge2desc pA lda bA A) ++ map sure (pzge2desc pS ldas bS As)
               ++ pzlag2c bA A bS As
               ++ map sure (pzdesc2ge bA A pA lda) ++ map sure (pzdesc2ge bS As pS ldas)))).

  (* compute/clag2z.c:58-144 plasma_clag2z (plasma_omp_clag2z, clag2z.c:187-226, adds nothing) *)
  Definition clag2z (nb m n : Z) (pS : loc) (ldas : Z) (pA : loc) (lda : Z) (bS bA : Z) : driver V :=
    if m <? 0 then Returns (-1)
    else if n <? 0 then Returns (-2)
    else if ldas <? Z.max 1 m then Returns (-4)
    else if lda <? Z.max 1 m then Returns (-6)
    else if Z.min n m =? 0 then Returns PlasmaSuccess
    else
      with_desc (ge_create nb m n) (fun As =>
      with_desc (ge_create nb m n) (fun A =>
        Runs (pzge2desc pS ldas bS As ++ pzge2desc pA lda bA A
              ++ pclag2z bS As bA A
              ++ pzdesc2ge bS As pS ldas ++ pzdesc2ge bA A pA lda))).
End Lag.
