(* Generating Q and solving least squares problems with the QR factorization:
   compute/zungqr.c, pzungqr.c, zgeqrs.c. *)
From Coq Require Import ZArith List Bool.
From Verif Require Import Base NumModel FieldModel TaskModel TaskSpec DescModel DescDriverModel MatModel
  LayoutModel LasetModel TriModel DriverModel QrModel.
Import ListNotations.
Open Scope Z_scope.

(* control/descriptor.c:374-397 plasma_desc_view and the tasks that use the view. The fatal error
   for a view that is out of bounds ends the program; here no tasks follow. *)
Definition with_view {V} (A : desc) (i j m n : Z) (f : desc -> list (ktask V)) : list (ktask V) :=
  match desc_view_opt A i j m n with
  | Some B => f B
  | None => []
  end.

Section Ungqr.
  Context {N : numbers}.

  (* compute/pzungqr.c:28-74 plasma_pzungqr; A(m,n), T(m,n), Q(m,n) are the macros of lines
     20-22. The early return for a failed sequence (lines 33-34) is left out: no task fails. *)
  Definition pzungqr (bA : Z) (A : desc) (bT : Z) (T : desc) (bQ : Z) (Q : desc) : list (ktask N) :=
    let ib := d_mb T in
    flat_map (fun k =>
      flat_map (fun m => map (fun n =>
        omp_ztsmqr PlasmaLeft PlasmaNoTrans (d_mb Q) (tile_nview Q n) (tile_mview Q m) (tile_nview Q n) (tile_nview A k) ib
          (tptr bQ Q k n) (tile_mmain Q k) (tptr bQ Q m n) (tile_mmain Q m)
          (tptr bA A m k) (tile_mmain A m) (tptr bT T m k) (d_mb T))
        (zrange k (d_nt Q)))
        (rev (zrange (k + 1) (d_mt Q)))
      ++ map (fun n =>
        omp_zunmqr PlasmaLeft PlasmaNoTrans (tile_mview Q k) (tile_nview Q n) (Z.min (tile_nview A k) (tile_mview A k)) ib
          (tptr bA A k k) (tile_mmain A k) (tptr bT T k k) (d_mb T) (tptr bQ Q k n) (tile_mmain Q k))
        (zrange k (d_nt Q)))
      (rev (zrange 0 (Z.min (d_mt A) (d_nt A)))).

  (* compute/zungqr.c:108-121: the descriptors of A and of Q, both m x k in an array of n
     columns *)
  Definition ungqr_create (nb m n k : Z) : create_result :=
    general_create PlasmaComplexDouble nb nb m n 0 0 m k.

  (* compute/zungqr.c:73-179 plasma_zungqr with 230-283 plasma_omp_zungqr, whose argument checks
     cannot fail here, in the flat Householder mode. T and its block bT are the ones filled
     in by plasma_zgeqrf. Not initialised: property C09; tuning: C10. *)
  Definition zungqr (nb m n k : Z) (pA : loc) (lda : Z) (bT : Z) (T : desc) (pQ : loc) (ldq : Z)
      (bA bQ : Z) : driver N :=
    if m <? 0 then Returns (-1)
    else if (n <? 0) || (m <? n) then Returns (-2)
    else if (k <? 0) || (n <? k) then Returns (-3)
    else if lda <? Z.max 1 m then Returns (-5)
    else if ldq <? Z.max 1 m then Returns (-8)
    else if n <=? 0 then Returns PlasmaSuccess
    else
      with_desc (ungqr_create nb m n k) (fun A =>
      with_desc (ungqr_create nb m n k) (fun Q =>
        Runs (pzge2desc pA lda bA A ++ pzge2desc pQ ldq bQ Q
              ++ (if d_n Q <=? 0 then []
                  else pzlaset PlasmaGeneral n0 n1 bQ Q ++ pzungqr bA A bT T bQ Q)
              ++ pzdesc2ge bQ Q pQ ldq))).
End Ungqr.

Section Geqrs.
  Context {F : fields}.

  (* compute/zgeqrs.c:72-178 plasma_zgeqrs with 233-294 plasma_omp_zgeqrs, whose argument checks
     cannot fail here, in the flat Householder mode. T and its block bT are the ones filled
     in by plasma_zgeqrf. Not initialised: property C09; tuning: C10. *)
  Definition zgeqrs (nb m n nrhs : Z) (pA : loc) (lda : Z) (bT : Z) (T : desc) (pB : loc) (ldb : Z)
      (bA bB : Z) : driver F :=
    if m <? 0 then Returns (-1)
    else if (n <? 0) || (m <? n) then Returns (-2)
    else if nrhs <? 0 then Returns (-3)
    else if lda <? Z.max 1 m then Returns (-5)
    else if ldb <? Z.max 1 (Z.max 1 m) then Returns (-8)
    else if (m =? 0) || (n =? 0) || (nrhs =? 0) then Returns PlasmaSuccess
    else
      with_desc (ge_create nb m n) (fun A =>
      with_desc (ge_create nb m nrhs) (fun B =>
        Runs (pzge2desc pA lda bA A ++ pzge2desc pB ldb bB B
              ++ (if (d_m A =? 0) || (d_n A =? 0) || (d_n B =? 0) then []
                  else pzunmqr PlasmaLeft PlasmaConjTrans bA A bT T bB B
                       ++ with_view A 0 0 (d_n A) (d_n A) (fun VA =>
                          with_view B 0 0 (d_n A) (d_n B) (fun VB =>
                            pztrsm PlasmaLeft PlasmaUpper PlasmaNoTrans PlasmaNonUnit n1 bA VA bB VB)))
              ++ pzdesc2ge bB B pB ldb))).
End Geqrs.
