(* Matrix norms: compute/pzlange.c, pzlansy.c, pzlanhe.c, pzlantr.c, pdzamax.c and their
   drivers. *)
From Coq Require Import ZArith List Bool.
From Verif Require Import Base NumModel FieldModel TaskModel TaskSpec DescModel DescDriverModel
  MatModel LayoutModel DriverModel SwpModel.
Import ListNotations.
Open Scope Z_scope.

(* include/plasma_types.h:90-97 *)
Definition PlasmaOneNorm : Z := 171.
(* include/plasma_types.h:93 *)
Definition PlasmaFrobeniusNorm : Z := 174.
(* include/plasma_types.h:94 *)
Definition PlasmaInfNorm : Z := 175.
(* include/plasma_types.h:96 *)
Definition PlasmaMaxNorm : Z := 177.

(* Exact arithmetic with an absolute value and a comparison: cabs, fabs and creal of C99,
   plasma_core_dcabs1 (core_blas/core_dcabs1.c:34-37) and < on double. Real numbers are
   complex numbers here; those in the range of nabs (the non-negative reals) are ordered. *)
Record normed := mknormed {
  nfld :> fields;
  nabs : nfld -> nfld;
  ncabs1 : nfld -> nfld;
  nre : nfld -> nfld;
  nltb : nfld -> nfld -> bool;
  nabs_0 : nabs n0 = n0;
  nabs_1 : nabs n1 = n1;
  nabs_mul : forall x y, nabs (nmul x y) = nmul (nabs x) (nabs y);
  nabs_abs : forall x, nabs (nabs x) = nabs x;
  nabs_add : forall x y, nabs (nadd (nabs x) (nabs y)) = nadd (nabs x) (nabs y);
  nabs_zero : forall x, nabs x = n0 -> x = n0;
  nabs_sq : forall x, nmul (nabs x) (nabs x) = nmul x (nconj x);
  nabs_conj : forall x, nabs (nconj x) = nabs x;
  nabs_cabs1 : forall x, nabs (ncabs1 x) = ncabs1 x;
  nltb_0 : forall x, nltb (nabs x) n0 = false;
  nltb_pos : forall x, x <> n0 -> nltb n0 (nabs x) = true;
  nltb_asym : forall x y, nltb (nabs x) (nabs y) = true -> nltb (nabs y) (nabs x) = false;
  nltb_trans : forall x y z, nltb (nabs y) (nabs x) = false -> nltb (nabs z) (nabs y) = false ->
    nltb (nabs z) (nabs x) = false }.
Arguments nabs {_} _. Arguments ncabs1 {_} _. Arguments nre {_} _. Arguments nltb {_} _ _.

(* A driver that returns a double: an error code or a value known at once (quick return, 0.0),
   or the contents of the local variable value after parallel phases. A phase is a list of
   tasks; the next phase is submitted after "#pragma omp taskwait" (e.g. compute/pzlange.c:56)
   has waited for all of them, and the value is read after the implicit barrier at the end of
   the parallel region (compute/zlange.c:168). *)
Inductive valued (V : Type) :=
| VReturns (code : Z)
| VRuns (phases : list (list (ktask V))) (value : loc).
Arguments VReturns {V} _.
Arguments VRuns {V} _ _.

(* e.g. compute/zlange.c:121-126 *)
Definition with_vdesc {V} (r : create_result) (f : desc -> valued V) : valued V :=
  match r with
  | CrError code => VReturns code
  | CrOk A _ => f A
  end.

(* assigning f 0, f 1, ... to p[0], p[1], ..., p[len-1]: the results of the kernels of
   core_blas/core_zlange.c:90-111 *)
Definition fill {V} (p : loc) (len : Z) (f : Z -> V) (M : mem V) : mem V :=
  fun l => if (fst l =? fst p) && (snd p <=? snd l) && (snd l <? snd p + len)
           then f (snd l - snd p) else M l.
(* the locations p[0], ..., p[len-1] (core_blas/core_zlange.c:90-111) *)
Definition seg (p : loc) (len : Z) (l : loc) : Prop :=
  exists r, 0 <= r < len /\ l = (fst p, snd p + r).

(* pointer p + o, e.g. &work[o] in compute/pzlange.c:53 *)
Definition pplus (p : loc) (o : Z) : loc := (fst p, snd p + o).

Section Norm.
  Context {N : normed}.

  (* "if (value < temp) value = temp": LAPACK zlange, dlange; core_blas/core_dzamax.c:35-37 *)
  Definition nmax (v t : N) : N := if nltb v t then t else v.

  (* LAPACK zlange, norm 'M' (dlange on real data), called at core_blas/core_zlange.c:59-61:
     the loops over the columns and rows *)
  Definition lange_max (m n : Z) (f : Z -> Z -> N) : N :=
    fold_left (fun v j => fold_left (fun v i => nmax v (nabs (f i j))) (zrange 0 m) v) (zrange 0 n) n0.

  (* LAPACK dlange, norm 'I': work(i) := sum of the row
     (called at core_blas/core_zlange.c:59-61) *)
  Definition lange_row (n : Z) (f : Z -> Z -> N) (i : Z) : N :=
    fold_left (fun s j => nadd s (nabs (f i j))) (zrange 0 n) n0.
  (* LAPACK dlange, norm 'I': the largest of the row sums
     (called at core_blas/core_zlange.c:59-61) *)
  Definition lange_inf (m n : Z) (f : Z -> Z -> N) : N :=
    fold_left (fun v i => nmax v (lange_row n f i)) (zrange 0 m) n0.

  (* core_blas/core_zlange.c:65-76 plasma_core_omp_zlange with norm = PlasmaMaxNorm: work is
     not used. The test of sequence->status is left out: no task of these routines fails. *)
  Definition omp_zlange_max (m n : Z) (A : loc) (lda : Z) (value : loc) : ktask N :=
    {| k_deps := [dep_in A; dep_out value];
       k_fun := fun M => fill value 1 (fun _ => lange_max m n (rd M A lda)) M;
       k_reads := reg A lda m n everywhere;
       k_writes := seg value 1 |}.

  (* core_blas/core_zlange.c:65-76, double precision, with norm = PlasmaInfNorm: the row sums
     are left in work *)
  Definition omp_dlange_inf (m n : Z) (A : loc) (lda : Z) (work value : loc) : ktask N :=
    {| k_deps := [dep_in A; dep_out value];
       k_fun := fun M => fill value 1 (fun _ => lange_inf m n (rd M A lda))
                           (fill work m (lange_row n (rd M A lda)) M);
       k_reads := reg A lda m n everywhere;
       k_writes := fun l => seg work m l \/ seg value 1 l |}.

  (* core_blas/core_zlange.c:90-95: value[j] = cabs(A[lda*j]); value[j] += cabs(A[lda*j+i]) *)
  Definition aux_one (m : Z) (f : Z -> Z -> N) (j : Z) : N :=
    fold_left (fun s i => nadd s (nabs (f i j))) (zrange 1 m) (nabs (f 0 j)).
  (* core_blas/core_zlange.c:104-111: value[i] = 0.0; value[i] += cabs(A[lda*j+i]) *)
  Definition aux_inf (n : Z) (f : Z -> Z -> N) (i : Z) : N :=
    fold_left (fun s j => nadd s (nabs (f i j))) (zrange 0 n) n0.

  (* core_blas/core_zlange.c:79-116 plasma_core_omp_zlange_aux, PlasmaOneNorm *)
  Definition omp_zlange_aux_one (m n : Z) (A : loc) (lda : Z) (value : loc) : ktask N :=
    {| k_deps := [dep_in A; dep_out value];
       k_fun := fun M => fill value n (aux_one m (rd M A lda)) M;
       k_reads := reg A lda m n everywhere;
       k_writes := seg value n |}.
  (* core_blas/core_zlange.c:79-116 plasma_core_omp_zlange_aux, PlasmaInfNorm *)
  Definition omp_zlange_aux_inf (m n : Z) (A : loc) (lda : Z) (value : loc) : ktask N :=
    {| k_deps := [dep_in A; dep_out value];
       k_fun := fun M => fill value m (aux_inf n (rd M A lda)) M;
       k_reads := reg A lda m n everywhere;
       k_writes := seg value m |}.

  (* LAPACK zlassq and the square root of C99: oracles. lassq xs (scale, sumsq) is the pair
     left by zlassq applied to the vector xs; its contract is stated in the theorems. *)
  Variable lassq : list N -> N * N -> N * N.
  Variable nsqrt : N -> N.

  (* core_blas/core_zgessq.c:21-31 plasma_core_zgessq, from *scale = 0.0, *sumsq = 1.0
     (core_zgessq.c:44-46) *)
  Definition gessq (m n : Z) (f : Z -> Z -> N) : N * N :=
    fold_left (fun s j => lassq (map (fun i => f i j) (zrange 0 m)) s) (zrange 0 n) (n0, n1).

  (* core_blas/core_zgessq.c:34-49 plasma_core_omp_zgessq. The depend clauses name n elements
     of scale and sumsq; the addresses are what orders the tasks. *)
  Definition omp_zgessq (m n : Z) (A : loc) (lda : Z) (scale sumsq : loc) : ktask N :=
    {| k_deps := [dep_in A; dep_out scale; dep_out sumsq];
       k_fun := fun M => fill sumsq 1 (fun _ => snd (gessq m n (rd M A lda)))
                           (fill scale 1 (fun _ => fst (gessq m n (rd M A lda))) M);
       k_reads := reg A lda m n everywhere;
       k_writes := fun l => seg scale 1 l \/ seg sumsq 1 l |}.

  (* core_blas/core_zgessq.c:64-71: one step of the combination of scaled sums of squares *)
  Definition ssq_add (s : N * N) (scl sum : N) : N * N :=
    if nltb (fst s) scl
    then let q := nmul (fst s) (finv scl) in (scl, nadd sum (nmul (snd s) (nmul q q)))
    else if nltb n0 (fst s)
    then let q := nmul scl (finv (fst s)) in (fst s, nadd (snd s) (nmul (nmul sum q) q))
    else s.
  (* core_blas/core_zgessq.c:52-77 plasma_core_omp_zgessq_aux, double precision *)
  Definition omp_dgessq_aux (n : Z) (scale sumsq value : loc) : ktask N :=
    {| k_deps := [dep_in scale; dep_in sumsq; dep_out value];
       k_fun := fun M =>
         fill value 1 (fun _ =>
           let s := fold_left (fun s i => ssq_add s (M (pplus scale i)) (M (pplus sumsq i))) (zrange 0 n) (n0, n1) in
           nmul (fst s) (nsqrt (snd s))) M;
       k_reads := fun l => seg scale n l \/ seg sumsq n l;
       k_writes := seg value 1 |}.

  (* compute/pzlange.c:43-55: the tasks on the tiles, PlasmaMaxNorm *)
  Definition lange_max_tiles (bA : Z) (A : desc) (work : loc) : list (ktask N) :=
    flat_map (fun m => map (fun n =>
      omp_zlange_max (tile_mview A m) (tile_nview A n) (tptr bA A m n) (tile_mmain A m)
        (pplus work (d_mt A * n + m)))
      (zrange 0 (d_nt A))) (zrange 0 (d_mt A)).
  (* compute/pzlange.c:66-78: PlasmaOneNorm *)
  Definition lange_one_tiles (bA : Z) (A : desc) (work : loc) : list (ktask N) :=
    flat_map (fun m => map (fun n =>
      omp_zlange_aux_one (tile_mview A m) (tile_nview A n) (tptr bA A m n) (tile_mmain A m)
        (pplus work (d_n A * m + n * d_nb A)))
      (zrange 0 (d_nt A))) (zrange 0 (d_mt A)).
  (* compute/pzlange.c:90-102: PlasmaInfNorm *)
  Definition lange_inf_tiles (bA : Z) (A : desc) (work : loc) : list (ktask N) :=
    flat_map (fun m => map (fun n =>
      omp_zlange_aux_inf (tile_mview A m) (tile_nview A n) (tptr bA A m n) (tile_mmain A m)
        (pplus work (d_m A * n + m * d_mb A)))
      (zrange 0 (d_nt A))) (zrange 0 (d_mt A)).
  (* compute/pzlange.c:114-129: PlasmaFrobeniusNorm *)
  Definition lange_fro_tiles (bA : Z) (A : desc) (work : loc) : list (ktask N) :=
    flat_map (fun m => map (fun n =>
      omp_zgessq (tile_mview A m) (tile_nview A n) (tptr bA A m n) (tile_mmain A m)
        (pplus work (d_mt A * n + m)) (pplus (pplus work (d_mt A * d_nt A)) (d_mt A * n + m)))
      (zrange 0 (d_nt A))) (zrange 0 (d_mt A)).

  (* compute/pzlange.c:26-136 plasma_pzlange: the tasks before and after the taskwait *)
  Definition pzlange (norm : Z) (bA : Z) (A : desc) (work value : loc) : list (list (ktask N)) :=
    if norm =? PlasmaMaxNorm then
      [lange_max_tiles bA A work; [omp_zlange_max (d_mt A) (d_nt A) work (d_mt A) value]]
    else if norm =? PlasmaOneNorm then
      [lange_one_tiles bA A work;
       [omp_dlange_inf (d_n A) (d_mt A) work (d_n A) (pplus work (d_mt A * d_n A)) value]]
    else if norm =? PlasmaInfNorm then
      [lange_inf_tiles bA A work;
       [omp_dlange_inf (d_m A) (d_nt A) work (d_m A) (pplus work (d_nt A * d_m A)) value]]
    else if norm =? PlasmaFrobeniusNorm then
      [lange_fro_tiles bA A work;
       [omp_dgessq_aux (d_mt A * d_nt A) work (pplus work (d_mt A * d_nt A)) value]]
    else [].

  (* compute/zlange.c:88-89 *)
  Definition norm_ok (norm : Z) : bool :=
    (norm =? PlasmaMaxNorm) || (norm =? PlasmaOneNorm) || (norm =? PlasmaInfNorm)
    || (norm =? PlasmaFrobeniusNorm).

  (* compute/zlange.c:158-168: the translation is submitted before the tasks of the first
     phase *)
  Definition norm_phases (pA : loc) (lda bA : Z) (A : desc) (ph : list (list (ktask N))) : list (list (ktask N)) :=
    match ph with
    | nil => [pzge2desc pA lda bA A]
    | first :: rest => (pzge2desc pA lda bA A ++ first) :: rest
    end.

  (* compute/zlange.c:76-178 plasma_zlange. bA is the block of the tile matrix, bW that of the
     workspace (malloc succeeds), value the local variable. *)
  Definition zlange (nb norm m n : Z) (pA : loc) (lda bA bW : Z) (value : loc) : valued N :=
    if negb (norm_ok norm) then VReturns (-1)
    else if m <? 0 then VReturns (-2)
    else if n <? 0 then VReturns (-3)
    else if lda <? Z.max 1 m then VReturns (-5)
    else if Z.min n m =? 0 then VReturns 0
    else with_vdesc (ge_create nb m n) (fun A =>
      VRuns (norm_phases pA lda bA A (pzlange norm bA A (bW, 0) value)) value).

  (* compute/zlange.c:130-143: the number of doubles allocated for work *)
  Definition zlange_work (norm : Z) (A : desc) : Z :=
    if norm =? PlasmaMaxNorm then d_mt A * d_nt A
    else if norm =? PlasmaOneNorm then d_mt A * d_n A + d_n A
    else if norm =? PlasmaInfNorm then d_nt A * d_m A + d_m A
    else 2 * d_mt A * d_nt A.

  (* core_blas/core_dzamax.c:20-61 plasma_core_omp_dzamax, PlasmaColumnwise:
     values[j] = |A[lda*j]|; larger entries of the column replace it *)
  Definition amax_col (mag : N -> N) (m : Z) (f : Z -> Z -> N) (j : Z) : N :=
    fold_left (fun v i => nmax v (mag (f i j))) (zrange 1 m) (mag (f 0 j)).
  (* core_blas/core_dzamax.c:43-57: PlasmaRowwise *)
  Definition amax_row (mag : N -> N) (n : Z) (f : Z -> Z -> N) (i : Z) : N :=
    fold_left (fun v j => nmax v (mag (f i j))) (zrange 1 n) (mag (f i 0)).
  (* core_blas/core_dzamax.c:25-41; mag is plasma_core_dcabs1, or fabs in double precision *)
  Definition omp_amax_col (mag : N -> N) (m n : Z) (A : loc) (lda : Z) (values : loc) : ktask N :=
    {| k_deps := [dep_in A; dep_out values];
       k_fun := fun M => fill values n (amax_col mag m (rd M A lda)) M;
       k_reads := reg A lda m n everywhere;
       k_writes := seg values n |}.
  (* core_blas/core_dzamax.c:42-60 *)
  Definition omp_amax_row (mag : N -> N) (m n : Z) (A : loc) (lda : Z) (values : loc) : ktask N :=
    {| k_deps := [dep_in A; dep_out values];
       k_fun := fun M => fill values m (amax_row mag n (rd M A lda)) M;
       k_reads := reg A lda m n everywhere;
       k_writes := seg values m |}.

  (* compute/pdzamax.c:37-47 *)
  Definition amax_col_tiles (bA : Z) (A : desc) (work : loc) : list (ktask N) :=
    flat_map (fun m => map (fun n =>
      omp_amax_col ncabs1 (tile_mview A m) (tile_nview A n) (tptr bA A m n) (tile_mmain A m)
        (pplus work (d_n A * m + n * d_nb A)))
      (zrange 0 (d_nt A))) (zrange 0 (d_mt A)).
  (* compute/pdzamax.c:59-69 *)
  Definition amax_row_tiles (bA : Z) (A : desc) (work : loc) : list (ktask N) :=
    flat_map (fun m => map (fun n =>
      omp_amax_row ncabs1 (tile_mview A m) (tile_nview A n) (tptr bA A m n) (tile_mmain A m)
        (pplus work (d_m A * n + m * d_mb A)))
      (zrange 0 (d_nt A))) (zrange 0 (d_mt A)).
  (* compute/pdzamax.c:24-79 plasma_pdzamax *)
  Definition pdzamax (colrow : Z) (bA : Z) (A : desc) (work values : loc) : list (list (ktask N)) :=
    if colrow =? PlasmaColumnwise then
      [amax_col_tiles bA A work; [omp_amax_row nabs (d_n A) (d_mt A) work (d_n A) values]]
    else
      [amax_row_tiles bA A work; [omp_amax_row nabs (d_m A) (d_nt A) work (d_m A) values]].

  (* compute/dzamax.c:67-76: the number of doubles allocated for work *)
  Definition dzamax_work (colrow : Z) (A : desc) : Z :=
    if colrow =? PlasmaColumnwise then d_mt A * d_n A else d_m A * d_nt A.
  (* compute/dzamax.c:21-112 plasma_dzamax *)
  Definition dzamax (nb colrow m n : Z) (pA : loc) (lda bA bW : Z) (values : loc) : valued N :=
    if negb ((colrow =? PlasmaColumnwise) || (colrow =? PlasmaRowwise)) then VReturns (-1)
    else if m <? 0 then VReturns (-2)
    else if n <? 0 then VReturns (-3)
    else if lda <? Z.max 1 m then VReturns (-5)
    else if Z.min n m =? 0 then VReturns 0
    else with_vdesc (ge_create nb m n) (fun A =>
      VRuns (norm_phases pA lda bA A (pdzamax colrow bA A (bW, 0) values)) values).
End Norm.
