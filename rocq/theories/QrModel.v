(* Tile QR factorization (flat Householder mode) and multiplication by Q: compute/pzgeqrf.c,
   zgeqrf.c, pzunmqr.c, zunmqr.c, core_blas/core_zgeqrt.c, core_ztsqrt.c, core_zunmqr.c,
   core_ztsmqr.c, core_zparfb.c, core_zpamm.c. *)
From Coq Require Import ZArith List Bool.
From Verif Require Import Base NumModel FieldModel TaskModel TaskSpec DescModel DescDriverModel MatModel
  LayoutModel TriModel DriverModel ControlModel.
Import ListNotations.
Open Scope Z_scope.

Section Kernels.
  Context {N : numbers}.

  (* the m x n part of a matrix, as read from or written to the operands of the kernels,
     core_blas/core_zgeqrt.c:132-165. Only the elements (i,j) with i < m and j < n matter. *)
  Definition memo (m n : Z) (f : Z -> Z -> N) : Z -> Z -> N :=
    let t := map (fun j => map (fun i => f i j) (zrange 0 m)) (zrange 0 n) in
    fun i j => nth (Z.to_nat i) (nth (Z.to_nat j) t []) n0.

  (* the matrix V of the block reflectors of a tile factored by geqrt: unit lower trapezoidal,
     the diagonal and the part above are not stored. core_blas/core_zunmqr.c:205-214, the
     argument A of LAPACK zlarfb *)
  Definition v_unit (A : Z -> Z -> N) (r c : Z) : N :=
    if r <? c then n0 else if r =? c then n1 else A r c.

  (* op of the upper triangular factor T of the block of reflectors that starts at column i0
     of the tile: columns i0... of the ib x n array T. core_blas/core_zparfb.c:236-241,
     core_zunmqr.c:212 *)
  Definition t_upper (T : Z -> Z -> N) (i0 a b : Z) : N := if a <=? b then T a (i0 + b) else n0.
  (* T or T^H, core_blas/core_zparfb.c:236-241, core_zunmqr.c:212 *)
  Definition t_op (trans : Z) (T : Z -> Z -> N) (i0 a b : Z) : N :=
    if trans =? PlasmaNoTrans then t_upper T i0 a b else nconj (t_upper T i0 b a).

  (* LAPACK zlarfb, PlasmaForward, PlasmaColumnwise, as called in core_blas/core_zunmqr.c:205-214
     and core_zgeqrt.c:152-162; its effect is trusted. Left: rows i0 to m of C become
     C - V*op(T)*V^H*C. *)
  Definition larfb_left (trans m i0 kb : Z) (V T C : Z -> Z -> N) (r c : Z) : N :=
    if r <? i0 then C r c
    else nsub (C r c)
      (nsum (fun a => nmul (v_unit V r (i0 + a))
         (nsum (fun b => nmul (t_op trans T i0 a b)
            (nsum (fun s => nmul (nconj (v_unit V s (i0 + b))) (C s c)) i0 m)) 0 kb)) 0 kb).

  (* the same from the right: columns i0 to n of C become C - C*V*op(T)*V^H.
     core_blas/core_zunmqr.c:205-214 *)
  Definition larfb_right (trans n i0 kb : Z) (V T C : Z -> Z -> N) (r c : Z) : N :=
    if c <? i0 then C r c
    else nsub (C r c)
      (nsum (fun b => nmul
         (nsum (fun a => nmul (nsum (fun s => nmul (C r s) (v_unit V s (i0 + a))) i0 n)
            (t_op trans T i0 a b)) 0 kb)
         (nconj (v_unit V c (i0 + b)))) 0 kb).

  (* the blocks of ib reflectors, first column of each: core_blas/core_zgeqrt.c:133-134 and
     core_zunmqr.c:174-187, core_ztsmqr.c:206-220. Ascending for Left and ConjTrans and for
     Right and NoTrans, descending otherwise. *)
  Definition blocks (k ib : Z) : list Z := map (fun t => t * ib) (zrange 0 ((k + ib - 1) / ib)).
  (* the blocks in the order of core_blas/core_zunmqr.c:174-187, core_ztsmqr.c:206-220 *)
  Definition blocks_for (side trans k ib : Z) : list Z :=
    if ((side =? PlasmaLeft) && negb (trans =? PlasmaNoTrans))
       || (negb (side =? PlasmaLeft) && (trans =? PlasmaNoTrans))
    then blocks k ib else rev (blocks k ib).

  (* core_blas/core_zunmqr.c:170-217, on the matrices; the operands do not overlap *)
  Definition unmqr_mat (side trans m n k ib : Z) (A T C : Z -> Z -> N) : Z -> Z -> N :=
    fold_left (fun C i =>
      let kb := Z.min ib (k - i) in
      memo m n (if side =? PlasmaLeft then larfb_left trans m i kb A T C
                else larfb_right trans n i kb A T C))
      (blocks_for side trans k ib) C.

  (* core_blas/core_zunmqr.c:107-220 plasma_core_zunmqr. Its argument checks cannot fail in
     the routines below. The strictly lower part of A and the upper triangles of the blocks of
     T are read. *)
  Definition core_zunmqr (side trans m n k ib : Z) (A : loc) (lda : Z) (T : loc) (ldt : Z)
      (C : loc) (ldc : Z) (M : mem N) : mem N :=
    let nq := if side =? PlasmaLeft then m else n in
    let A0 := memo nq k (fun r c => if c <? r then rd M A lda r c else n0) in
    let T0 := memo ib k (fun a c => if a <=? c mod ib then rd M T ldt a c else n0) in
    let C1 := unmqr_mat side trans m n k ib A0 T0 (memo m n (rd M C ldc)) in
    mset C ldc m n everywhere C1 M.

  (* the elements of T that belong to the triangles: core_blas/core_zgeqrt.c:143-149,
     core_ztsqrt.c:190-206 *)
  Definition t_sel (ib : Z) (a c : Z) : bool := a <=? c mod ib.

  (* the elements below the diagonal: where geqrt stores the reflectors,
     core_blas/core_zgeqrt.c:137-140 *)
  Definition below (i j : Z) : bool := j <? i.

  (* core_blas/core_zunmqr.c:223-258 plasma_core_omp_zunmqr. The workspace belongs to the
     thread. The kernel cannot fail here, so the test of sequence->status is left out. *)
  Definition omp_zunmqr (side trans m n k ib : Z) (A : loc) (lda : Z) (T : loc) (ldt : Z)
      (C : loc) (ldc : Z) : ktask N :=
    {| k_deps := [dep_in A; dep_in T; dep_inout C];
       k_fun := core_zunmqr side trans m n k ib A lda T ldt C ldc;
       k_reads := fun l => reg A lda (if side =? PlasmaLeft then m else n) k below l
                           \/ reg T ldt ib k (t_sel ib) l \/ reg C ldc m n everywhere l;
       k_writes := reg C ldc m n everywhere |}.

  (* core_blas/core_zparfb.c:129-262 plasma_core_zparfb, PlasmaForward, PlasmaLeft,
     PlasmaColumnwise, l = 0: W = A1 + V^H*A2, W = op(T)*W, A1 = A1 - W, A2 = A2 - V*W.
     With l = 0 plasma_core_zpamm (core_zpamm.c:240-300) is one zgemm with V.
     i0 is the first row of A1 and first column of V and T that is used. *)
  Definition parfb_w_left (m2 i0 : Z) (V A1 A2 : Z -> Z -> N) (a c : Z) : N :=
    nadd (A1 (i0 + a) c) (nsum (fun s => nmul (nconj (V s (i0 + a))) (A2 s c)) 0 m2).
  (* the new A1: core_blas/core_zparfb.c:243-249 *)
  Definition parfb_left1 (trans m2 i0 kb : Z) (V T A1 A2 : Z -> Z -> N) (r c : Z) : N :=
    if (i0 <=? r) && (r <? i0 + kb) then
      nsub (A1 r c) (nsum (fun b => nmul (t_op trans T i0 (r - i0) b) (parfb_w_left m2 i0 V A1 A2 b c)) 0 kb)
    else A1 r c.
  (* the new A2: core_blas/core_zparfb.c:251-262 *)
  Definition parfb_left2 (trans m2 i0 kb : Z) (V T A1 A2 : Z -> Z -> N) (r c : Z) : N :=
    nsub (A2 r c)
      (nsum (fun a => nmul (V r (i0 + a))
         (nsum (fun b => nmul (t_op trans T i0 a b) (parfb_w_left m2 i0 V A1 A2 b c)) 0 kb)) 0 kb).

  (* core_blas/core_zparfb.c:266-304, PlasmaRight: W = A1 + A2*V, W = W*op(T), A1 = A1 - W,
     A2 = A2 - W*V^H *)
  Definition parfb_w_right (n2 i0 : Z) (V A1 A2 : Z -> Z -> N) (r a : Z) : N :=
    nadd (A1 r (i0 + a)) (nsum (fun s => nmul (A2 r s) (V s (i0 + a))) 0 n2).
  (* the new A1: core_blas/core_zparfb.c:286-292 *)
  Definition parfb_right1 (trans n2 i0 kb : Z) (V T A1 A2 : Z -> Z -> N) (r c : Z) : N :=
    if (i0 <=? c) && (c <? i0 + kb) then
      nsub (A1 r c) (nsum (fun a => nmul (parfb_w_right n2 i0 V A1 A2 r a) (t_op trans T i0 a (c - i0))) 0 kb)
    else A1 r c.
  (* the new A2: core_blas/core_zparfb.c:294-304 *)
  Definition parfb_right2 (trans n2 i0 kb : Z) (V T A1 A2 : Z -> Z -> N) (r c : Z) : N :=
    nsub (A2 r c)
      (nsum (fun b => nmul
         (nsum (fun a => nmul (parfb_w_right n2 i0 V A1 A2 r a) (t_op trans T i0 a b)) 0 kb)
         (nconj (V c (i0 + b)))) 0 kb).

  (* core_blas/core_ztsmqr.c:200-246, on the matrices; the operands do not overlap *)
  Definition tsmqr_mat (side trans m1 n1 m2 n2 k ib : Z) (V T A1 A2 : Z -> Z -> N)
      : (Z -> Z -> N) * (Z -> Z -> N) :=
    fold_left (fun (A : (Z -> Z -> N) * (Z -> Z -> N)) i =>
      let kb := Z.min ib (k - i) in
      if side =? PlasmaLeft
      then (memo m1 n1 (parfb_left1 trans m2 i kb V T (fst A) (snd A)),
            memo m2 n2 (parfb_left2 trans m2 i kb V T (fst A) (snd A)))
      else (memo m1 n1 (parfb_right1 trans n2 i kb V T (fst A) (snd A)),
            memo m2 n2 (parfb_right2 trans n2 i kb V T (fst A) (snd A))))
      (blocks_for side trans k ib) (A1, A2).

  (* core_blas/core_ztsmqr.c:118-249 plasma_core_ztsmqr. Its argument checks cannot fail in
     the routines below. *)
  Definition core_ztsmqr (side trans m1 n1 m2 n2 k ib : Z) (A1 : loc) (lda1 : Z) (A2 : loc) (lda2 : Z)
      (V : loc) (ldv : Z) (T : loc) (ldt : Z) (M : mem N) : mem N :=
    let V0 := memo (if side =? PlasmaLeft then m2 else n2) k (rd M V ldv) in
    let T0 := memo ib k (fun a c => if a <=? c mod ib then rd M T ldt a c else n0) in
    let R := tsmqr_mat side trans m1 n1 m2 n2 k ib V0 T0 (memo m1 n1 (rd M A1 lda1)) (memo m2 n2 (rd M A2 lda2)) in
    mset A2 lda2 m2 n2 everywhere (snd R) (mset A1 lda1 m1 n1 everywhere (fst R) M).

  (* core_blas/core_ztsmqr.c:251-286 plasma_core_omp_ztsmqr *)
  Definition omp_ztsmqr (side trans m1 n1 m2 n2 k ib : Z) (A1 : loc) (lda1 : Z) (A2 : loc) (lda2 : Z)
      (V : loc) (ldv : Z) (T : loc) (ldt : Z) : ktask N :=
    {| k_deps := [dep_inout A1; dep_inout A2; dep_in V; dep_in T];
       k_fun := core_ztsmqr side trans m1 n1 m2 n2 k ib A1 lda1 A2 lda2 V ldv T ldt;
       k_reads := fun l => reg A1 lda1 m1 n1 everywhere l \/ reg A2 lda2 m2 n2 everywhere l
                           \/ reg V ldv (if side =? PlasmaLeft then m2 else n2) k everywhere l
                           \/ reg T ldt ib k (t_sel ib) l;
       k_writes := fun l => reg A1 lda1 m1 n1 everywhere l \/ reg A2 lda2 m2 n2 everywhere l |}.

  (* LAPACK zlarfg as called in core_blas/core_ztsqrt.c:147 and inside LAPACK zgeqr2
     (core_zgeqrt.c:137-140): from the first element alpha and the others x of a vector it
     computes beta, tau and the others v of the vector that defines the reflector. It is an
     oracle; what is assumed of it is stated in QrSpec.v. *)
  Definition larfg_oracle : Type := N -> list N -> N * N * list N.

  Variable lg : larfg_oracle.

  (* one column of LAPACK zgeqr2 (core_blas/core_zgeqrt.c:137-140; trusted): the reflector of
     column j, applied to the columns up to c1. X is the tile, tau the scalars so far. *)
  Definition geqr2_step (m c1 : Z) (S : (Z -> Z -> N) * (Z -> N)) (j : Z) : (Z -> Z -> N) * (Z -> N) :=
    let X := fst S in
    let '(beta, t, v) := lg (X j j) (map (fun r => X r j) (zrange (j + 1) m)) in
    let vj r := if r <? j then n0 else if r =? j then n1 else nth (Z.to_nat (r - j - 1)) v n0 in
    (fun r c =>
       if c =? j then (if r <? j then X r j else if r =? j then beta else vj r)
       else if (j <? c) && (c <? c1) then
         nsub (X r c) (nmul (nmul (nconj t) (vj r)) (nsum (fun s => nmul (nconj (vj s)) (X s c)) j m))
       else X r c,
     fun c => if c =? j then t else snd S c).

  (* one column of LAPACK zlarft, PlasmaForward, PlasmaColumnwise (core_blas/core_zgeqrt.c:143-149;
     trusted): column j of the block that starts at column i0 *)
  Definition larft_step (m i0 : Z) (A : Z -> Z -> N) (tau : Z -> N) (T : Z -> Z -> N) (j : Z) : Z -> Z -> N :=
    fun a c =>
      if c =? j then
        if a =? j - i0 then tau j
        else nsum (fun b => nmul (T a (i0 + b))
               (nmul (nopp (tau j)) (nsum (fun s => nmul (nconj (v_unit A s (i0 + b))) (v_unit A s j)) j m)))
               a (j - i0)
      else T a c.

  (* core_blas/core_zgeqrt.c:132-165, on the matrices: the new A and T *)
  Definition geqrt_mat (m n ib : Z) (A : Z -> Z -> N) : (Z -> Z -> N) * (Z -> Z -> N) :=
    let k := Z.min m n in
    fold_left (fun (S : (Z -> Z -> N) * (Z -> Z -> N)) i =>
      let sb := Z.min ib (k - i) in
      let P := fold_left (fun Q j => let R := geqr2_step m (i + sb) Q j in (memo m n (fst R), snd R))
                 (zrange i (i + sb)) (fst S, fun _ => n0) in
      let T1 := fold_left (fun T j => memo ib k (larft_step m i (fst P) (snd P) T j))
                  (zrange i (i + sb)) (snd S) in
      (memo m n (fun r c => if i + sb <=? c
                            then larfb_left PlasmaConjTrans m i sb (fst P) T1 (fst P) r c
                            else fst P r c), T1))
      (blocks k ib) (A, fun _ _ => n0).

  (* core_blas/core_zgeqrt.c:90-168 plasma_core_zgeqrt. Its argument checks cannot fail in the
     routines below. *)
  Definition core_zgeqrt (m n ib : Z) (A : loc) (lda : Z) (T : loc) (ldt : Z) (M : mem N) : mem N :=
    let R := geqrt_mat m n ib (memo m n (rd M A lda)) in
    mset T ldt ib (Z.min m n) (t_sel ib) (snd R) (mset A lda m n everywhere (fst R) M).

  (* core_blas/core_zgeqrt.c:172-199 plasma_core_omp_zgeqrt *)
  Definition omp_zgeqrt (m n ib : Z) (A : loc) (lda : Z) (T : loc) (ldt : Z) : ktask N :=
    {| k_deps := [dep_inout A; dep_out T];
       k_fun := core_zgeqrt m n ib A lda T ldt;
       k_reads := reg A lda m n everywhere;
       k_writes := fun l => reg A lda m n everywhere l \/ reg T ldt ib (Z.min m n) (t_sel ib) l |}.

  (* core_blas/core_ztsqrt.c:144-206: column j of the block that starts at column i0 and has
     sb columns. The state is A1, A2 and T. *)
  Definition tsqrt_step (m i0 sb : Z) (S : (Z -> Z -> N) * (Z -> Z -> N) * (Z -> Z -> N)) (j : Z)
      : (Z -> Z -> N) * (Z -> Z -> N) * (Z -> Z -> N) :=
    let '(A1, A2, T) := S in
    let '(beta, tau, v) := lg (A1 j j) (map (fun r => A2 r j) (zrange 0 m)) in
    let vj r := nth (Z.to_nat r) v n0 in
    let w c := nadd (A1 j c) (nsum (fun s => nmul (A2 s c) (nconj (vj s))) 0 m) in
    let A1' r c :=
      if (r =? j) && (c =? j) then beta
      else if (r =? j) && (j <? c) && (c <? i0 + sb) then nadd (A1 r c) (nmul (nopp (nconj tau)) (w c))
      else A1 r c in
    let A2' r c :=
      if c =? j then vj r
      else if (j <? c) && (c <? i0 + sb) then nadd (A2 r c) (nmul (nmul (nopp (nconj tau)) (vj r)) (w c))
      else A2 r c in
    let T' a c :=
      if c =? j then
        if a =? j - i0 then tau
        else nsum (fun b => nmul (T a (i0 + b))
               (nmul (nopp tau) (nsum (fun s => nmul (nconj (A2 s (i0 + b))) (vj s)) 0 m))) a (j - i0)
      else T a c in
    (A1', A2', T').

  (* core_blas/core_ztsqrt.c:142-216, on the matrices: the new A1, A2 and T. Only the upper
     triangle of A1 is read and changed. The call of core_ztsmqr for the remaining columns
     (lines 207-215) uses one block of reflectors. *)
  Definition tsqrt_mat (m n ib : Z) (A1 A2 : Z -> Z -> N) : (Z -> Z -> N) * (Z -> Z -> N) * (Z -> Z -> N) :=
    fold_left (fun (S : (Z -> Z -> N) * (Z -> Z -> N) * (Z -> Z -> N)) i =>
      let sb := Z.min (n - i) ib in
      let '(B1, B2, T1) :=
        fold_left (fun Q j => let '(X1, X2, Y) := tsqrt_step m i sb Q j in
                              (memo n n X1, memo m n X2, memo ib n Y))
          (zrange i (i + sb)) S in
      (memo n n (fun r c => if i + sb <=? c then parfb_left1 PlasmaConjTrans m i sb B2 T1 B1 B2 r c else B1 r c),
       memo m n (fun r c => if i + sb <=? c then parfb_left2 PlasmaConjTrans m i sb B2 T1 B1 B2 r c else B2 r c),
       T1))
      (blocks n ib) (A1, A2, fun _ _ => n0).

  (* core_blas/core_ztsqrt.c:86-219 plasma_core_ztsqrt. Its argument checks cannot fail in the
     routines below (lda1 is compared with the number of rows of A2, line 107). *)
  Definition core_ztsqrt (m n ib : Z) (A1 : loc) (lda1 : Z) (A2 : loc) (lda2 : Z) (T : loc) (ldt : Z)
      (M : mem N) : mem N :=
    let '(B1, B2, T1) := tsqrt_mat m n ib
      (memo n n (fun r c => if r <=? c then rd M A1 lda1 r c else n0)) (memo m n (rd M A2 lda2)) in
    mset T ldt ib n (t_sel ib) T1
      (mset A2 lda2 m n everywhere B2 (mset A1 lda1 n n (uplo_sel PlasmaUpper) B1 M)).

  (* core_blas/core_ztsqrt.c:213-243 plasma_core_omp_ztsqrt *)
  Definition omp_ztsqrt (m n ib : Z) (A1 : loc) (lda1 : Z) (A2 : loc) (lda2 : Z) (T : loc) (ldt : Z) : ktask N :=
    {| k_deps := [dep_inout A1; dep_inout A2; dep_out T];
       k_fun := core_ztsqrt m n ib A1 lda1 A2 lda2 T ldt;
       k_reads := fun l => reg A1 lda1 n n (uplo_sel PlasmaUpper) l \/ reg A2 lda2 m n everywhere l;
       k_writes := fun l => reg A1 lda1 n n (uplo_sel PlasmaUpper) l \/ reg A2 lda2 m n everywhere l
                            \/ reg T ldt ib n (t_sel ib) l |}.

  (* compute/pzgeqrf.c:28-86 plasma_pzgeqrf; A(m,n) and T(m,n) are the macros of lines 21-22.
     The early return for a failed sequence (lines 33-34) is left out: no task fails. *)
  Definition pzgeqrf (bA : Z) (A : desc) (bT : Z) (T : desc) : list (ktask N) :=
    let ib := d_mb T in
    flat_map (fun k =>
      let mvak := tile_mview A k in
      let nvak := tile_nview A k in
      let ldak := tile_mmain A k in
      omp_zgeqrt mvak nvak ib (tptr bA A k k) ldak (tptr bT T k k) (d_mb T)
      :: map (fun n =>
           omp_zunmqr PlasmaLeft PlasmaConjTrans mvak (tile_nview A n) (Z.min mvak nvak) ib
             (tptr bA A k k) ldak (tptr bT T k k) (d_mb T) (tptr bA A k n) ldak)
           (zrange (k + 1) (d_nt A))
      ++ flat_map (fun m =>
           let mvam := tile_mview A m in
           let ldam := tile_mmain A m in
           omp_ztsqrt mvam nvak ib (tptr bA A k k) ldak (tptr bA A m k) ldam (tptr bT T m k) (d_mb T)
           :: map (fun n =>
                omp_ztsmqr PlasmaLeft PlasmaConjTrans (d_mb A) (tile_nview A n) mvam (tile_nview A n) nvak ib
                  (tptr bA A k n) ldak (tptr bA A m n) ldam (tptr bA A m k) ldam (tptr bT T m k) (d_mb T))
                (zrange (k + 1) (d_nt A)))
           (zrange (k + 1) (d_mt A)))
      (zrange 0 (Z.min (d_mt A) (d_nt A))).

  (* compute/zgeqrf.c:121-126: the descriptor T, which is returned to the caller. Its storage
     is block bT; it stays allocated. *)
  Definition geqrf_T (nb ib m n : Z) : create_result :=
    match ge_create nb m n with
    | CrError code => CrError code
    | CrOk A _ => descT_create A ib PlasmaFlatHouseholder
    end.

  (* compute/zgeqrf.c:73-168 plasma_zgeqrf with 223-268 plasma_omp_zgeqrf, whose argument
     checks cannot fail here, in the flat Householder mode (the default, control/context.c:177).
     Not initialised: property C09; tuning: C10. *)
  Definition zgeqrf (nb ib m n : Z) (pA : loc) (lda bA bT : Z) : driver N :=
    if m <? 0 then Returns (-1)
    else if n <? 0 then Returns (-2)
    else if lda <? Z.max 1 m then Returns (-4)
    else if Z.min m n =? 0 then Returns PlasmaSuccess
    else
      with_desc (ge_create nb m n) (fun A =>
      with_desc (geqrf_T nb ib m n) (fun T =>
        Runs (pzge2desc pA lda bA A
              ++ (if Z.min (d_m A) (d_n A) =? 0 then [] else pzgeqrf bA A bT T)
              ++ pzdesc2ge bA A pA lda))).
End Kernels.

Section Unmqr.
  Context {N : numbers}.

  (* compute/pzunmqr.c:29-205 plasma_pzunmqr; A(m,n), T(m,n), B(m,n) are the macros of lines
     21-23. The early return for a failed sequence (lines 35-36) is left out: no task fails. *)
  Definition pzunmqr (side trans bA : Z) (A : desc) (bT : Z) (T : desc) (bB : Z) (B : desc) : list (ktask N) :=
    let ib := d_mb T in
    let ks := zrange 0 (Z.min (d_mt A) (d_nt A)) in
    if side =? PlasmaLeft then
      let unm k := map (fun n =>
        omp_zunmqr side trans (tile_mview B k) (tile_nview B n) (Z.min (tile_nview A k) (tile_mview A k)) ib
          (tptr bA A k k) (tile_mmain A k) (tptr bT T k k) (d_mb T) (tptr bB B k n) (tile_mmain B k))
        (zrange 0 (d_nt B)) in
      let tsm k m := map (fun n =>
        omp_ztsmqr side trans (d_mb B) (tile_nview B n) (tile_mview B m) (tile_nview B n) (tile_nview A k) ib
          (tptr bB B k n) (tile_mmain B k) (tptr bB B m n) (tile_mmain B m)
          (tptr bA A m k) (tile_mmain A m) (tptr bT T m k) (d_mb T))
        (zrange 0 (d_nt B)) in
      if trans =? PlasmaConjTrans
      then flat_map (fun k => unm k ++ flat_map (tsm k) (zrange (k + 1) (d_mt B))) ks
      else flat_map (fun k => flat_map (tsm k) (rev (zrange (k + 1) (d_mt B))) ++ unm k) (rev ks)
    else
      let unm k := map (fun m =>
        omp_zunmqr side trans (tile_mview B m) (tile_nview B k) (Z.min (tile_nview A k) (tile_mview A k)) ib
          (tptr bA A k k) (tile_mmain A k) (tptr bT T k k) (d_mb T) (tptr bB B m k) (tile_mmain B m))
        (zrange 0 (d_mt B)) in
      let tsm k n := map (fun m =>
        omp_ztsmqr side trans (tile_mview B m) (d_nb B) (tile_mview B m) (tile_nview B n) (tile_nview A k) ib
          (tptr bB B m k) (tile_mmain B m) (tptr bB B m n) (tile_mmain B m)
          (tptr bA A n k) (tile_mmain A n) (tptr bT T n k) (d_mb T))
        (zrange 0 (d_mt B)) in
      if trans =? PlasmaConjTrans
      then flat_map (fun k => flat_map (tsm k) (rev (zrange (k + 1) (d_nt B))) ++ unm k) (rev ks)
      else flat_map (fun k => unm k ++ flat_map (tsm k) (zrange (k + 1) (d_nt B))) ks.

  (* compute/zunmqr.c:97-223 plasma_zunmqr with 286-351 plasma_omp_zunmqr, whose argument
     checks cannot fail here, in the flat Householder mode. T and its block bT are the ones
     filled in by plasma_zgeqrf. Not initialised: property C09; tuning: C10. *)
  Definition zunmqr (nb side trans m n k : Z) (pA : loc) (lda : Z) (bT : Z) (T : desc) (pC : loc) (ldc : Z)
      (bA bC : Z) : driver N :=
    if negb (side =? PlasmaLeft) && negb (side =? PlasmaRight) then Returns (-1)
    else if negb (trans =? PlasmaConjTrans) && negb (trans =? PlasmaNoTrans) then Returns (-2)
    else if m <? 0 then Returns (-3)
    else if n <? 0 then Returns (-4)
    else
      let am := if side =? PlasmaLeft then m else n in
      if (k <? 0) || (am <? k) then Returns (-5)
      else if lda <? Z.max 1 am then Returns (-7)
      else if ldc <? Z.max 1 m then Returns (-10)
      else if (m =? 0) || (n =? 0) || (k =? 0) then Returns PlasmaSuccess
      else
        with_desc (ge_create nb am k) (fun A =>
        with_desc (ge_create nb m n) (fun C =>
          Runs (pzge2desc pA lda bA A ++ pzge2desc pC ldc bC C
                ++ (if (d_m C =? 0) || (d_n C =? 0) || (d_m A =? 0) || (d_n A =? 0) then []
                    else pzunmqr side trans bA A bT T bC C)
                ++ pzdesc2ge bC C pC ldc))).
End Unmqr.
