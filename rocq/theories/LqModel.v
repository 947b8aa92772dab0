(* Tile LQ factorization (flat Householder mode), multiplication by Q, generation of Q and least
   squares: compute/pzgelqf.c, zgelqf.c, pzunmlq.c, zunmlq.c, pzunglq.c, zunglq.c, zgelqs.c,
   zgels.c, core_blas/core_zgelqt.c, core_ztslqt.c, core_zunmlq.c, core_ztsmlq.c, core_zparfb.c,
   core_zpamm.c. *)
From Coq Require Import ZArith List Bool.
From Verif Require Import Base NumModel FieldModel TaskModel TaskSpec DescModel DescDriverModel MatModel
  LayoutModel LasetModel TriModel DriverModel ControlModel QrModel LsModel.
Import ListNotations.
Open Scope Z_scope.

Section Kernels.
  Context {N : numbers}.

  (* the matrix V of the block reflectors of a tile factored by gelqt, stored by rows: unit upper
     trapezoidal, the diagonal and the part below are not stored. core_blas/core_zunmlq.c:221-230,
     the argument A of LAPACK zlarfb *)
  Definition v_row (A : Z -> Z -> N) (r c : Z) : N :=
    if c <? r then n0 else if c =? r then n1 else A r c.

  (* LAPACK zlarfb, PlasmaForward, PlasmaRowwise, as called in core_blas/core_zunmlq.c:221-230
     and core_zgelqt.c:152-163; its effect is trusted. Left: rows i0 to m of C become
     C - V^H*op(T)*V*C. *)
  Definition larfbr_left (trans m i0 kb : Z) (V T C : Z -> Z -> N) (r c : Z) : N :=
    if r <? i0 then C r c
    else nsub (C r c)
      (nsum (fun a => nmul (nconj (v_row V (i0 + a) r))
         (nsum (fun b => nmul (t_op trans T i0 a b)
            (nsum (fun s => nmul (v_row V (i0 + b) s) (C s c)) i0 m)) 0 kb)) 0 kb).

  (* the same from the right: columns i0 to n of C become C - C*V^H*op(T)*V.
     core_blas/core_zunmlq.c:221-230 *)
  Definition larfbr_right (trans n i0 kb : Z) (V T C : Z -> Z -> N) (r c : Z) : N :=
    if c <? i0 then C r c
    else nsub (C r c)
      (nsum (fun b => nmul
         (nsum (fun a => nmul (nsum (fun s => nmul (C r s) (nconj (v_row V (i0 + a) s))) i0 n)
            (t_op trans T i0 a b)) 0 kb)
         (v_row V (i0 + b) c)) 0 kb).

  (* the order of the blocks of ib reflectors: core_blas/core_zunmlq.c:187-198,
     core_ztsmlq.c:207-216. Ascending for Left and NoTrans and for Right and ConjTrans,
     descending otherwise. *)
  Definition lq_blocks (side trans k ib : Z) : list Z :=
    if ((side =? PlasmaLeft) && (trans =? PlasmaNoTrans))
       || (negb (side =? PlasmaLeft) && negb (trans =? PlasmaNoTrans))
    then blocks k ib else rev (blocks k ib).

  (* core_blas/core_zunmlq.c:200-203, core_ztsmlq.c:218-221: the other transposition *)
  Definition lq_trans (trans : Z) : Z := if trans =? PlasmaNoTrans then PlasmaConjTrans else PlasmaNoTrans.

  (* core_blas/core_zunmlq.c:187-233, on the matrices; the operands do not overlap *)
  Definition unmlq_mat (side trans m n k ib : Z) (A T C : Z -> Z -> N) : Z -> Z -> N :=
    fold_left (fun C i =>
      let kb := Z.min ib (k - i) in
      memo m n (if side =? PlasmaLeft then larfbr_left (lq_trans trans) m i kb A T C
                else larfbr_right (lq_trans trans) n i kb A T C))
      (lq_blocks side trans k ib) C.

  (* the elements above the diagonal: where gelqt stores the reflectors,
     core_blas/core_zgelqt.c:138-142 *)
  Definition above (i j : Z) : bool := i <? j.

  (* core_blas/core_zunmlq.c:105-236 plasma_core_zunmlq. Its argument checks cannot fail in
     the routines below. The strictly upper part of A and the upper triangles of the blocks of
     T are read. *)
  Definition core_zunmlq (side trans m n k ib : Z) (A : loc) (lda : Z) (T : loc) (ldt : Z)
      (C : loc) (ldc : Z) (M : mem N) : mem N :=
    let nq := if side =? PlasmaLeft then m else n in
    let A0 := memo k nq (fun r c => if r <? c then rd M A lda r c else n0) in
    let T0 := memo ib k (fun a c => if a <=? c mod ib then rd M T ldt a c else n0) in
    let C1 := unmlq_mat side trans m n k ib A0 T0 (memo m n (rd M C ldc)) in
    mset C ldc m n everywhere C1 M.

  (* core_blas/core_zunmlq.c:239-277 plasma_core_omp_zunmlq. The workspace belongs to the
     thread. The kernel cannot fail here, so the test of sequence->status is left out. *)
  Definition omp_zunmlq (side trans m n k ib : Z) (A : loc) (lda : Z) (T : loc) (ldt : Z)
      (C : loc) (ldc : Z) : ktask N :=
    {| k_deps := [dep_in A; dep_in T; dep_inout C];
       k_fun := core_zunmlq side trans m n k ib A lda T ldt C ldc;
       k_reads := fun l => reg A lda k (if side =? PlasmaLeft then m else n) above l
                           \/ reg T ldt ib k (t_sel ib) l \/ reg C ldc m n everywhere l;
       k_writes := reg C ldc m n everywhere |}.

  (* core_blas/core_zparfb.c:129-262 plasma_core_zparfb, PlasmaForward, PlasmaLeft,
     PlasmaRowwise, l = 0: W = A1 + V*A2, W = op(T)*W, A1 = A1 - W, A2 = A2 - V^H*W: the matrix W.
     With l = 0 plasma_core_zpamm (core_zpamm.c:240-300) is one zgemm with V.
     i0 is the first row of A1 and of V and the first column of T that is used. *)
  Definition parfbr_w_left (m2 i0 : Z) (V A1 A2 : Z -> Z -> N) (a c : Z) : N :=
    nadd (A1 (i0 + a) c) (nsum (fun s => nmul (V (i0 + a) s) (A2 s c)) 0 m2).
  (* the new A1: core_blas/core_zparfb.c:243-249 *)
  Definition parfbr_left1 (trans m2 i0 kb : Z) (V T A1 A2 : Z -> Z -> N) (r c : Z) : N :=
    if (i0 <=? r) && (r <? i0 + kb) then
      nsub (A1 r c) (nsum (fun b => nmul (t_op trans T i0 (r - i0) b) (parfbr_w_left m2 i0 V A1 A2 b c)) 0 kb)
    else A1 r c.
  (* the new A2: core_blas/core_zparfb.c:251-262 *)
  Definition parfbr_left2 (trans m2 i0 kb : Z) (V T A1 A2 : Z -> Z -> N) (r c : Z) : N :=
    nsub (A2 r c)
      (nsum (fun a => nmul (nconj (V (i0 + a) r))
         (nsum (fun b => nmul (t_op trans T i0 a b) (parfbr_w_left m2 i0 V A1 A2 b c)) 0 kb)) 0 kb).

  (* core_blas/core_zparfb.c:266-304, PlasmaRight: W = A1 + A2*V^H, W = W*op(T), A1 = A1 - W,
     A2 = A2 - W*V: the matrix W *)
  Definition parfbr_w_right (n2 i0 : Z) (V A1 A2 : Z -> Z -> N) (r a : Z) : N :=
    nadd (A1 r (i0 + a)) (nsum (fun s => nmul (A2 r s) (nconj (V (i0 + a) s))) 0 n2).
  (* the new A1: core_blas/core_zparfb.c:286-292 *)
  Definition parfbr_right1 (trans n2 i0 kb : Z) (V T A1 A2 : Z -> Z -> N) (r c : Z) : N :=
    if (i0 <=? c) && (c <? i0 + kb) then
      nsub (A1 r c) (nsum (fun a => nmul (parfbr_w_right n2 i0 V A1 A2 r a) (t_op trans T i0 a (c - i0))) 0 kb)
    else A1 r c.
  (* the new A2: core_blas/core_zparfb.c:294-304 *)
  Definition parfbr_right2 (trans n2 i0 kb : Z) (V T A1 A2 : Z -> Z -> N) (r c : Z) : N :=
    nsub (A2 r c)
      (nsum (fun b => nmul
         (nsum (fun a => nmul (parfbr_w_right n2 i0 V A1 A2 r a) (t_op trans T i0 a b)) 0 kb)
         (V (i0 + b) c)) 0 kb).

  (* core_blas/core_ztsmlq.c:207-250, on the matrices; the operands do not overlap *)
  Definition tsmlq_mat (side trans m1 n1 m2 n2 k ib : Z) (V T A1 A2 : Z -> Z -> N)
      : (Z -> Z -> N) * (Z -> Z -> N) :=
    fold_left (fun (A : (Z -> Z -> N) * (Z -> Z -> N)) i =>
      let kb := Z.min ib (k - i) in
      if side =? PlasmaLeft
      then (memo m1 n1 (parfbr_left1 (lq_trans trans) m2 i kb V T (fst A) (snd A)),
            memo m2 n2 (parfbr_left2 (lq_trans trans) m2 i kb V T (fst A) (snd A)))
      else (memo m1 n1 (parfbr_right1 (lq_trans trans) n2 i kb V T (fst A) (snd A)),
            memo m2 n2 (parfbr_right2 (lq_trans trans) n2 i kb V T (fst A) (snd A))))
      (lq_blocks side trans k ib) (A1, A2).

  (* core_blas/core_ztsmlq.c:118-252 plasma_core_ztsmlq. Its argument checks cannot fail in
     the routines below. *)
  Definition core_ztsmlq (side trans m1 n1 m2 n2 k ib : Z) (A1 : loc) (lda1 : Z) (A2 : loc) (lda2 : Z)
      (V : loc) (ldv : Z) (T : loc) (ldt : Z) (M : mem N) : mem N :=
    let V0 := memo k (if side =? PlasmaLeft then m2 else n2) (rd M V ldv) in
    let T0 := memo ib k (fun a c => if a <=? c mod ib then rd M T ldt a c else n0) in
    let R := tsmlq_mat side trans m1 n1 m2 n2 k ib V0 T0 (memo m1 n1 (rd M A1 lda1)) (memo m2 n2 (rd M A2 lda2)) in
    mset A2 lda2 m2 n2 everywhere (snd R) (mset A1 lda1 m1 n1 everywhere (fst R) M).

  (* core_blas/core_ztsmlq.c:255-290 plasma_core_omp_ztsmlq *)
  Definition omp_ztsmlq (side trans m1 n1 m2 n2 k ib : Z) (A1 : loc) (lda1 : Z) (A2 : loc) (lda2 : Z)
      (V : loc) (ldv : Z) (T : loc) (ldt : Z) : ktask N :=
    {| k_deps := [dep_inout A1; dep_inout A2; dep_in V; dep_in T];
       k_fun := core_ztsmlq side trans m1 n1 m2 n2 k ib A1 lda1 A2 lda2 V ldv T ldt;
       k_reads := fun l => reg A1 lda1 m1 n1 everywhere l \/ reg A2 lda2 m2 n2 everywhere l
                           \/ reg V ldv k (if side =? PlasmaLeft then m2 else n2) everywhere l
                           \/ reg T ldt ib k (t_sel ib) l;
       k_writes := fun l => reg A1 lda1 m1 n1 everywhere l \/ reg A2 lda2 m2 n2 everywhere l |}.

  (* LAPACK zlarfg as called in core_blas/core_ztslqt.c:164 and inside LAPACK zgelq2
     (core_zgelqt.c:138-142): an oracle, see QrModel.v *)
  Variable lg : N -> list N -> N * N * list N.

  (* one row of LAPACK zgelq2 (core_blas/core_zgelqt.c:138-142; trusted): row j is conjugated
     (zlacgv), zlarfg makes its reflector, which is applied from the right (zlarf) to the rows
     up to r1, and the row is conjugated back. X is the tile, tau the scalars so far. *)
  Definition gelq2_step (n r1 : Z) (S : (Z -> Z -> N) * (Z -> N)) (j : Z) : (Z -> Z -> N) * (Z -> N) :=
    let X := fst S in
    let '(beta, t, v) := lg (nconj (X j j)) (map (fun s => nconj (X j s)) (zrange (j + 1) n)) in
    let vj s := if s <? j then n0 else if s =? j then n1 else nth (Z.to_nat (s - j - 1)) v n0 in
    (fun r c =>
       if r =? j then (if c <? j then X j c else if c =? j then nconj beta else nconj (vj c))
       else if (j <? r) && (r <? r1) then
         nsub (X r c) (nmul (nmul t (nsum (fun s => nmul (X r s) (vj s)) j n)) (nconj (vj c)))
       else X r c,
     fun c => if c =? j then t else snd S c).

  (* one column of LAPACK zlarft, PlasmaForward, PlasmaRowwise (core_blas/core_zgelqt.c:144-150;
     trusted): column j of the block that starts at row i0 *)
  Definition larftr_step (n i0 : Z) (A : Z -> Z -> N) (tau : Z -> N) (T : Z -> Z -> N) (j : Z) : Z -> Z -> N :=
    fun a c =>
      if c =? j then
        if a =? j - i0 then tau j
        else nsum (fun b => nmul (T a (i0 + b))
               (nmul (nopp (tau j)) (nsum (fun s => nmul (v_row A (i0 + b) s) (nconj (v_row A j s))) j n)))
               a (j - i0)
      else T a c.

  (* core_blas/core_zgelqt.c:134-166, on the matrices: the new A and T *)
  Definition gelqt_mat (m n ib : Z) (A : Z -> Z -> N) : (Z -> Z -> N) * (Z -> Z -> N) :=
    let k := Z.min m n in
    fold_left (fun (S : (Z -> Z -> N) * (Z -> Z -> N)) i =>
      let sb := Z.min ib (k - i) in
      let P := fold_left (fun Q j => let R := gelq2_step n (i + sb) Q j in (memo m n (fst R), snd R))
                 (zrange i (i + sb)) (fst S, fun _ => n0) in
      let T1 := fold_left (fun T j => memo ib k (larftr_step n i (fst P) (snd P) T j))
                  (zrange i (i + sb)) (snd S) in
      (memo m n (fun r c => if i + sb <=? r
                            then larfbr_right PlasmaNoTrans n i sb (fst P) T1 (fst P) r c
                            else fst P r c), T1))
      (blocks k ib) (A, fun _ _ => n0).

  (* core_blas/core_zgelqt.c:89-169 plasma_core_zgelqt. Its argument checks cannot fail in the
     routines below. *)
  Definition core_zgelqt (m n ib : Z) (A : loc) (lda : Z) (T : loc) (ldt : Z) (M : mem N) : mem N :=
    let R := gelqt_mat m n ib (memo m n (rd M A lda)) in
    mset T ldt ib (Z.min m n) (t_sel ib) (snd R) (mset A lda m n everywhere (fst R) M).

  (* core_blas/core_zgelqt.c:172-200 plasma_core_omp_zgelqt *)
  Definition omp_zgelqt (m n ib : Z) (A : loc) (lda : Z) (T : loc) (ldt : Z) : ktask N :=
    {| k_deps := [dep_inout A; dep_out T];
       k_fun := core_zgelqt m n ib A lda T ldt;
       k_reads := reg A lda m n everywhere;
       k_writes := fun l => reg A lda m n everywhere l \/ reg T ldt ib (Z.min m n) (t_sel ib) l |}.

  (* core_blas/core_ztslqt.c:157-207: row j of the block that starts at row i0 and has sb rows.
     The row is conjugated by zlacgv (lines 160-163), and back (lines 195-198). The state is A1,
     A2 and T. *)
  Definition tslqt_step (n i0 sb : Z) (S : (Z -> Z -> N) * (Z -> Z -> N) * (Z -> Z -> N)) (j : Z)
      : (Z -> Z -> N) * (Z -> Z -> N) * (Z -> Z -> N) :=
    let '(A1, A2, T) := S in
    let '(beta, tau, v) := lg (nconj (A1 j j)) (map (fun s => nconj (A2 j s)) (zrange 0 n)) in
    let vj s := nth (Z.to_nat s) v n0 in
    let w r := nadd (A1 r j) (nsum (fun s => nmul (A2 r s) (vj s)) 0 n) in
    let A1' r c :=
      if (r =? j) && (c =? j) then nconj beta
      else if (c =? j) && (j <? r) && (r <? i0 + sb) then nadd (A1 r c) (nmul (nopp tau) (w r))
      else A1 r c in
    let A2' r c :=
      if r =? j then nconj (vj c)
      else if (j <? r) && (r <? i0 + sb) then nadd (A2 r c) (nmul (nmul (nopp tau) (w r)) (nconj (vj c)))
      else A2 r c in
    let T' a c :=
      if c =? j then
        if a =? j - i0 then tau
        else nsum (fun b => nmul (T a (i0 + b))
               (nmul (nopp tau) (nsum (fun s => nmul (A2 (i0 + b) s) (vj s)) 0 n))) a (j - i0)
      else T a c in
    (A1', A2', T').

  (* core_blas/core_ztslqt.c:155-219, on the matrices: the new A1, A2 and T. Only the lower
     triangle of A1 is read and changed. The call of core_ztsmlq for the remaining rows
     (lines 210-218) uses one block of reflectors. *)
  Definition tslqt_mat (m n ib : Z) (A1 A2 : Z -> Z -> N) : (Z -> Z -> N) * (Z -> Z -> N) * (Z -> Z -> N) :=
    fold_left (fun (S : (Z -> Z -> N) * (Z -> Z -> N) * (Z -> Z -> N)) i =>
      let sb := Z.min (m - i) ib in
      let '(B1, B2, T1) :=
        fold_left (fun Q j => let '(X1, X2, Y) := tslqt_step n i sb Q j in
                              (memo m m X1, memo m n X2, memo ib m Y))
          (zrange i (i + sb)) S in
      (memo m m (fun r c => if i + sb <=? r
                            then parfbr_right1 (lq_trans PlasmaConjTrans) n i sb B2 T1 B1 B2 r c else B1 r c),
       memo m n (fun r c => if i + sb <=? r
                            then parfbr_right2 (lq_trans PlasmaConjTrans) n i sb B2 T1 B1 B2 r c else B2 r c),
       T1))
      (blocks m ib) (A1, A2, fun _ _ => n0).

  (* core_blas/core_ztslqt.c:96-222 plasma_core_ztslqt. Its argument checks cannot fail in the
     routines below. *)
  Definition core_ztslqt (m n ib : Z) (A1 : loc) (lda1 : Z) (A2 : loc) (lda2 : Z) (T : loc) (ldt : Z)
      (M : mem N) : mem N :=
    let '(B1, B2, T1) := tslqt_mat m n ib
      (memo m m (fun r c => if c <=? r then rd M A1 lda1 r c else n0)) (memo m n (rd M A2 lda2)) in
    mset T ldt ib m (t_sel ib) T1
      (mset A2 lda2 m n everywhere B2 (mset A1 lda1 m m (uplo_sel PlasmaLower) B1 M)).

  (* core_blas/core_ztslqt.c:225-256 plasma_core_omp_ztslqt *)
  Definition omp_ztslqt (m n ib : Z) (A1 : loc) (lda1 : Z) (A2 : loc) (lda2 : Z) (T : loc) (ldt : Z) : ktask N :=
    {| k_deps := [dep_inout A1; dep_inout A2; dep_out T];
       k_fun := core_ztslqt m n ib A1 lda1 A2 lda2 T ldt;
       k_reads := fun l => reg A1 lda1 m m (uplo_sel PlasmaLower) l \/ reg A2 lda2 m n everywhere l;
       k_writes := fun l => reg A1 lda1 m m (uplo_sel PlasmaLower) l \/ reg A2 lda2 m n everywhere l
                            \/ reg T ldt ib m (t_sel ib) l |}.

  (* compute/pzgelqf.c:28-87 plasma_pzgelqf; A(m,n) and T(m,n) are the macros of lines 21-22.
     The early return for a failed sequence (lines 33-34) is left out: no task fails. *)
  Definition pzgelqf (bA : Z) (A : desc) (bT : Z) (T : desc) : list (ktask N) :=
    let ib := d_mb T in
    flat_map (fun k =>
      let mvak := tile_mview A k in
      let nvak := tile_nview A k in
      let ldak := tile_mmain A k in
      omp_zgelqt mvak nvak ib (tptr bA A k k) ldak (tptr bT T k k) (d_mb T)
      :: map (fun m =>
           omp_zunmlq PlasmaRight PlasmaConjTrans (tile_mview A m) nvak (Z.min mvak nvak) ib
             (tptr bA A k k) ldak (tptr bT T k k) (d_mb T) (tptr bA A m k) (tile_mmain A m))
           (zrange (k + 1) (d_mt A))
      ++ flat_map (fun n =>
           let nvan := tile_nview A n in
           omp_ztslqt mvak nvan ib (tptr bA A k k) ldak (tptr bA A k n) ldak (tptr bT T k n) (d_mb T)
           :: map (fun m =>
                omp_ztsmlq PlasmaRight PlasmaConjTrans (tile_mview A m) (d_nb A) (tile_mview A m) nvan mvak ib
                  (tptr bA A m k) (tile_mmain A m) (tptr bA A m n) (tile_mmain A m)
                  (tptr bA A k n) ldak (tptr bT T k n) (d_mb T))
                (zrange (k + 1) (d_mt A)))
           (zrange (k + 1) (d_nt A)))
      (zrange 0 (Z.min (d_mt A) (d_nt A))).

  (* compute/zgelqf.c:119-124: the descriptor T, which is returned to the caller. Its storage
     is block bT; it stays allocated. *)
  Definition gelqf_T (nb ib m n : Z) : create_result :=
    match ge_create nb m n with
    | CrError code => CrError code
    | CrOk A _ => descT_create A ib PlasmaFlatHouseholder
    end.

  (* compute/zgelqf.c:71-166 plasma_zgelqf with 216-261 plasma_omp_zgelqf, whose argument
     checks cannot fail here, in the flat Householder mode (the default, control/context.c:177).
     Not initialised: property C09; tuning: C10. *)
  Definition zgelqf (nb ib m n : Z) (pA : loc) (lda bA bT : Z) : driver N :=
    if m <? 0 then Returns (-1)
    else if n <? 0 then Returns (-2)
    else if lda <? Z.max 1 m then Returns (-4)
    else if Z.min m n =? 0 then Returns PlasmaSuccess
    else
      with_desc (ge_create nb m n) (fun A =>
      with_desc (gelqf_T nb ib m n) (fun T =>
        Runs (pzge2desc pA lda bA A
              ++ (if Z.min (d_m A) (d_n A) =? 0 then [] else pzgelqf bA A bT T)
              ++ pzdesc2ge bA A pA lda))).
End Kernels.

Section Unmlq.
  Context {N : numbers}.

  (* compute/pzunmlq.c:29-201 plasma_pzunmlq; A(m,n), T(m,n), B(m,n) are the macros of lines
     21-23. The early return for a failed sequence (lines 35-36) is left out: no task fails. *)
  Definition pzunmlq (side trans bA : Z) (A : desc) (bT : Z) (T : desc) (bB : Z) (B : desc) : list (ktask N) :=
    let ib := d_mb T in
    let ks := zrange 0 (Z.min (d_mt A) (d_nt A)) in
    if side =? PlasmaLeft then
      let unm k := map (fun n =>
        omp_zunmlq side trans (tile_mview B k) (tile_nview B n) (Z.min (tile_nview A k) (tile_mview A k)) ib
          (tptr bA A k k) (tile_mmain A k) (tptr bT T k k) (d_mb T) (tptr bB B k n) (tile_mmain B k))
        (zrange 0 (d_nt B)) in
      let tsm k m := map (fun n =>
        omp_ztsmlq side trans (d_mb B) (tile_nview B n) (tile_mview B m) (tile_nview B n) (tile_mview A k) ib
          (tptr bB B k n) (tile_mmain B k) (tptr bB B m n) (tile_mmain B m)
          (tptr bA A k m) (tile_mmain A k) (tptr bT T k m) (d_mb T))
        (zrange 0 (d_nt B)) in
      if trans =? PlasmaNoTrans
      then flat_map (fun k => unm k ++ flat_map (tsm k) (zrange (k + 1) (d_mt B))) ks
      else flat_map (fun k => flat_map (tsm k) (rev (zrange (k + 1) (d_mt B))) ++ unm k) (rev ks)
    else
      let unm k := map (fun m =>
        omp_zunmlq side trans (tile_mview B m) (tile_nview B k) (Z.min (tile_nview A k) (tile_mview A k)) ib
          (tptr bA A k k) (tile_mmain A k) (tptr bT T k k) (d_mb T) (tptr bB B m k) (tile_mmain B m))
        (zrange 0 (d_mt B)) in
      let tsm k n := map (fun m =>
        omp_ztsmlq side trans (tile_mview B m) (d_nb B) (tile_mview B m) (tile_nview B n) (tile_mview A k) ib
          (tptr bB B m k) (tile_mmain B m) (tptr bB B m n) (tile_mmain B m)
          (tptr bA A k n) (tile_mmain A k) (tptr bT T k n) (d_mb T))
        (zrange 0 (d_mt B)) in
      if trans =? PlasmaNoTrans
      then flat_map (fun k => flat_map (tsm k) (rev (zrange (k + 1) (d_nt B))) ++ unm k) (rev ks)
      else flat_map (fun k => unm k ++ flat_map (tsm k) (zrange (k + 1) (d_nt B))) ks.

  (* compute/zunmlq.c:95-221 plasma_zunmlq with 285-350 plasma_omp_zunmlq, whose argument
     checks cannot fail here, in the flat Householder mode. T and its block bT are the ones
     filled in by plasma_zgelqf. Not initialised: property C09; tuning: C10. *)
  Definition zunmlq (nb side trans m n k : Z) (pA : loc) (lda : Z) (bT : Z) (T : desc) (pC : loc) (ldc : Z)
      (bA bC : Z) : driver N :=
    if negb (side =? PlasmaLeft) && negb (side =? PlasmaRight) then Returns (-1)
    else if negb (trans =? PlasmaConjTrans) && negb (trans =? PlasmaNoTrans) then Returns (-2)
    else if m <? 0 then Returns (-3)
    else if n <? 0 then Returns (-4)
    else
      let an := if side =? PlasmaLeft then m else n in
      if (k <? 0) || (an <? k) then Returns (-5)
      else if lda <? Z.max 1 k then Returns (-7)
      else if ldc <? Z.max 1 m then Returns (-10)
      else if (m =? 0) || (n =? 0) || (k =? 0) then Returns PlasmaSuccess
      else
        with_desc (ge_create nb k an) (fun A =>
        with_desc (ge_create nb m n) (fun C =>
          Runs (pzge2desc pA lda bA A ++ pzge2desc pC ldc bC C
                ++ (if (d_m C =? 0) || (d_n C =? 0) || (d_m A =? 0) || (d_n A =? 0) then []
                    else pzunmlq side trans bA A bT T bC C)
                ++ pzdesc2ge bC C pC ldc))).

  (* compute/pzunglq.c:28-72 plasma_pzunglq; A(m,n), T(m,n), Q(m,n) are the macros of lines
     20-22. The early return for a failed sequence (lines 33-34) is left out: no task fails. *)
  Definition pzunglq (bA : Z) (A : desc) (bT : Z) (T : desc) (bQ : Z) (Q : desc) : list (ktask N) :=
    let ib := d_mb T in
    flat_map (fun k =>
      flat_map (fun n => map (fun m =>
        omp_ztsmlq PlasmaRight PlasmaNoTrans (tile_mview Q m) (d_nb Q) (tile_mview Q m) (tile_nview Q n) (tile_mview A k) ib
          (tptr bQ Q m k) (tile_mmain Q m) (tptr bQ Q m n) (tile_mmain Q m)
          (tptr bA A k n) (tile_mmain A k) (tptr bT T k n) (d_mb T))
        (zrange k (d_mt Q)))
        (rev (zrange (k + 1) (d_nt Q)))
      ++ map (fun m =>
        omp_zunmlq PlasmaRight PlasmaNoTrans (tile_mview Q m) (tile_nview Q k) (Z.min (tile_nview A k) (tile_mview A k)) ib
          (tptr bA A k k) (tile_mmain A k) (tptr bT T k k) (d_mb T) (tptr bQ Q m k) (tile_mmain Q m))
        (zrange k (d_mt Q)))
      (rev (zrange 0 (Z.min (d_mt A) (d_nt A)))).

  (* compute/zunglq.c:116-129: the descriptors of A and of Q, both k x n in an array of m rows *)
  Definition unglq_create (nb m n k : Z) : create_result :=
    general_create PlasmaComplexDouble nb nb m n 0 0 k n.

  (* compute/zunglq.c:73-179 plasma_zunglq with 230-283 plasma_omp_zunglq, whose argument checks
     cannot fail here, in the flat Householder mode. T and its block bT are the ones filled
     in by plasma_zgelqf. Not initialised: property C09; tuning: C10. *)
  Definition zunglq (nb m n k : Z) (pA : loc) (lda : Z) (bT : Z) (T : desc) (pQ : loc) (ldq : Z)
      (bA bQ : Z) : driver N :=
    if m <? 0 then Returns (-1)
    else if n <? m then Returns (-2)
    else if (k <? 0) || (m <? k) then Returns (-3)
    else if lda <? Z.max 1 m then Returns (-5)
    else if ldq <? Z.max 1 m then Returns (-8)
    else if m <=? 0 then Returns PlasmaSuccess
    else
      with_desc (unglq_create nb m n k) (fun A =>
      with_desc (unglq_create nb m n k) (fun Q =>
        Runs (pzge2desc pA lda bA A ++ pzge2desc pQ ldq bQ Q
              ++ (if d_m Q <=? 0 then []
                  else pzlaset PlasmaGeneral n0 n1 bQ Q ++ pzunglq bA A bT T bQ Q)
              ++ pzdesc2ge bQ Q pQ ldq))).
End Unmlq.

Section Gelqs.
  Context {F : fields}.

  (* compute/zgelqs.c:71-177 plasma_zgelqs with 231-297 plasma_omp_zgelqs, whose argument checks
     cannot fail here, in the flat Householder mode. T and its block bT are the ones filled
     in by plasma_zgelqf. Not initialised: property C09; tuning: C10. *)
  Definition zgelqs (nb m n nrhs : Z) (pA : loc) (lda : Z) (bT : Z) (T : desc) (pB : loc) (ldb : Z)
      (bA bB : Z) : driver F :=
    if m <? 0 then Returns (-1)
    else if (n <? 0) || (n <? m) then Returns (-2)
    else if nrhs <? 0 then Returns (-3)
    else if lda <? Z.max 1 m then Returns (-5)
    else if ldb <? Z.max 1 (Z.max 1 n) then Returns (-8)
    else if (m =? 0) || (n =? 0) || (nrhs =? 0) then Returns PlasmaSuccess
    else
      with_desc (ge_create nb m n) (fun A =>
      with_desc (ge_create nb n nrhs) (fun B =>
        Runs (pzge2desc pA lda bA A ++ pzge2desc pB ldb bB B
              ++ (if (d_m A =? 0) || (d_n A =? 0) || (d_n B =? 0) then []
                  else with_view B (d_m A) 0 (d_n A - d_m A) (d_n B) (fun VB =>
                         pzlaset PlasmaGeneral n0 n0 bB VB)
                       ++ with_view A 0 0 (d_m A) (d_m A) (fun VA =>
                          with_view B 0 0 (d_m A) (d_n B) (fun VB =>
                            pztrsm PlasmaLeft PlasmaLower PlasmaNoTrans PlasmaNonUnit n1 bA VA bB VB))
                       ++ pzunmlq PlasmaLeft PlasmaConjTrans bA A bT T bB B)
              ++ pzdesc2ge bB B pB ldb))).

  Variable lg : F -> list F -> F * F * list F.

  (* compute/zgels.c:358-490 the body of plasma_omp_zgels, in the flat Householder mode *)
  Definition omp_zgels (trans bA : Z) (A : desc) (bT : Z) (T : desc) (bB : Z) (B : desc) : list (ktask F) :=
    if (d_m A =? 0) || (d_n A =? 0) || (d_n B =? 0) then pzlaset PlasmaGeneral n0 n0 bB B
    else if d_n A <=? d_m A then
      pzgeqrf lg bA A bT T
      ++ (if trans =? PlasmaNoTrans then
            pzunmqr PlasmaLeft PlasmaConjTrans bA A bT T bB B
            ++ with_view A 0 0 (d_n A) (d_n A) (fun VA =>
               with_view B 0 0 (d_n A) (d_n B) (fun VB =>
                 pztrsm PlasmaLeft PlasmaUpper PlasmaNoTrans PlasmaNonUnit n1 bA VA bB VB))
          else
            with_view B (d_n A) 0 (d_m A - d_n A) (d_n B) (fun VB => pzlaset PlasmaGeneral n0 n0 bB VB)
            ++ with_view A 0 0 (d_n A) (d_n A) (fun VA =>
               with_view B 0 0 (d_n A) (d_n B) (fun VB =>
                 pztrsm PlasmaLeft PlasmaUpper PlasmaConjTrans PlasmaNonUnit n1 bA VA bB VB))
            ++ pzunmqr PlasmaLeft PlasmaNoTrans bA A bT T bB B)
    else
      pzgelqf lg bA A bT T
      ++ (if trans =? PlasmaNoTrans then
            with_view B (d_m A) 0 (d_n A - d_m A) (d_n B) (fun VB => pzlaset PlasmaGeneral n0 n0 bB VB)
            ++ with_view A 0 0 (d_m A) (d_m A) (fun VA =>
               with_view B 0 0 (d_m A) (d_n B) (fun VB =>
                 pztrsm PlasmaLeft PlasmaLower PlasmaNoTrans PlasmaNonUnit n1 bA VA bB VB))
            ++ pzunmlq PlasmaLeft PlasmaConjTrans bA A bT T bB B
          else
            pzunmlq PlasmaLeft PlasmaNoTrans bA A bT T bB B
            ++ with_view A 0 0 (d_m A) (d_m A) (fun VA =>
               with_view B 0 0 (d_m A) (d_n B) (fun VB =>
                 pztrsm PlasmaLeft PlasmaLower PlasmaConjTrans PlasmaNonUnit n1 bA VA bB VB))).

  (* compute/zgels.c:116-250 plasma_zgels with 313-491 plasma_omp_zgels, whose argument checks
     cannot fail here, in the flat Householder mode. T is created in block bT. The quick return
     writes B before any parallel region is opened: one task here. Not initialised: property
     C09; tuning: C10. *)
  Definition zgels (nb ib trans m n nrhs : Z) (pA : loc) (lda : Z) (pB : loc) (ldb : Z) (bA bB bT : Z) : driver F :=
    if negb (trans =? PlasmaNoTrans) && negb (trans =? PlasmaConjTrans) then Returns PlasmaErrorIllegalValue
    else if m <? 0 then Returns (-2)
    else if n <? 0 then Returns (-3)
    else if nrhs <? 0 then Returns (-4)
    else if lda <? Z.max 1 m then Returns (-6)
    else if ldb <? Z.max 1 (Z.max m n) then Returns (-9)
    else if Z.min m (Z.min n nrhs) =? 0 then
      Runs [ {| k_deps := [];
                k_fun := mset pB ldb (Z.max m n) nrhs everywhere (fun _ _ => n0);
                k_reads := fun _ => False;
                k_writes := reg pB ldb (Z.max m n) nrhs everywhere |} ]
    else
      with_desc (ge_create nb m n) (fun A =>
      with_desc (ge_create nb (Z.max m n) nrhs) (fun B =>
      with_desc (descT_create A ib PlasmaFlatHouseholder) (fun T =>
        Runs (pzge2desc pA lda bA A ++ pzge2desc pB ldb bB B
              ++ omp_zgels trans bA A bT T bB B
              ++ pzdesc2ge bA A pA lda ++ pzdesc2ge bB B pB ldb)))).
End Gelqs.
