(* C23: LU factorization with partial pivoting. *)
From Coq Require Import ZArith List Bool Lia.
From Verif Require Import Base NumModel FieldModel FieldInstances TaskModel TaskSpec DescModel DescSpec DescDriverModel
  MatModel MatSpec SwpModel SwpSpec GuardModel GuardSpec GetrfModel GetrfSpec GetrfInstances
  GetrfRegionProofs GetrfDriverProofs GetrfRankProofs GetrfRaceProofs.
Import ListNotations.
Open Scope Z_scope.

(* The tile factorization plasma_omp_zgetrf, for all sizes, tile sizes, inner block sizes,
   numbers of panel threads and schedules of its tasks: it ends with status 0, row numbers in
   ipiv with ipiv[t] >= t+1, P*A = L*U, no zero on the diagonal of U and pivots at least as
   big as the elements they eliminate; or with status st, and then column st-1 of A is a
   combination of the columns before it. Nothing but the matrix and ipiv changes. *)
Theorem C23_tile_lu : forall (F : fields) (bigger : F -> F -> bool) nb m n A size b pI ib mpt,
  0 <= m -> 0 <= n -> ge_create nb m n = CrOk A size -> 0 < ib -> 0 < mpt -> fst pI <> b ->
  forall M, gregion_ensures (omp_async_zgetrf bigger b A pI ib mpt) M (fun M' st =>
    lu_outcome bigger m n (lel M b A) (lel M' b A) (pivots M' pI) st /\
    (forall l, (forall i j, in_matrix m n i j -> l <> (b, elem_off A i j)) ->
       (forall t, 0 <= t < Z.min m n -> l <> (fst pI, snd pI + t)) -> M' l = M l)).
Proof. exact omp_async_zgetrf_region. Qed.
Print Assumptions C23_tile_lu.

(* Panel s of a matrix, between two barriers of the panel task: however the memory accesses
   of the threads interleave, the result is that of running the threads one after the
   other. First the trailing update after column j, then the gemm after a block. *)
Theorem C23_panel_update_threads : forall (F : fields) nb m n A asize s b size info k kb j (M : mem (cell F)),
  ge_create nb m n = CrOk A asize -> 0 <= s -> s * nb < m -> s * nb < n -> 0 < size ->
  0 <= k <= j -> j < k + kb -> k + kb <= Z.min (m - s * nb) (Z.min nb (n - s * nb)) ->
  let W := the_view A (s * nb) (s * nb) (m - s * nb) (tile_nview A s) in
  region_ensures (update_threads b W size info k kb j) M (fun M' =>
    meq M' (on_nums (fun N => fold_left (update_rank b W size info k kb j) (zrange 0 size) N) M)).
Proof. exact panel_update_threads. Qed.
Print Assumptions C23_panel_update_threads.

Theorem C23_panel_gemm_threads : forall (F : fields) nb m n A asize s b size k kb (M : mem (cell F)),
  ge_create nb m n = CrOk A asize -> 0 <= s -> s * nb < m -> s * nb < n -> 0 < size ->
  0 <= k -> 0 < kb -> k + kb <= Z.min (m - s * nb) (Z.min nb (n - s * nb)) ->
  let W := the_view A (s * nb) (s * nb) (m - s * nb) (tile_nview A s) in
  region_ensures (gemm_threads b W size k kb) M (fun M' =>
    meq M' (on_nums (fun N => fold_left (gemm_rank b W size k kb) (zrange 0 size) N) M)).
Proof. exact panel_gemm_threads. Qed.
Print Assumptions C23_panel_gemm_threads.

(* plasma_zgetrf. Missing for the full claim: the hypothesis m <= 3*nb or n <= nb; without it
   the claim is false, see below. *)
Theorem C23_zgetrf_partial : forall (F : fields) (bigger : F -> F -> bool) nb ib mpt m n pA lda pI b,
  0 < nb -> 0 < ib -> 0 < mpt -> 0 <= m -> 0 <= n -> Z.max 1 m <= lda ->
  fst pA <> b -> fst pI <> b -> fst pI <> fst pA ->
  m <= 3 * nb \/ n <= nb ->
  forall M, rdriver_ensures (zgetrf bigger nb ib mpt m n pA lda pI b) M
    (getrf_result bigger m n pA lda pI b M).
Proof. exact zgetrf_driver. Qed.
Print Assumptions C23_zgetrf_partial.

(* In plasma_zgetrf nothing makes the update of a tile column wait for the translation of
   its tiles other than the second, the first and the last of the column. With nb = 1, m = 4
   and n = 2 there is an execution that returns 0 and leaves wrong factors, and one that
   returns an error code for a matrix none of whose columns depends on the ones before. *)
Theorem C23_zgetrf_refuted : exists (nb ib mpt m n : Z) (pA : loc) (lda : Z) (pI : loc) (b : Z) (M : mem (cell QI_fields)),
  0 < nb /\ 0 < ib /\ 0 < mpt /\ 0 <= m /\ 0 <= n /\ Z.max 1 m <= lda /\
  fst pA <> b /\ fst pI <> b /\ fst pI <> fst pA /\
  ~ rdriver_ensures (zgetrf cabs_bigger nb ib mpt m n pA lda pI b) M (fun M' code =>
      code = 0 -> factored m n (lul M pA lda) (lul M' pA lda) (pivots M' pI)).
Proof. exact race_wrong_exists. Qed.
Print Assumptions C23_zgetrf_refuted.

Theorem C23_zgetrf_status_refuted : exists (nb ib mpt m n : Z) (pA : loc) (lda : Z) (pI : loc) (b : Z) (M : mem (cell QI_fields)),
  0 < nb /\ 0 < ib /\ 0 < mpt /\ 0 <= m /\ 0 <= n /\ Z.max 1 m <= lda /\
  fst pA <> b /\ fst pI <> b /\ fst pI <> fst pA /\
  (forall k, 0 <= k < Z.min m n -> ~ column_depends m (lul M pA lda) k) /\
  ~ rdriver_ensures (zgetrf cabs_bigger nb ib mpt m n pA lda pI b) M (fun M' code => code = 0).
Proof. exact race_fails_exists. Qed.
Print Assumptions C23_zgetrf_status_refuted.

(* The comparison of the code, |Re| + |Im|, on complex numbers with rational parts is one the
   theorems speak about. *)
Example C23_comparison : comparison cabs_bigger.
Proof. exact cabs_comparison. Qed.

(* The matrix with rows (0, 2, 1), (1, 1, 3), (2, 0, i), tile size 2, one and two columns at
   a time in the panel, two panel threads: rows 0 and 2, then 1 and 2 are exchanged. *)
Definition ex_lu : mem (cell QI_fields) := fun l =>
  if fst l =? 0
  then (nth (Z.to_nat (snd l)) [qi 0 0; qi 1 0; qi 2 0; qi 2 0; qi 1 0; qi 0 0; qi 1 0; qi 3 0; qi 0 1] (qi 0 0), 0)
  else (qi 0 0, 0).
Example C23_case : exists first second fcode,
  zgetrf cabs_bigger 2 1 2 3 3 (0, 0) 3 (7, 0) 5 = RRuns first second fcode /\
  snd (gseq first ex_lu) = 0 /\
  let M' := krun second (fst (gseq first ex_lu)) in
  map (pivots M' (7, 0)) [0; 1; 2] = [3; 3; 3] /\
  forallb (fun i => forallb (fun j => neqb
      (nsum (fun l => nmul (factor_L (lul M' (0, 0) 3) i l) (factor_U (lul M' (0, 0) 3) l j)) 0 3)
      (lul ex_lu (0, 0) 3 (source [(0, 2); (1, 2); (2, 2)] i) j)) (zrange 0 3)) (zrange 0 3) = true.
Proof.
  eexists. eexists. eexists. split; [reflexivity|]. split; [lazy; reflexivity|]. split; lazy; reflexivity.
Qed.

(* a singular matrix: the second column is twice the first; the code is min(2,2) + 2 *)
Definition ex_sing : mem (cell QI_fields) := fun l =>
  if fst l =? 0 then (nth (Z.to_nat (snd l)) [qi 1 0; qi 2 0; qi 2 0; qi 4 0] (qi 0 0), 0) else (qi 0 0, 0).
Example C23_singular : exists first second fcode,
  zgetrf cabs_bigger 1 1 1 2 2 (0, 0) 2 (7, 0) 5 = RRuns first second fcode /\
  fcode (snd (gseq first ex_sing)) = 4.
Proof. eexists. eexists. eexists. split; [reflexivity|]. lazy. reflexivity. Qed.
