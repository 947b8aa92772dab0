(* C25: the orders of kernels generated for tree-based QR and LQ. *)
From Coq Require Import ZArith List Lia.
From Verif Require Import TreeModel TreeSpec TreeProofs3 TreeProofs5 TreeProofs6 TreeProofs7.
Import ListNotations.
Open Scope Z_scope.

(* The generator in use: it ends (from some fuel on the outcome no longer depends on it), reports
   no error, no insertion hits the assertion on the size of the array, and the list is an
   elimination scheme. For every number of tile rows and columns and of threads. *)
Theorem C25_tree_operations : forall mt nt ncores,
  1 <= mt -> 1 <= nt -> 1 <= ncores ->
  exists ops,
    (exists n0, forall fuel, (n0 <= fuel)%nat -> tree_operations fuel mt nt ncores = TreeDone ops 0) /\
    elimination_scheme mt nt ops.
Proof. exact tree_operations_ok. Qed.
Print Assumptions C25_tree_operations.

Example C25_tree_operations_case :
  exists ops, tree_operations 20 5 2 2 = TreeDone ops 0 /\ length ops = 16%nat /\
    In (mktop 2 1 3 2) ops /\ eliminations ops 3 1 = 1%nat.
Proof. eexists. split; [vm_compute; reflexivity|]. split; [reflexivity|]. split; [|reflexivity]. cbn. tauto. Qed.

(* The same whatever size is chosen for the flat trees, hence also where the int computation of
   that size (which is clamped afterwards) overflows. *)
Theorem C25_block_greedy_any_size : forall mt nt bs,
  1 <= mt -> 1 <= nt -> 1 <= bs ->
  exists ops,
    (exists n0, forall fuel, (n0 <= fuel)%nat -> tree_block_greedy_bs fuel mt nt bs = TreeDone ops 0) /\
    elimination_scheme mt nt ops.
Proof. exact block_greedy_bs_ok. Qed.
Print Assumptions C25_block_greedy_any_size.

Example C25_block_greedy_any_size_case :
  exists ops, tree_block_greedy_bs 20 7 3 2 = TreeDone ops 0 /\ In (mktop 3 1 6 5) ops /\ In (mktop 2 1 5 3) ops.
Proof. eexists. split; [vm_compute; reflexivity|]. cbn. tauto. Qed.

(* The other generators, which can be selected by changing a constant. *)
Theorem C25_flat_ts : forall mt nt, 1 <= mt -> 1 <= nt ->
  exists ops, tree_flat_ts mt nt = TreeDone ops 0 /\ elimination_scheme mt nt ops.
Proof. exact tree_flat_ts_ok. Qed.
Print Assumptions C25_flat_ts.

Example C25_flat_ts_case : tree_flat_ts 2 2 = TreeDone [mktop 1 0 0 (-1); mktop 3 0 1 0; mktop 1 1 1 (-1)] 0.
Proof. reflexivity. Qed.

Theorem C25_flat_tt : forall mt nt, 1 <= mt -> 1 <= nt ->
  exists ops, tree_flat_tt mt nt = TreeDone ops 0 /\ elimination_scheme mt nt ops.
Proof. exact tree_flat_tt_ok. Qed.
Print Assumptions C25_flat_tt.

Example C25_flat_tt_case :
  tree_flat_tt 2 2 = TreeDone [mktop 1 0 0 (-1); mktop 1 0 1 (-1); mktop 2 0 1 0; mktop 1 1 1 (-1)] 0.
Proof. reflexivity. Qed.

Theorem C25_binary : forall mt nt, 1 <= mt -> 1 <= nt ->
  exists ops, tree_binary mt nt = TreeDone ops 0 /\ elimination_scheme mt nt ops.
Proof. exact tree_binary_ok. Qed.
Print Assumptions C25_binary.

Example C25_binary_case :
  exists ops, tree_binary 10 2 = TreeDone ops 0 /\ In (mktop 2 0 8 0) ops /\ In (mktop 3 0 9 8) ops.
Proof. eexists. split; [vm_compute; reflexivity|]. cbn. tauto. Qed.

Theorem C25_auto : forall mt nt concurrency, 1 <= mt -> 1 <= nt -> 1 <= concurrency ->
  exists ops,
    (exists n0, forall fuel, (n0 <= fuel)%nat -> tree_auto fuel mt nt concurrency = TreeDone ops 0) /\
    elimination_scheme mt nt ops.
Proof. intros mt nt nc M N _. exact (tree_auto_ok mt nt nc M N). Qed.
Print Assumptions C25_auto.

Example C25_auto_case :
  exists ops, tree_auto 10 7 3 2 = TreeDone ops 0 /\ In (mktop 3 0 5 3) ops /\ In (mktop 2 0 3 0) ops.
Proof. eexists. split; [vm_compute; reflexivity|]. cbn. tauto. Qed.

Theorem C25_greedy : forall mt nt, 1 <= mt -> 1 <= nt ->
  exists ops,
    (exists n0, forall fuel, (n0 <= fuel)%nat -> tree_greedy fuel mt nt = TreeDone ops 0) /\
    elimination_scheme mt nt ops.
Proof. exact tree_greedy_ok. Qed.
Print Assumptions C25_greedy.

Example C25_greedy_case :
  exists ops, tree_greedy 20 4 2 = TreeDone ops 0 /\ length ops = 12%nat /\ In (mktop 2 0 3 1) ops.
Proof. eexists. split; [vm_compute; reflexivity|]. split; [reflexivity|]. cbn. tauto. Qed.

(* The specification is not met by any list: eliminating with a tile that is not triangular. *)
Example C25_wrong_pivot : ~ elimination_scheme 2 1 [mktop 3 0 1 0; mktop 1 0 0 (-1)].
Proof.
  intros [[[_ A] _] _]. cbn in A. destruct A as [[X _]|[[X _]|[_ [_ [_ [_ X]]]]]]; discriminate.
Qed.

(* nor one where a column is started before the row is finished in the one before *)
Example C25_too_early : ~ elimination_scheme 2 2 [mktop 1 0 0 (-1); mktop 1 1 1 (-1); mktop 3 0 1 0].
Proof.
  intros [[_ [[[_ [_ A]] _] _]] _]. cbn in A. specialize (A eq_refl). discriminate.
Qed.

(* C33: zunmqr, zungqr, zunmlq and zunglq do not store the list but generate it again from the tile
   shape (mt, kt) of the matrix of reflectors they are given (pzunmqr_tree.c:43,
   pzungqr_tree.c:41). With all reflectors and as many threads it is the same list. *)
Theorem C33_same_tree : forall fuel mt nt kt ncores, Z.min mt kt = Z.min mt nt ->
  tree_operations fuel mt kt ncores = tree_operations fuel mt nt ncores.
Proof. exact tree_operations_shape. Qed.
Print Assumptions C33_same_tree.

Example C33_same_tree_case : tree_operations 20 3 5 2 = tree_operations 20 3 3 2 /\ tree_operations 20 3 3 2 <> TreeFuel.
Proof. split; [reflexivity|]. vm_compute. discriminate. Qed.

(* With fewer reflectors (k < min(m, n), which these routines accept) it is not: on 4 by 4 tiles the
   factorization eliminates tile (1, 0) with one kernel, and the application of its first
   tile column takes it for a tile that was triangularised by itself, with factors T(1, 0) that
   were never computed. *)
Theorem C33_leading_columns_refuted :
  exists mt nt kt ncores ops ops', kt < Z.min mt nt /\
    (exists n0, forall fuel, (n0 <= fuel)%nat -> tree_operations fuel mt nt ncores = TreeDone ops 0) /\
    (exists n0, forall fuel, (n0 <= fuel)%nat -> tree_operations fuel mt kt ncores = TreeDone ops' 0) /\
    In (mktop 3 0 1 0) ops /\ ~ In (mktop 3 0 1 0) ops' /\ In (mktop 1 0 1 (-1)) ops'.
Proof.
  destruct leading_columns_witness as [ops [ops' [A [B C]]]].
  exact (ex_intro _ 4 (ex_intro _ 4 (ex_intro _ 1 (ex_intro _ 1 (ex_intro _ ops (ex_intro _ ops'
    (conj (eq_refl : 1 < Z.min 4 4) (conj (ex_intro _ 5%nat A) (conj (ex_intro _ 5%nat B) C))))))))).
Qed.
Print Assumptions C33_leading_columns_refuted.

(* Nor with another number of threads in the calling parallel region. *)
Theorem C33_threads_refuted :
  exists mt nt ncores ncores' ops ops', 1 <= ncores /\ 1 <= ncores' /\
    (exists n0, forall fuel, (n0 <= fuel)%nat -> tree_operations fuel mt nt ncores = TreeDone ops 0) /\
    (exists n0, forall fuel, (n0 <= fuel)%nat -> tree_operations fuel mt nt ncores' = TreeDone ops' 0) /\
    In (mktop 3 0 1 0) ops /\ ~ In (mktop 3 0 1 0) ops' /\ In (mktop 1 0 1 (-1)) ops'.
Proof.
  destruct threads_witness as [ops [ops' [A [B C]]]].
  exists 4, 4, 1, 40, ops, ops'. split; [lia|]. split; [lia|]. eauto.
Qed.
Print Assumptions C33_threads_refuted.
