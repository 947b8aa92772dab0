(* C24: row and column interchanges. C34: asynchronous calls in one sequence. *)
From Coq Require Import ZArith List Lia.
From Verif Require Import Base TaskModel TaskSpec DescModel DescSpec DescDriverModel MatModel MatSpec LayoutModel
  DriverModel DriverSpec SwpModel SwpSpec SwpDriverProofs SwpRaceProofs SwpFacts.
Import ListNotations.
Open Scope Z_scope.

(* Throughout: every tile size nb, every size, every legal pivot vector, every schedule. bA
   is the temporary tile matrix, pI the array ipiv, given by its contents. *)

(* Rows, increment 1: row i of the result is row sigma(i) of the matrix, sigma being the
   product of the transpositions (0 ipiv[0]-1), (1 ipiv[1]-1), ... in this order; no other
   user memory changes. *)
Theorem C24_rows_forward : forall V nb m n pA lda pI ipiv bA (M : mem V),
  0 < nb -> 0 <= m -> 0 <= n -> Z.max 1 m <= lda -> fst pA <> bA -> legal_pivots ipiv m ->
  driver_ensures (zgeswp nb PlasmaRowwise m n pA lda pI ipiv 1 bA) M (fun M' =>
    (forall i j, in_matrix m n i j ->
       ul M' pA lda i j = ul M pA lda (source (interchanges ipiv (Z.to_nat m)) i) j) /\
    (forall l, fst l <> bA -> ~ in_user pA lda m n l -> M' l = M l)).
Proof. exact @rows_forward. Qed.
Print Assumptions C24_rows_forward.

(* Rows, increment -1: the same transpositions in the opposite order. *)
Theorem C24_rows_backward : forall V nb m n pA lda pI ipiv bA (M : mem V),
  0 < nb -> 0 <= m -> 0 <= n -> Z.max 1 m <= lda -> fst pA <> bA -> legal_pivots ipiv m ->
  driver_ensures (zgeswp nb PlasmaRowwise m n pA lda pI ipiv (-1) bA) M (fun M' =>
    (forall i j, in_matrix m n i j ->
       ul M' pA lda i j = ul M pA lda (source (rev (interchanges ipiv (Z.to_nat m))) i) j) /\
    (forall l, fst l <> bA -> ~ in_user pA lda m n l -> M' l = M l)).
Proof. exact @rows_backward. Qed.
Print Assumptions C24_rows_backward.

(* Columns. *)
Theorem C24_columns_forward : forall V nb m n pA lda pI ipiv bA (M : mem V),
  0 < nb -> 0 <= m -> 0 <= n -> Z.max 1 m <= lda -> fst pA <> bA -> legal_pivots ipiv n ->
  driver_ensures (zgeswp nb PlasmaColumnwise m n pA lda pI ipiv 1 bA) M (fun M' =>
    (forall i j, in_matrix m n i j ->
       ul M' pA lda i j = ul M pA lda i (source (interchanges ipiv (Z.to_nat n)) j)) /\
    (forall l, fst l <> bA -> ~ in_user pA lda m n l -> M' l = M l)).
Proof. exact @columns_forward. Qed.
Print Assumptions C24_columns_forward.

Theorem C24_columns_backward : forall V nb m n pA lda pI ipiv bA (M : mem V),
  0 < nb -> 0 <= m -> 0 <= n -> Z.max 1 m <= lda -> fst pA <> bA -> legal_pivots ipiv n ->
  driver_ensures (zgeswp nb PlasmaColumnwise m n pA lda pI ipiv (-1) bA) M (fun M' =>
    (forall i j, in_matrix m n i j ->
       ul M' pA lda i j = ul M pA lda i (source (rev (interchanges ipiv (Z.to_nat n))) j)) /\
    (forall l, fst l <> bA -> ~ in_user pA lda m n l -> M' l = M l)).
Proof. exact @columns_backward. Qed.
Print Assumptions C24_columns_backward.

(* Forward, then backward: the matrix is what it was. *)
Theorem C24_rows_restored : forall V nb m n pA lda pI ipiv bA (M : mem V),
  0 < nb -> 0 <= m -> 0 <= n -> Z.max 1 m <= lda -> fst pA <> bA -> legal_pivots ipiv m ->
  driver_ensures (zgeswp nb PlasmaRowwise m n pA lda pI ipiv 1 bA) M (fun M1 =>
    driver_ensures (zgeswp nb PlasmaRowwise m n pA lda pI ipiv (-1) bA) M1 (fun M2 =>
      (forall i j, in_matrix m n i j -> ul M2 pA lda i j = ul M pA lda i j) /\
      (forall l, fst l <> bA -> ~ in_user pA lda m n l -> M2 l = M l))).
Proof. exact @rows_restored. Qed.
Print Assumptions C24_rows_restored.

Theorem C24_columns_restored : forall V nb m n pA lda pI ipiv bA (M : mem V),
  0 < nb -> 0 <= m -> 0 <= n -> Z.max 1 m <= lda -> fst pA <> bA -> legal_pivots ipiv n ->
  driver_ensures (zgeswp nb PlasmaColumnwise m n pA lda pI ipiv 1 bA) M (fun M1 =>
    driver_ensures (zgeswp nb PlasmaColumnwise m n pA lda pI ipiv (-1) bA) M1 (fun M2 =>
      (forall i j, in_matrix m n i j -> ul M2 pA lda i j = ul M pA lda i j) /\
      (forall l, fst l <> bA -> ~ in_user pA lda m n l -> M2 l = M l))).
Proof. exact @columns_restored. Qed.
Print Assumptions C24_columns_restored.

(* A legal pivot vector on a 7 x 3 matrix in tiles of 2 (4 tile rows, the last one cut),
   with interchanges (0 6), (2 5), (3 4), (4 6) across tiles. The first row of
   the result is row 6; what the tasks compute in submission order agrees, and the order of
   the interchanges matters (backward gives another matrix). *)
Example C24_case : legal_pivots ex_ipiv 7 /\
  map (source (interchanges ex_ipiv 7)) [0; 1; 2; 3; 4; 5; 6] = [6; 1; 5; 4; 0; 2; 3] /\
  map (source (rev (interchanges ex_ipiv 7))) [0; 1; 2; 3; 4; 5; 6] = [4; 1; 5; 6; 3; 2; 0] /\
  exists ks, zgeswp 2 PlasmaRowwise 7 3 (0, 0) 9 (2, 0) ex_ipiv 1 1 = Runs ks /\ length ks = 26%nat /\
    map (fun i => krun ks (fun l => 100 * fst l + snd l) (0, 9 + i)) [0; 1; 2; 3; 4; 5; 6; 7; 8]
    = [15; 10; 14; 13; 9; 11; 12; 16; 17].
Proof.
  split; [exact ex_legal|]. split; [reflexivity|]. split; [reflexivity|].
  eexists. split; [reflexivity|]. split; [reflexivity|]. vm_compute. reflexivity.
Qed.

Example C24_columns_case : legal_pivots ex_ipiv 7 /\
  exists ks, zgeswp 2 PlasmaColumnwise 3 7 (0, 0) 4 (2, 0) ex_ipiv (-1) 1 = Runs ks /\ length ks = 26%nat /\
    map (fun j => krun ks (fun l => 100 * fst l + snd l) (0, 1 + 4 * j)) [0; 1; 2; 3; 4; 5; 6]
    = [17; 5; 21; 25; 13; 9; 1].
Proof.
  split; [exact ex_legal|]. eexists. split; [reflexivity|]. split; [reflexivity|]. vm_compute. reflexivity.
Qed.

(* C34. Calls of asynchronous routines in one sequence should take effect in the order of
   the calls. This fails for plasma_omp_zgeswp: its empty tasks wait for the tiles of a
   column with an in clause, which does not wait for an earlier task that only reads the
   tile. Here plasma_omp_zdesc2ge copies a 3 x 1 matrix (tiles of size 1) to the user and
   plasma_omp_zgeswp then exchanges its rows 1 and 2: there is an execution after which the
   user does not have the matrix that was to be copied. *)
Theorem C34_reader_overtaken_refuted : exists nb m n ipiv (M : mem Z) A,
  ge_create nb m n = CrOk A (m * n) /\ legal_pivots ipiv m /\
  ~ region_ensures (pzdesc2ge 1 A (0, 0) m ++ omp_async_zgeswp PlasmaRowwise 1 A (2, 0) ipiv 1) M
      (fun M' => forall i j, in_matrix m n i j -> ul M' (0, 0) m i j = el M 1 A i j).
Proof. exact reader_overtaken. Qed.
Print Assumptions C34_reader_overtaken_refuted.
