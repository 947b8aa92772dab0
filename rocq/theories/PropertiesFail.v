(* C57: the right hand sides after a failed factorization. *)
From Coq Require Import ZArith List Bool Lia.
From Verif Require Import Base NumModel NumProofs FieldModel FieldInstances RootInstances TaskModel TaskSpec DescModel DescSpec MatModel
  MatSpec DriverModel DriverSpec TriModel TriSpec GuardModel GuardSpec GuardProofs PotrfModel PotrfSpec BandModel BandSpec PosvModel PbtrsModel
  PosvFailProofs PbsvFailProofs PbsvRefProofs.
Import ListNotations.
Open Scope Z_scope.

(* If plasma_zposv returns anything but 0 for legal arguments, only the triangle uplo of A can have
   changed: B is as it was, whatever the tile size and the schedule. *)
Theorem C57_zposv_failure : forall (F : fields) (R : roots F) (rp : F -> F) S nb uplo n nrhs pA lda pB ldb bA bB M,
  (forall x, nconj x = x -> rp x = x) ->
  0 < nb -> valid_uplo uplo -> 0 <= n -> 0 <= nrhs -> Z.max 1 n <= lda -> Z.max 1 n <= ldb ->
  NoDup [bA; bB] -> (forall b, In b [fst pA; fst pB] -> ~ In b [bA; bB]) ->
  apart pA lda n n pB ldb n nrhs ->
  is_hermitian M uplo pA lda n S ->
  gdriver_ensures (zposv R rp nb uplo n nrhs pA lda pB ldb bA bB) M (fun M' st =>
    st <> 0 -> forall l, ~ In (fst l) [bA; bB] -> ~ in_triangle uplo pA lda n l -> M' l = M l).
Proof. exact (fun F R rp S nb uplo n nrhs pA lda pB ldb bA bB M H => zposv_fails R rp H S nb uplo n nrhs pA lda pB ldb bA bB M). Qed.
Print Assumptions C57_zposv_failure.

(* The same for plasma_zpbsv and bands with at least one diagonal beside the main one: if it
   returns anything but 0, only the band has changed. *)
Theorem C57_zpbsv_failure : forall (F : fields) (R : roots F) (rp : F -> F) nb uplo n kd nrhs pA ld pB ldb bA bB M,
  0 < nb -> valid_uplo uplo -> 0 < kd < n -> 0 <= nrhs -> kd < ld -> n <= ldb ->
  NoDup [bA; bB] -> (forall b, In b [fst pA; fst pB] -> ~ In b [bA; bB]) ->
  (forall l, in_user_band uplo kd pA ld n l -> ~ in_user pB ldb n nrhs l) ->
  gdriver_ensures (zpbsv R rp nb uplo n kd nrhs pA ld pB ldb bA bB) M (fun M' st =>
    st <> 0 -> forall l, ~ In (fst l) [bA; bB] -> ~ in_user_band uplo kd pA ld n l -> M' l = M l).
Proof. exact (@zpbsv_fails). Qed.
Print Assumptions C57_zpbsv_failure.

(* For a diagonal matrix (kd = 0) it is false: rows of B are solved and written back although
   plasma_zpbsv returns the number of a diagonal element that is not positive. *)
Theorem C57_zpbsv_diagonal_refuted : exists nb uplo n nrhs pA ld pB ldb bA bB M (S : Z -> Z -> QI_fields),
  0 < nb /\ valid_uplo uplo /\ 0 < n /\ 0 < nrhs /\ 0 < ld /\ n <= ldb /\ NoDup [bA; bB] /\
  (forall b, In b [fst pA; fst pB] -> ~ In b [bA; bB]) /\
  (forall l, in_user_band uplo 0 pA ld n l -> ~ in_user pB ldb n nrhs l) /\
  is_hermitian_band M uplo 0 pA ld n S /\
  ~ gdriver_ensures (zpbsv QI_roots qre nb uplo n 0 nrhs pA ld pB ldb bA bB) M (fun M' st =>
      st <> 0 -> forall i j, in_matrix n nrhs i j -> ul M' pB ldb i j = ul M pB ldb i j).
Proof. exact zpbsv_diagonal_overwrites. Qed.
Print Assumptions C57_zpbsv_diagonal_refuted.

(* A case with tiles of order 1: A = (4 2; 2 -1), B = (2, 2). The second diagonal tile fails with
   code 2. Without the tests of the status the first row of B would be overwritten: all tasks
   together leave something else than 2 in it. *)
Definition fail_mem : mem QI_fields := fun l =>
  if fst l =? 0 then nth (Z.to_nat (snd l)) [qi 4 0; qi 2 0; qi 7 0; qi (-1) 0] n0 else qi 2 0.
Definition fail_S (i j : Z) : QI_fields := if i =? j then (if i =? 0 then qi 4 0 else qi (-1) 0) else qi 2 0.

Lemma fail_hermitian : is_hermitian fail_mem PlasmaLower (0, 0) 2 2 fail_S.
Proof.
  split.
  - intros i j [Hi Hj] [[E _]|[_ H]]; [discriminate E|].
    assert (C : (i = 0 /\ j = 0) \/ (i = 1 /\ j = 0) \/ (i = 1 /\ j = 1)) by lia.
    destruct C as [[-> ->]|[[-> ->]|[-> ->]]]; reflexivity.
  - intros i j _. unfold fail_S. rewrite (Z.eqb_sym j i). destruct (Z.eqb_spec i j) as [->|N].
    + destruct (j =? 0); apply (neqb_eq QI_fields); vm_compute; reflexivity.
    + apply (neqb_eq QI_fields); vm_compute; reflexivity.
Qed.

Example C57_case : is_hermitian fail_mem PlasmaLower (0, 0) 2 2 fail_S /\ apart (0, 0) 2 2 2 (1, 0) 2 2 1 /\
  exists ks, zposv QI_roots qre 1 PlasmaLower 2 1 (0, 0) 2 (1, 0) 2 2 3 = GRuns ks /\
  filter (fun c => negb (c =? 0)) (kcodes ks fail_mem) = [2] /\
  neqb (krun (map ck_task ks) fail_mem (1, 0)) (fail_mem (1, 0)) = false.
Proof.
  split; [exact fail_hermitian|]. split.
  - intros l (i & j & _ & _ & E) (i' & j' & _ & _ & E'). rewrite E in E'. discriminate E'.
  - eexists. split; [reflexivity|]. split; lazy; reflexivity.
Qed.

(* the same matrix as a band with kd = 1: columns (4, 2) and (-1, 7) *)
Definition fail_band : mem QI_fields := fun l =>
  if fst l =? 0 then nth (Z.to_nat (snd l)) [qi 4 0; qi 2 0; qi (-1) 0; qi 7 0] n0 else qi 2 0.

Example C57_band_case :
  (forall l, in_user_band PlasmaLower 1 (0, 0) 2 2 l -> ~ in_user (1, 0) 2 2 1 l) /\
  exists ks, zpbsv QI_roots qre 1 PlasmaLower 2 1 1 (0, 0) 2 (1, 0) 2 2 3 = GRuns ks /\
  filter (fun c => negb (c =? 0)) (kcodes ks fail_band) = [2] /\
  neqb (krun (map ck_task ks) fail_band (1, 0)) (fail_band (1, 0)) = false.
Proof.
  split.
  - intros l (i & j & _ & _ & E) (i' & j' & _ & _ & E'). rewrite E in E'. discriminate E'.
  - eexists. split; [reflexivity|]. split; lazy; reflexivity.
Qed.
