(* C27: element-wise operations. *)
From Coq Require Import ZArith List Lia.
From Verif Require Import Base NumModel NumInstances FieldModel FieldInstances TaskModel TaskSpec DescModel
  DescSpec MatModel MatSpec DriverModel DriverSpec EwModel EwSpec EwDriverProofs.
Import ListNotations.
Open Scope Z_scope.

(* Throughout: every tile size nb, every legal argument, every schedule. bA, bB are the
   temporary tile matrices. *)

(* B := alpha*op(A) + beta*B, and no other user memory changes -- A included, although the
   driver translates it back. *)
Theorem C27_zgeadd : forall (N : numbers) nb transa m n (alpha : N) pA lda beta pB ldb bA bB (M : mem N),
  let am := if transa =? PlasmaNoTrans then m else n in
  let an := if transa =? PlasmaNoTrans then n else m in
  0 < nb -> valid_trans transa -> 0 <= m -> 0 <= n -> Z.max 1 am <= lda -> Z.max 1 m <= ldb ->
  NoDup [bA; bB] -> (forall b, In b [fst pA; fst pB] -> ~ In b [bA; bB]) ->
  apart pA lda am an pB ldb m n ->
  driver_ensures (zgeadd nb transa m n alpha pA lda beta pB ldb bA bB) M (fun M' =>
    (forall i j, in_matrix m n i j ->
       ul M' pB ldb i j = nadd (nmul alpha (op_ul M transa pA lda i j)) (nmul beta (ul M pB ldb i j))) /\
    (forall l, ~ In (fst l) [bA; bB] -> ~ in_user pB ldb m n l -> M' l = M l)).
Proof. exact @zgeadd_all. Qed.
Print Assumptions C27_zgeadd.

(* the same on the upper or lower trapezoid only; the rest of B keeps its value *)
Theorem C27_ztradd : forall (N : numbers) nb transa m n (alpha : N) pA lda beta pB ldb bA bB (M : mem N),
  let am := if transa =? PlasmaNoTrans then m else n in
  let an := if transa =? PlasmaNoTrans then n else m in
  0 < nb -> valid_trans transa -> 0 <= m -> 0 <= n -> Z.max 1 am <= lda -> Z.max 1 m <= ldb ->
  NoDup [bA; bB] -> (forall b, In b [fst pA; fst pB] -> ~ In b [bA; bB]) ->
  apart pA lda am an pB ldb m n -> forall uplo, valid_uplo uplo ->
  driver_ensures (ztradd nb uplo transa m n alpha pA lda beta pB ldb bA bB) M (fun M' =>
    (forall i j, in_matrix m n i j -> selects uplo i j ->
       ul M' pB ldb i j = nadd (nmul alpha (op_ul M transa pA lda i j)) (nmul beta (ul M pB ldb i j))) /\
    (forall i j, in_matrix m n i j -> ~ selects uplo i j -> ul M' pB ldb i j = ul M pB ldb i j) /\
    (forall l, ~ In (fst l) [bA; bB] -> ~ in_user pB ldb m n l -> M' l = M l)).
Proof. exact @ztradd_main. Qed.
Print Assumptions C27_ztradd.

(* the selected part of A arrives in B, transposed when asked *)
Theorem C27_zlacpy : forall (N : numbers) nb uplo transa m n pA lda pB ldb bA bB (M : mem N),
  0 < nb -> valid_part uplo -> valid_trans transa -> 0 <= m -> 0 <= n ->
  (transa <> PlasmaNoTrans -> m = n) ->
  Z.max 1 m <= lda -> Z.max 1 m <= ldb -> NoDup [bA; bB] ->
  (forall b, In b [fst pA; fst pB] -> ~ In b [bA; bB]) ->
  apart pA lda m n pB ldb m n ->
  driver_ensures (zlacpy nb uplo transa m n pA lda pB ldb bA bB) M (fun M' =>
    (forall i j, in_matrix m n i j -> in_part uplo i j ->
       if transa =? PlasmaNoTrans then ul M' pB ldb i j = ul M pA lda i j
       else if transa =? PlasmaTrans then ul M' pB ldb j i = ul M pA lda i j
       else ul M' pB ldb j i = nconj (ul M pA lda i j)) /\
    (forall i j, in_matrix m n i j -> ~ in_part uplo i j ->
       if transa =? PlasmaNoTrans then ul M' pB ldb i j = ul M pB ldb i j
       else ul M' pB ldb j i = ul M pB ldb j i) /\
    (forall l, ~ In (fst l) [bA; bB] -> ~ in_user pB ldb m n l -> M' l = M l)).
Proof. exact zlacpy_main. Qed.
Print Assumptions C27_zlacpy.

(* the selected elements are multiplied by cto/cfrom *)
Theorem C27_zlascl : forall (F : fields) nb uplo (cfrom cto : F) m n pA lda bA (M : mem F),
  0 < nb -> valid_part uplo -> cfrom <> n0 -> 0 <= m -> 0 <= n -> Z.max 1 m <= lda -> fst pA <> bA ->
  driver_ensures (zlascl nb uplo cfrom cto m n pA lda bA) M (fun M' =>
    (forall i j, in_matrix m n i j -> in_part uplo i j ->
       nmul cfrom (ul M' pA lda i j) = nmul cto (ul M pA lda i j)) /\
    (forall i j, in_matrix m n i j -> ~ in_part uplo i j -> ul M' pA lda i j = ul M pA lda i j) /\
    (forall l, fst l <> bA -> ~ in_user pA lda m n l -> M' l = M l)).
Proof. exact zlascl_main. Qed.
Print Assumptions C27_zlascl.

(* the selected elements become alpha, the diagonal beta *)
Theorem C27_zlaset : forall (N : numbers) nb uplo m n (alpha beta : N) pA lda bA (M : mem N),
  0 < nb -> valid_part uplo -> 0 <= m -> 0 <= n -> Z.max 1 m <= lda -> fst pA <> bA ->
  driver_ensures (zlaset nb uplo m n alpha beta pA lda bA) M (fun M' =>
    (forall i j, in_matrix m n i j -> in_part uplo i j -> i <> j -> ul M' pA lda i j = alpha) /\
    (forall i, in_matrix m n i i -> ul M' pA lda i i = beta) /\
    (forall i j, in_matrix m n i j -> ~ in_part uplo i j -> ul M' pA lda i j = ul M pA lda i j) /\
    (forall l, fst l <> bA -> ~ in_user pA lda m n l -> M' l = M l)).
Proof. exact zlaset_main. Qed.
Print Assumptions C27_zlaset.

(* 5 x 3 upper trapezoid from a conjugate-transposed 3 x 5 matrix, 2 x 2 tiles, both
   matrices in block 0: tile rows and columns with remainders; element (0,2) gets
   (2+i)*conj(A(2,0)) + i*B(0,2) and element (2,0) keeps its value *)
Definition ew_mem : mem G_numbers := fun l => (snd l, fst l - 1).
Definition ex_tradd : driver G_numbers :=
  ztradd 2 PlasmaUpper PlasmaConjTrans 5 3 ((2, 1) : G_numbers) (0, 0) 4 ((0, 1) : G_numbers) (0, 40) 6 1 2.
Example C27_tradd_case : apart (0, 0) 4 3 5 (0, 40) 6 5 3 /\
  exists ks, ex_tradd = Runs ks /\ length ks = 27%nat /\
    krun ks ew_mem (0, 52) = (4, 56) /\ krun ks ew_mem (0, 42) = ew_mem (0, 42).
Proof.
  split.
  - intros l (i & j & H1 & H2 & ->) (i' & j' & H1' & H2' & E). injection E as E. cbn in E. lia.
  - eexists. split; [reflexivity|]. split; [reflexivity|]. split; reflexivity.
Qed.

Example C27_geadd_case : exists ks,
  zgeadd 2 PlasmaTrans 5 3 ((2, 1) : G_numbers) (0, 0) 4 ((0, 1) : G_numbers) (0, 40) 6 1 2 = Runs ks /\
  length ks = 30%nat /\ krun ks ew_mem (0, 42) = (18, 48).
Proof. eexists. split; [reflexivity|]. split; [reflexivity|]. vm_compute. reflexivity. Qed.

(* lower triangle of a 3 x 3 matrix copied conjugate-transposed: A(2,0) goes to B(0,2), and
   B(2,0) keeps its value *)
Example C27_lacpy_case : apart (0, 0) 4 3 3 (0, 40) 6 3 3 /\ exists ks,
  zlacpy (N := G_numbers) 2 PlasmaLower PlasmaConjTrans 3 3 (0, 0) 4 (0, 40) 6 1 2 = Runs ks /\
  length ks = 15%nat /\
  krun ks ew_mem (0, 52) = nconj (ew_mem (0, 2)) /\ krun ks ew_mem (0, 42) = ew_mem (0, 42).
Proof.
  split.
  - intros l (i & j & H1 & H2 & ->) (i' & j' & H1' & H2' & E). injection E as E. cbn in E. lia.
  - eexists. split; [reflexivity|]. split; [reflexivity|]. split; reflexivity.
Qed.

Example C27_lascl_case : qi 2 0 <> n0 /\ exists ks,
  zlascl (F := QI_fields) 2 PlasmaUpper (qi 2 0) (qi 3 0) 3 5 (0, 0) 4 1 = Runs ks /\ length ks = 17%nat /\
  neqb (krun ks (fun l => qi (snd l) 0) (0, 8)) (qi 12 0) = true /\
  neqb (krun ks (fun l => qi (snd l) 0) (0, 2)) (qi 2 0) = true.
Proof.
  split; [intros H; discriminate|].
  eexists. split; [reflexivity|]. split; [reflexivity|]. split; vm_compute; reflexivity.
Qed.

Example C27_laset_case : exists ks,
  zlaset 2 PlasmaLower 3 5 ((7, 0) : G_numbers) ((1, 1) : G_numbers) (0, 0) 4 1 = Runs ks /\
  krun ks ew_mem (0, 2) = (7, 0) /\ krun ks ew_mem (0, 10) = (1, 1) /\ krun ks ew_mem (0, 8) = ew_mem (0, 8).
Proof. eexists. split; [reflexivity|]. split; [reflexivity|]. split; reflexivity. Qed.
