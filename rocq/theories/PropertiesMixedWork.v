(* C66: the workspace of the mixed precision drivers. *)
From Coq Require Import ZArith List Bool Lia.
From Verif Require Import Base NumModel FieldModel TaskModel TaskSpec DescModel DescDriverModel
  NormModel NormSpec NormInstances MixedWorkModel MixedWorkProofs.
Import ListNotations.
Open Scope Z_scope.

(* plasma_zcgesv: if the two sizes fit into int, every task that computes a norm stays inside of the
   workspace. *)
Theorem C66_zcgesv_workspace : forall (N : normed) lassq nsqrt nb n nrhs A sA X sX R sR bA bX bR bW anorm xnorm rnorm,
  0 < nb -> 0 < n -> 0 < nrhs ->
  ge_create nb n n = CrOk A sA -> ge_create nb n nrhs = CrOk X sX -> ge_create nb n nrhs = CrOk R sR ->
  bA <> bW -> bX <> bW -> bR <> bW -> fst anorm <> bW -> fst xnorm <> bW -> fst rnorm <> bW ->
  (n + nb - 1) / nb * n + n < 2 ^ 31 -> 2 * ((n + nb - 1) / nb * nrhs) < 2 ^ 31 ->
  forall ks, In ks (@zcgesv_norms N lassq nsqrt bA A bX X bR R bW anorm xnorm rnorm) ->
  forall k, In k ks -> within bW (zcgesv_lwork A X R) k.
Proof. exact zcgesv_workspace. Qed.
Print Assumptions C66_zcgesv_workspace.

(* plasma_zcposv: the same. *)
Theorem C66_zcposv_workspace : forall (N : normed) lassq nsqrt dg uplo nb n nrhs A sA X sX R sR bA bX bR bW anorm xnorm rnorm,
  0 < nb -> 0 < n -> 0 < nrhs ->
  ge_create nb n n = CrOk A sA -> ge_create nb n nrhs = CrOk X sX -> ge_create nb n nrhs = CrOk R sR ->
  bA <> bW -> bX <> bW -> bR <> bW -> fst anorm <> bW -> fst xnorm <> bW -> fst rnorm <> bW ->
  (n + nb - 1) / nb * n + n < 2 ^ 31 -> 2 * ((n + nb - 1) / nb * nrhs) < 2 ^ 31 ->
  forall ks, In ks (@zcposv_norms N lassq nsqrt dg uplo bA A bX X bR R bW anorm xnorm rnorm) ->
  forall k, In k ks -> within bW (zcgesv_lwork A X R) k.
Proof. exact zcposv_workspace. Qed.
Print Assumptions C66_zcposv_workspace.

(* plasma_zcgbsv: the same with the size for a band matrix. *)
Theorem C66_zcgbsv_workspace : forall (N : normed) lassq nsqrt nb n nrhs kl ku A sA X sX R sR bA bX bR bW anorm xnorm rnorm,
  0 < nb -> 0 < n -> 0 < nrhs -> 0 <= kl -> 0 <= ku ->
  gb_create nb n n kl ku = CrOk A sA -> ge_create nb n nrhs = CrOk X sX -> ge_create nb n nrhs = CrOk R sR ->
  bA <> bW -> bX <> bW -> bR <> bW -> fst anorm <> bW -> fst xnorm <> bW -> fst rnorm <> bW ->
  (n + nb - 1) / nb * ((n + nb - 1) / nb) * nb + nb * ((n + nb - 1) / nb) < 2 ^ 31 -> 2 * ((n + nb - 1) / nb * nrhs) < 2 ^ 31 ->
  forall ks, In ks (@zcgbsv_norms N lassq nsqrt bA A bX X bR R bW anorm xnorm rnorm) ->
  forall k, In k ks -> within bW (zcgbsv_lwork A X R) k.
Proof. exact zcgbsv_workspace. Qed.
Print Assumptions C66_zcgbsv_workspace.

(* matrices of order 5 with tiles of 2, three right-hand sides: 20 and 24 doubles are allocated.
   The norms of plasma_zcgesv are 24 tasks in six phases. *)
Example C66_small :
  exists A sA AB sAB X sX, ge_create 2 5 5 = CrOk A sA /\ gb_create 2 5 5 1 2 = CrOk AB sAB /\ ge_create 2 5 3 = CrOk X sX /\
  (5 + 2 - 1) / 2 * 5 + 5 < 2 ^ 31 /\ 2 * ((5 + 2 - 1) / 2 * 3) < 2 ^ 31 /\
  (5 + 2 - 1) / 2 * ((5 + 2 - 1) / 2) * 2 + 2 * ((5 + 2 - 1) / 2) < 2 ^ 31 /\
  zcgesv_lwork A X X = 20 /\ zcgbsv_lwork AB X X = 24 /\
  forall (N : normed) lassq nsqrt, map (@length _) (@zcgesv_norms N lassq nsqrt 0 A 1 X 2 X 3 (4, 0) (5, 0) (6, 0)) = [9; 1; 6; 1; 6; 1]%nat.
Proof.
  do 6 eexists. split; [lazy; reflexivity|]. split; [lazy; reflexivity|]. split; [lazy; reflexivity|].
  split; [lazy; reflexivity|]. split; [lazy; reflexivity|]. split; [lazy; reflexivity|]. split; [lazy; reflexivity|].
  split; [lazy; reflexivity|]. intros. lazy. reflexivity.
Qed.

(* The sizes are computed as size_t, but imax takes int. plasma_zcgbsv with the default tile size 256,
   a tridiagonal matrix of order less than 2^20 and one right-hand side writes past the end of the
   workspace. *)
Theorem C66_zcgbsv_overflow_refuted : exists nb n nrhs kl ku A sA X sX R sR, nb = 256 /\ 0 < n < 2 ^ 20 /\ nrhs = 1 /\ kl = 1 /\ ku = 1 /\
  gb_create nb n n kl ku = CrOk A sA /\ ge_create nb n nrhs = CrOk X sX /\ ge_create nb n nrhs = CrOk R sR /\
  forall (N : normed) lassq nsqrt bA bX bR bW anorm xnorm rnorm,
  exists ks k l, In ks (@zcgbsv_norms N lassq nsqrt bA A bX X bR R bW anorm xnorm rnorm) /\ In k ks /\
    fst l = bW /\ k_writes k l /\ zcgbsv_lwork A X R <= snd l.
Proof. exact zcgbsv_overflow. Qed.
Print Assumptions C66_zcgbsv_overflow_refuted.

(* plasma_zcgesv does so for tiles of order 1 and n = 46341. *)
Theorem C66_zcgesv_overflow_refuted : exists nb n nrhs A sA X sX R sR, 0 < nb /\ 0 < n < 2 ^ 31 /\ 0 < nrhs /\
  ge_create nb n n = CrOk A sA /\ ge_create nb n nrhs = CrOk X sX /\ ge_create nb n nrhs = CrOk R sR /\
  forall (N : normed) lassq nsqrt bA bX bR bW anorm xnorm rnorm,
  exists ks k l, In ks (@zcgesv_norms N lassq nsqrt bA A bX X bR R bW anorm xnorm rnorm) /\ In k ks /\
    fst l = bW /\ k_writes k l /\ zcgesv_lwork A X R <= snd l.
Proof. exact zcgesv_overflow. Qed.
Print Assumptions C66_zcgesv_overflow_refuted.

(* So does plasma_zcposv. *)
Theorem C66_zcposv_overflow_refuted : exists nb n nrhs A sA X sX R sR, 0 < nb /\ 0 < n < 2 ^ 31 /\ 0 < nrhs /\
  ge_create nb n n = CrOk A sA /\ ge_create nb n nrhs = CrOk X sX /\ ge_create nb n nrhs = CrOk R sR /\
  forall (N : normed) lassq nsqrt dg uplo bA bX bR bW anorm xnorm rnorm,
  exists ks k l, In ks (@zcposv_norms N lassq nsqrt dg uplo bA A bX X bR R bW anorm xnorm rnorm) /\ In k ks /\
    fst l = bW /\ k_writes k l /\ zcgesv_lwork A X R <= snd l.
Proof. exact zcposv_overflow. Qed.
Print Assumptions C66_zcposv_overflow_refuted.
