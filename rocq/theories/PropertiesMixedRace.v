(* C67: the norms that plasma_zcgesv computes share a workspace. *)
From Coq Require Import ZArith List Bool Lia QArith Qcanon.
From Verif Require Import Base NumModel NumInstances FieldModel TaskModel TaskSpec DescModel DescDriverModel
  MatModel GemmModel NormModel NormInstances MixedRaceModel MixedRaceProofs.
Import ListNotations.
Open Scope Z_scope.

(* If A is a single tile, and X is too or the tile is at least twice as large as A, every task of
   plasma_pdzamax for X that conflicts with the last task of the norm of A is ordered after it by their
   depend clauses. *)
Theorem C67_small_ordered : forall (N : normed) nb n nrhs A X sA sX bX bW anorm,
  0 < nb -> 0 < n -> 0 < nrhs -> ge_create nb n n = CrOk A sA -> ge_create nb n nrhs = CrOk X sX ->
  bX <> bW -> fst anorm <> bW -> fst anorm <> bX ->
  n <= nb -> nrhs <= nb \/ 2 * n <= nb ->
  forall k, In k (@amax_col_tiles N bX X (bW, 0)) -> kconflict (lange_last A bW anorm) k ->
    deps_order (k_deps (@lange_last N A bW anorm)) (k_deps k).
Proof. exact @ordered_pairs. Qed.
Print Assumptions C67_small_ordered.

(* In all other cases they are not: some task of plasma_pdzamax writes what the last task of the norm
   of A reads or writes, and nothing orders the two, directly or through the tasks between them, as
   long as these do not name the workspace or the norm in a depend clause. *)
Theorem C67_norms_unordered : forall (N : normed) nb n nrhs A X sA sX bX bW anorm (mid : list (ktask N)),
  0 < nb -> 0 < n -> 0 < nrhs -> ge_create nb n n = CrOk A sA -> ge_create nb n nrhs = CrOk X sX ->
  bX <> bW -> fst anorm <> bW -> fst anorm <> bX ->
  (forall k d, In k mid -> In d (k_deps k) -> fst (dep_addr d) <> bW /\ dep_addr d <> anorm) ->
  nb < n \/ (nb < nrhs /\ nb < 2 * n) -> ~ klinked (norms_phase (lange_last A bW anorm) mid bX X bW).
Proof. exact @races. Qed.
Print Assumptions C67_norms_unordered.

(* The default tile size and n = 300. *)
Theorem C67_norms_ordered_refuted : exists nb n nrhs A sA X sX, 0 < nb /\ 0 < n /\ 0 < nrhs /\
  ge_create nb n n = CrOk A sA /\ ge_create nb n nrhs = CrOk X sX /\
  forall (N : normed) bX bW anorm (mid : list (ktask N)), bX <> bW -> fst anorm <> bW -> fst anorm <> bX ->
  (forall k d, In k mid -> In d (k_deps k) -> fst (dep_addr d) <> bW /\ dep_addr d <> anorm) ->
  ~ klinked (norms_phase (lange_last A bW anorm) mid bX X bW).
Proof. exact zcgesv_race. Qed.
Print Assumptions C67_norms_ordered_refuted.

(* the hypotheses hold for the four tasks of R = R - A*X of a matrix of order 2 with tiles of order 1;
   for tiles of order 2 there is one task of plasma_pdzamax *)
Example C67_tasks_between : exists A sA X sX Y sY,
  ge_create 1 2 2 = CrOk A sA /\ ge_create 1 2 1 = CrOk X sX /\ ge_create 2 2 1 = CrOk Y sY /\
  (let mid := pzgemm (N := Q_normed) PlasmaNoTrans PlasmaNoTrans (Q2Qc (-1)) 0 A 1 X n1 2 X in
   length mid = 4%nat /\
   forall k d, In k mid -> In d (k_deps k) -> fst (dep_addr d) <> 3 /\ dep_addr d <> (4, 0)) /\
  length (@amax_col_tiles Q_normed 1 X (3, 0)) = 2%nat /\ length (@amax_col_tiles Q_normed 1 Y (3, 0)) = 1%nat.
Proof.
  do 6 eexists. split; [lazy; reflexivity|]. split; [lazy; reflexivity|]. split; [lazy; reflexivity|]. split.
  - split; [vm_compute; reflexivity|]. intros k d Hk Hd. apply (in_map k_deps) in Hk. revert Hd. generalize dependent (k_deps k).
    intros ds Hk. lazy in Hk. destruct Hk as [<-|[<-|[<-|[<-|[]]]]]; intros [<-|[<-|[<-|[]]]]; split; lazy; discriminate.
  - split; vm_compute; reflexivity.
Qed.
