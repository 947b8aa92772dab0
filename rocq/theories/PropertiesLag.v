(* C56: conversion between double and single precision. *)
From Coq Require Import ZArith List Bool Lia.
From Verif Require Import Base NumModel TaskModel TaskSpec DescModel DescSpec MatModel MatSpec GuardModel GuardSpec
  LayoutModel DriverModel DriverSpec GuardProofs PotrfModel PotrfSpec LagModel LagDriverProofs.
Import ListNotations.
Open Scope Z_scope.

(* plasma_zlag2c returns 0 if every element is in the range of single precision and 1 otherwise,
   on every schedule. The converted matrix is complete in the first case; in the other one each
   element of it is converted or untouched. The matrix in double precision is never changed. *)
Theorem C56_zlag2c : forall (V : Type) (narrow : V -> V) (fits : V -> bool) nb m n pA lda pS ldas bA bS (M : mem V),
  0 < nb -> 0 <= m -> 0 <= n -> Z.max 1 m <= lda -> Z.max 1 m <= ldas -> NoDup [bA; bS] ->
  (forall b, In b [fst pA; fst pS] -> ~ In b [bA; bS]) -> apart pA lda m n pS ldas m n ->
  gdriver_ensures (zlag2c narrow fits nb m n pA lda pS ldas bA bS) M (fun M' st =>
    (st = 0 \/ st = 1) /\
    (st = 0 <-> forall i j, in_matrix m n i j -> fits (ul M pA lda i j) = true) /\
    (st = 0 -> forall i j, in_matrix m n i j -> ul M' pS ldas i j = narrow (ul M pA lda i j)) /\
    (forall i j, in_matrix m n i j ->
       ul M' pS ldas i j = ul M pS ldas i j \/ ul M' pS ldas i j = narrow (ul M pA lda i j)) /\
    (forall i j, in_matrix m n i j -> ul M' pA lda i j = ul M pA lda i j) /\
    (forall l, ~ In (fst l) [bA; bS] -> ~ in_user pS ldas m n l -> M' l = M l)).
Proof. exact zlag2c_main. Qed.
Print Assumptions C56_zlag2c.

(* plasma_clag2z converts every element and changes nothing else *)
Theorem C56_clag2z : forall (V : Type) (widen : V -> V) nb m n pS ldas pA lda bS bA (M : mem V),
  0 < nb -> 0 <= m -> 0 <= n -> Z.max 1 m <= ldas -> Z.max 1 m <= lda -> NoDup [bS; bA] ->
  (forall b, In b [fst pS; fst pA] -> ~ In b [bS; bA]) -> apart pS ldas m n pA lda m n ->
  driver_ensures (clag2z widen nb m n pS ldas pA lda bS bA) M (fun M' =>
    (forall i j, in_matrix m n i j -> ul M' pA lda i j = widen (ul M pS ldas i j)) /\
    (forall l, ~ In (fst l) [bS; bA] -> ~ in_user pA lda m n l -> M' l = M l)).
Proof. exact clag2z_main. Qed.
Print Assumptions C56_clag2z.

(* 3 x 5 matrices with tiles of order 2, six tiles each; numbers are integers, narrow drops the
   last digit, and numbers from 10000 on are too large *)
Definition lag_mem : mem Z := fun l => if fst l =? 0 then snd l * 11 else 7.
Definition lag_narrow (x : Z) : Z := x / 10 * 10.
Definition lag_fits (x : Z) : bool := x <? 10000.

Example C56_case : apart (0, 0) 4 3 5 (0, 40) 6 3 5 /\
  (forall i j, in_matrix 3 5 i j -> lag_fits (ul lag_mem (0, 0) 4 i j) = true) /\
  exists ks, zlag2c lag_narrow lag_fits 2 3 5 (0, 0) 4 (0, 40) 6 1 2 = GRuns ks /\
  length ks = 30%nat /\ Forall (fun c => c = 0) (kcodes ks lag_mem) /\
  krun (map ck_task ks) lag_mem (0, 66) = lag_narrow (lag_mem (0, 18)) /\ lag_mem (0, 18) = 198 /\
  lag_narrow 198 = 190.
Proof.
  split.
  - intros l (i & j & H1 & H2 & ->) (i' & j' & H1' & H2' & E). injection E as E. cbn in E. lia.
  - split.
    + intros i j [Hi Hj]. unfold lag_fits, ul, lag_mem. cbn. apply Z.ltb_lt. lia.
    + eexists. split; [reflexivity|]. split; [reflexivity|]. split; [vm_compute; repeat constructor|].
      split; [vm_compute; reflexivity|]. split; reflexivity.
Qed.

(* the element (1,1) is too large: its tile is the only one to fail, and the first column of this
   tile has been converted *)
Definition lag_mem2 : mem Z := fun l => if loc_eqb l (0, 5) then 99999 else lag_mem l.

Example C56_case_fails : lag_fits (ul lag_mem2 (0, 0) 4 1 1) = false /\
  exists ks, zlag2c lag_narrow lag_fits 2 3 5 (0, 0) 4 (0, 40) 6 1 2 = GRuns ks /\
  filter (fun c => negb (c =? 0)) (kcodes ks lag_mem2) = [1] /\
  core_zlag2c lag_narrow lag_fits 2 2 (0, 0) 4 (0, 40) 6 lag_mem2 (0, 41) = lag_narrow (lag_mem2 (0, 1)) /\
  core_zlag2c lag_narrow lag_fits 2 2 (0, 0) 4 (0, 40) 6 lag_mem2 (0, 47) = lag_mem2 (0, 47).
Proof.
  split; [reflexivity|]. eexists. split; [reflexivity|]. split; [vm_compute; reflexivity|]. split; vm_compute; reflexivity.
Qed.

Example C56_back_case : exists ks,
  clag2z (fun x => x * 3) 2 3 5 (0, 40) 6 (0, 0) 4 1 2 = Runs ks /\ length ks = 30%nat /\
  krun ks lag_mem (0, 18) = 3 * lag_mem (0, 66) /\ krun ks lag_mem (0, 19) = lag_mem (0, 19).
Proof. eexists. split; [reflexivity|]. split; [reflexivity|]. split; vm_compute; reflexivity. Qed.

(* arguments out of range are refused *)
Example C56_arguments :
  zlag2c lag_narrow lag_fits 2 (-1) 5 (0, 0) 4 (0, 40) 6 1 2 = GReturns (-1) /\
  zlag2c lag_narrow lag_fits 2 3 5 (0, 0) 4 (0, 40) 2 1 2 = GReturns (-6) /\
  clag2z (fun x : Z => x) 2 3 5 (0, 40) 2 (0, 0) 4 1 2 = Returns (-4).
Proof. repeat split. Qed.
