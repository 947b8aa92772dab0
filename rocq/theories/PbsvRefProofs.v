(* An execution of plasma_zpbsv on a diagonal matrix that reports a failure after a part of B has
   been overwritten. *)
From Coq Require Import ZArith QArith Qcanon List Bool Lia.
From Verif Require Import Base NumModel NumProofs FieldModel FieldInstances RootInstances TaskModel TaskSpec DescModel DescSpec DescDriverModel
  MatModel MatSpec DriverModel DriverSpec LayoutModel PotrfModel PotrfSpec GuardModel GuardSpec ExecProofs GuardExecProofs
  BandModel BandSpec BandLayoutProofs PbtrsModel.
Import ListNotations.
Open Scope Z_scope.

(* diag(4, -1) in block 0, the right hand side (2, 2) in block 1 *)
Definition pbd_mem : mem QI_fields := fun l =>
  if fst l =? 0 then (if snd l =? 0 then qi 4 0 else qi (-1) 0) else qi 2 0.
Definition pbd_S (i j : Z) : QI_fields := if i =? j then (if i =? 0 then qi 4 0 else qi (-1) 0) else n0.

Definition no_desc : desc := mkdesc 0 0 0 0 0 0 0 0 0 0 0 0 0 0 0 0 0 0 0 0 0 0.
Definition pbd_A : desc := Eval vm_compute in match pb_create PlasmaLower 1 2 0 with CrOk A _ => A | CrError _ => no_desc end.
Definition pbd_B : desc := Eval vm_compute in
  match general_create PlasmaComplexDouble 1 1 2 1 0 0 2 1 with CrOk A _ => A | CrError _ => no_desc end.
Definition pbd_tasks : list (cktask QI_fields) :=
  map sure (pzpb2desc (0, 0) 1 2 pbd_A ++ pzge2desc (1, 0) 2 3 pbd_B)
  ++ (pzpbtrf QI_roots qre PlasmaLower 2 pbd_A ++ map sure (two_band_solves PlasmaLower 2 pbd_A 3 pbd_B))
  ++ map sure (pzdesc2pb 2 pbd_A (0, 0) 1 ++ pzdesc2ge 3 pbd_B (1, 0) 2).
Definition pbd_order : list nat := [0;1;2;3;4;6;9;12;5;7;8;10;11;13]%nat.

Lemma pbd_driver : zpbsv QI_roots qre 1 PlasmaLower 2 0 1 (0, 0) 1 (1, 0) 2 2 3 = GRuns pbd_tasks.
Proof. reflexivity. Qed.

Lemma pbd_status : snd (gk_order pbd_tasks pbd_order (pbd_mem, 0)) = 2.
Proof. lazy. reflexivity. Qed.
Lemma pbd_result : neqb (fst (gk_order pbd_tasks pbd_order (pbd_mem, 0)) (1, 0)) (qi 2 0) = false.
Proof. lazy. reflexivity. Qed.

Lemma pbd_allowed : is_perm pbd_order (length pbd_tasks) = true /\
  respectsb (map (fun k => k_deps (ck_task k)) pbd_tasks) pbd_order = true.
Proof. split; lazy; reflexivity. Qed.

Lemma zpbsv_diagonal_overwrites : exists nb uplo n nrhs pA ld pB ldb bA bB M (S : Z -> Z -> QI_fields),
  0 < nb /\ valid_uplo uplo /\ 0 < n /\ 0 < nrhs /\ 0 < ld /\ n <= ldb /\ NoDup [bA; bB] /\
  (forall b, In b [fst pA; fst pB] -> ~ In b [bA; bB]) /\
  (forall l, in_user_band uplo 0 pA ld n l -> ~ in_user pB ldb n nrhs l) /\
  is_hermitian_band M uplo 0 pA ld n S /\
  ~ gdriver_ensures (zpbsv QI_roots qre nb uplo n 0 nrhs pA ld pB ldb bA bB) M (fun M' st =>
      st <> 0 -> forall i j, in_matrix n nrhs i j -> ul M' pB ldb i j = ul M pB ldb i j).
Proof.
  exists 1, PlasmaLower, 2, 1, (0, 0), 1, (1, 0), 2, 2, 3, pbd_mem, pbd_S.
  split; [lia|]. split; [right; reflexivity|]. split; [lia|]. split; [lia|]. split; [lia|]. split; [lia|].
  split; [repeat constructor; cbn; lia|]. split; [intros b; cbn; lia|]. split; [|split].
  - intros l (i & j & _ & _ & E) (i' & j' & _ & _ & E'). rewrite E in E'. cbn in E'. discriminate E'.
  - unfold is_hermitian_band, pbd_S. split; [|split].
    + intros i j [Hi Hj] [[E _]|[_ E]]; [discriminate|]. assert (i = j) as -> by lia. rewrite Z.eqb_refl.
      assert (C : j = 0 \/ j = 1) by lia. destruct C as [-> | ->]; reflexivity.
    + intros i j _ H. destruct (Z.eqb_spec i j); [lia|reflexivity].
    + intros i j _. rewrite (Z.eqb_sym j i). destruct (Z.eqb_spec i j) as [->|N]; [|apply (neqb_eq QI_fields); vm_compute; reflexivity].
      destruct (j =? 0); apply (neqb_eq QI_fields); vm_compute; reflexivity.
  - rewrite pbd_driver. cbn [gdriver_ensures]. intros H. destruct pbd_allowed as [R1 R2].
    apply (gorder_possible _ _ pbd_order) in H; [|apply is_perm_spec; exact R1|apply respectsb_spec; exact R2].
    destruct H as (M' & EM & H). cbv beta in H. rewrite pbd_status in H.
    specialize (H ltac:(discriminate) 0 0 ltac:(split; lia)). unfold ul in H. rewrite EM in H. cbn [fst snd] in H.
    pose proof pbd_result as PR. change (0 + 0 + 0 * 2) with 0 in H. rewrite H in PR. vm_compute in PR. discriminate PR.
Qed.
