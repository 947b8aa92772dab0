(* An execution of plasma_ztrtri that reports a zero on the diagonal which is not the first. *)
From Coq Require Import ZArith QArith Qcanon List Bool Lia.
From Verif Require Import Base NumModel NumProofs FieldModel FieldInstances TaskModel TaskSpec DescModel DescSpec DescDriverModel
  MatModel MatSpec DriverSpec TriSpec PotrfModel PotrfSpec LayoutModel GuardModel GuardSpec ExecProofs GuardExecProofs TrtriModel InvSpec.
Import ListNotations.
Open Scope Z_scope.

Definition tri_zero : mem QI_fields := fun _ => qi 0 0.

Definition trace_desc : desc := Eval vm_compute in
  match ge_create 1 2 2 with CrOk A _ => A | CrError _ => mkdesc 0 0 0 0 0 0 0 0 0 0 0 0 0 0 0 0 0 0 0 0 0 0 end.
Definition trace_tasks : list (cktask QI_fields) :=
  map sure (pzge2desc (0, 0) 2 1 trace_desc) ++ pztrtri PlasmaLower PlasmaNonUnit 1 trace_desc
  ++ map sure (pzdesc2ge 1 trace_desc (0, 0) 2).
Definition trace_order : list nat := [0;1;2;3;4;6;7;5;8;9;10;11]%nat.

Lemma trace_created : ge_create 1 2 2 = CrOk trace_desc 4.
Proof. lazy. reflexivity. Qed.

Lemma trace_driver : ztrtri 1 PlasmaLower PlasmaNonUnit 2 (0, 0) 2 1 = GRuns trace_tasks.
Proof. unfold ztrtri. rewrite trace_created. reflexivity. Qed.

Lemma trace_status : snd (gk_order trace_tasks trace_order (tri_zero, 0)) = 2.
Proof. lazy. reflexivity. Qed.

Lemma trace_allowed : is_perm trace_order (length trace_tasks) = true /\
  respectsb (map (fun k => k_deps (ck_task k)) trace_tasks) trace_order = true.
Proof. split; lazy; reflexivity. Qed.

Lemma ztrtri_first_zero : exists nb uplo diag n pA lda bA M (S : Z -> Z -> QI_fields),
  0 < nb /\ valid_uplo uplo /\ valid_diag diag /\ 0 <= n /\ Z.max 1 n <= lda /\ fst pA <> bA /\
  is_triangle M uplo diag pA lda n S /\
  ~ gdriver_ensures (ztrtri nb uplo diag n pA lda bA) M (fun _ st =>
      st <> 0 -> forall i, 0 <= i < st - 1 -> S i i <> n0).
Proof.
  exists 1, PlasmaLower, PlasmaNonUnit, 2, (0, 0), 2, 1, tri_zero, (fun _ _ => n0).
  split; [lia|]. split; [right; reflexivity|]. split; [right; reflexivity|]. split; [lia|]. split; [lia|].
  split; [cbn; lia|]. split.
  - unfold is_triangle. intros i j Hi. repeat split; intros; try reflexivity. discriminate.
  - rewrite trace_driver. cbn [gdriver_ensures]. intros H. destruct trace_allowed as [R1 R2].
    apply (gorder_possible _ _ trace_order) in H; [|apply is_perm_spec; exact R1|apply respectsb_spec; exact R2].
    destruct H as (M' & _ & H). cbv beta in H. rewrite trace_status in H.
    apply (H ltac:(discriminate) 0 ltac:(lia)). reflexivity.
Qed.
