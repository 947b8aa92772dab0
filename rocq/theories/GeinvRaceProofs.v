(* Executions of plasma_zgeinv that go wrong. *)
From Coq Require Import ZArith QArith Qcanon List Bool Lia.
From Verif Require Import Base NumModel NumProofs FieldModel FieldInstances TaskModel TaskSpec DescModel DescDriverModel MatModel
  MatSpec LayoutModel GuardModel GuardSpec ExecProofs GuardExecProofs PotrfModel PotrfSpec InvSpec GetrfModel GetrfSpec GetrfInstances GetrfRaceProofs DescSpec GesvModel GesvRaceProofs.
Import ListNotations.
Open Scope Z_scope.

(* the matrix of svrace, tile size 1 *)
Definition ivrace_tasks : list (cktask (cell QI_fields)) :=
  match zgeinv cabs_bigger 1 1 1 4 4 (0, 0) 4 (2, 0) 1 5 with GRuns ks => ks | GReturns _ => [] end.
Definition ivrace_order : list nat := (seq 0 9 ++ seq 10 12 ++ [9] ++ seq 22 (length ivrace_tasks - 22))%nat.

Lemma ivrace_driver : zgeinv cabs_bigger 1 1 1 4 4 (0, 0) 4 (2, 0) 1 5 = GRuns ivrace_tasks.
Proof. reflexivity. Qed.
Lemma ivrace_allowed : is_perm ivrace_order (length ivrace_tasks) = true /\
  respectsb (map (fun k => k_deps (ck_task k)) ivrace_tasks) ivrace_order = true.
Proof. split; vm_compute; reflexivity. Qed.

Lemma ivrace_status : snd (gk_order ivrace_tasks ivrace_order (svrace (qi 0 0), 0)) = 2.
Proof. lazy. reflexivity. Qed.
Lemma ivrace_status3 : snd (gk_order ivrace_tasks ivrace_order (svrace (qi 3 0), 0)) = 0.
Proof. lazy. reflexivity. Qed.

Lemma ivrace_fails_exists : exists (nb ib mpt n : Z) (pA : loc) (lda : Z) (pI : loc) (bA bW : Z) (M : mem (cell QI_fields)),
  0 < nb /\ 0 < ib /\ 0 < mpt /\ 0 <= n /\ Z.max 1 n <= lda /\ NoDup [fst pA; fst pI; bA; bW] /\
  (forall k, 0 <= k < n -> ~ column_depends n (lul M pA lda) k) /\
  ~ gdriver_ensures (zgeinv cabs_bigger nb ib mpt n n pA lda pI bA bW) M (fun M' st => st = 0).
Proof.
  exists 1, 1, 1, 4, (0, 0), 4, (2, 0), 1, 5, (svrace (qi 0 0)).
  repeat (split; [lia|]). split; [cbn; repeat constructor; cbn; lia|]. split; [exact svrace_regular|].
  rewrite ivrace_driver. cbn [gdriver_ensures]. intros H. destruct ivrace_allowed as [R1 R2].
  apply (gorder_possible _ _ ivrace_order) in H.
  - destruct H as (M' & _ & H). rewrite ivrace_status in H. discriminate H.
  - apply is_perm_spec. exact R1.
  - apply respectsb_spec. exact R2.
Qed.

Lemma ivrace_wrong_exists : exists (nb ib mpt n : Z) (pA : loc) (lda : Z) (pI : loc) (bA bW : Z) (M : mem (cell QI_fields)),
  0 < nb /\ 0 < ib /\ 0 < mpt /\ 0 <= n /\ Z.max 1 n <= lda /\ NoDup [fst pA; fst pI; bA; bW] /\
  ~ gdriver_ensures (zgeinv cabs_bigger nb ib mpt n n pA lda pI bA bW) M (fun M' st => st = 0 ->
      is_inverse n (lul M pA lda) (lul M' pA lda)).
Proof.
  exists 1, 1, 1, 4, (0, 0), 4, (2, 0), 1, 5, (svrace (qi 3 0)).
  repeat (split; [lia|]). split; [cbn; repeat constructor; cbn; lia|].
  rewrite ivrace_driver. cbn [gdriver_ensures]. intros H. destruct ivrace_allowed as [R1 R2].
  apply (gorder_possible _ _ ivrace_order) in H.
  - destruct H as (M' & HM & H). rewrite ivrace_status3 in H. specialize (H eq_refl 2 0 ltac:(split; lia)). destruct H as [H _].
    rewrite (nsum_ext _ _ (fun l => nmul (lul (svrace (qi 3 0)) (0, 0) 4 2 l)
      (lul (fst (gk_order ivrace_tasks ivrace_order (svrace (qi 3 0), 0))) (0, 0) 4 l 0))) in H
      by (intros l Hl; unfold lul, ul; rewrite HM; reflexivity).
    apply (f_equal (fun x : QI_fields => this (fst x))) in H. lazy in H. discriminate H.
  - apply is_perm_spec. exact R1.
  - apply respectsb_spec. exact R2.
Qed.

(* the 1 x 2 matrix of ones, entry 1 of the array ipiv being 2 before the call *)
Definition ivrect : mem (cell QI_fields) := fun l =>
  (if fst l =? 0 then qi 1 0 else qi 0 0, if (fst l =? 2) && (snd l =? 1) then 2 else 0).
Definition ivrect_tasks : list (cktask (cell QI_fields)) :=
  match zgeinv cabs_bigger 2 1 1 1 2 (0, 0) 2 (2, 0) 1 5 with GRuns ks => ks | GReturns _ => [] end.
Lemma ivrect_driver : zgeinv cabs_bigger 2 1 1 1 2 (0, 0) 2 (2, 0) 1 5 = GRuns ivrect_tasks.
Proof. reflexivity. Qed.
Lemma ivrect_exists : exists (nb ib mpt m n : Z) (pA : loc) (lda : Z) (pI : loc) (bA bW : Z) (M : mem (cell QI_fields)),
  0 < nb /\ 0 < ib /\ 0 < mpt /\ 0 < m /\ 0 < n /\ m <> n /\ Z.max 1 m <= lda /\ Z.max 1 n <= lda /\ NoDup [fst pA; fst pI; bA; bW] /\
  ~ gdriver_ensures (zgeinv cabs_bigger nb ib mpt m n pA lda pI bA bW) M (fun M' st => st <> 0).
Proof.
  exists 2, 1, 1, 1, 2, (0, 0), 2, (2, 0), 1, 5, ivrect.
  repeat (split; [lia|]). split; [cbn; repeat constructor; cbn; lia|].
  rewrite ivrect_driver. cbn [gdriver_ensures]. intros H.
  apply (gorder_possible _ ivrect_tasks (seq 0 (length ivrect_tasks))) in H.
  - destruct H as (M' & _ & H). apply H. lazy. reflexivity.
  - apply is_perm_spec. vm_compute. reflexivity.
  - apply respectsb_spec. vm_compute. reflexivity.
Qed.
