(* An execution in which zgeswp overtakes an earlier reader of its matrix. *)
From Coq Require Import ZArith List Bool Lia.
From Verif Require Import Base TaskModel TaskSpec TaskProofs DescModel DescSpec DescDriverModel DescProofs MatModel MatSpec
  MatProofs RegionProofs LayoutModel LayoutProofs LayoutProofs2 DriverModel DriverSpec OpProofs OperandProofs GemmProofs
  RankDriverProofs EwDriverProofs SwpModel SwpSpec SwpProofs SwpDriverProofs ExecProofs.
Import ListNotations.
Open Scope Z_scope.

Definition race_ipiv (i : Z) : Z := if i =? 1 then 3 else i + 1.
Definition race_mem : mem Z := fun l => 100 * fst l + snd l.

Lemma race_legal : legal_pivots race_ipiv 3.
Proof. intros i Hi. unfold race_ipiv. destruct (Z.eqb_spec i 1); lia. Qed.

Lemma swp_race : exists A, ge_create 1 3 1 = CrOk A 3 /\
  ~ region_ensures (pzdesc2ge 1 A (0, 0) 3 ++ omp_async_zgeswp PlasmaRowwise 1 A (2, 0) race_ipiv 1) race_mem
      (fun M' => forall i j, in_matrix 3 1 i j -> ul M' (0, 0) 3 i j = el race_mem 1 A i j).
Proof.
  eexists. split; [reflexivity|].
  match goal with |- ~ region_ensures (pzdesc2ge 1 ?X _ _ ++ _) _ _ => remember X as A eqn:EA end.
  assert (EC : ge_create 1 3 1 = CrOk A 3) by (rewrite EA; reflexivity).
  destruct (ge_create_gen _ _ _ _ _ EC) as (G & A1 & A2 & A3 & A4).
  intros HR. apply (order_possible Z 0 _ [0; 2; 3; 4; 1; 5]%nat) in HR.
  - destruct HR as (M' & HM & HQ). specialize (HQ 1 0 ltac:(split; lia)).
    unfold ul in HQ. rewrite HM in HQ. rewrite EA in HQ. vm_compute in HQ. discriminate.
  - unfold omp_async_zgeswp. rewrite A3, A4. change (Z.min 3 1 =? 0) with false. cbv iota.
    apply Forall_app. split.
    + rewrite pzdesc2ge_eq. pose proof (mat_dn 1 A G A1 A2) as D.
      apply copy_out_kgood with (S := in_tiles A).
      * apply (sq_t _ _ _ D).
      * intros m n. apply idx_all_in.
      * lia.
    + apply (pzgeswp_kgood 1 1 A G A1 A2 (2, 0) race_ipiv 1 (or_introl eq_refl) PlasmaRowwise (or_intror eq_refl)).
      unfold swp_len. rewrite A3, A4. apply race_legal.
  - rewrite EA. apply is_perm_spec. vm_compute. reflexivity.
  - rewrite EA. apply respectsb_spec. vm_compute. reflexivity.
Qed.
