(* An execution of plasma_zpbtrf on a diagonal matrix that does not report the first
   nonpositive element, and a band the drivers reject although their documentation allows it. *)
From Coq Require Import ZArith QArith Qcanon List Bool Lia.
From Verif Require Import Base NumModel NumProofs FieldModel FieldInstances RootInstances TaskModel TaskSpec DescModel DescSpec DescDriverModel
  MatModel MatSpec DriverModel DriverSpec PotrfModel PotrfSpec GuardModel GuardSpec ExecProofs GuardExecProofs BandModel BandSpec BandLayoutProofs.
Import ListNotations.
Open Scope Z_scope.

Definition pbz_mem : mem QI_fields := fun _ => qi (-1) 0.
Definition pbz_S (i j : Z) : QI_fields := if i =? j then qi (-1) 0 else n0.

Definition pbz_desc : desc := Eval vm_compute in
  match pb_create PlasmaLower 1 2 0 with CrOk A _ => A | CrError _ => mkdesc 0 0 0 0 0 0 0 0 0 0 0 0 0 0 0 0 0 0 0 0 0 0 end.
Definition pbz_tasks : list (cktask QI_fields) :=
  map sure (pzpb2desc (0, 0) 1 1 pbz_desc) ++ pzpbtrf QI_roots qre PlasmaLower 1 pbz_desc
  ++ map sure (pzdesc2pb 1 pbz_desc (0, 0) 1).
Definition pbz_order : list nat := [0;1;3;2;4;5]%nat.

Lemma pbz_driver : zpbtrf QI_roots qre 1 PlasmaLower 2 0 (0, 0) 1 1 = GRuns pbz_tasks.
Proof. reflexivity. Qed.

Lemma pbz_status : snd (gk_order pbz_tasks pbz_order (pbz_mem, 0)) = 2.
Proof. lazy. reflexivity. Qed.

Lemma pbz_allowed : is_perm pbz_order (length pbz_tasks) = true /\
  respectsb (map (fun k => k_deps (ck_task k)) pbz_tasks) pbz_order = true.
Proof. split; lazy; reflexivity. Qed.

Lemma zpbtrf_first_minor : exists nb uplo n kd pA ld bA M (S : Z -> Z -> QI_fields),
  0 < nb /\ valid_uplo uplo /\ 0 <= kd < n /\ kd < ld /\ fst pA <> bA /\
  is_hermitian_band M uplo kd pA ld n S /\
  (forall i j, in_matrix n n i j -> i <> j -> S i j = n0) /\
  ~ gdriver_ensures (zpbtrf QI_roots qre nb uplo n kd pA ld bA) M (fun _ st =>
      st <> 0 -> forall i, 0 <= i < st - 1 -> rt QI_roots (S i i) <> None).
Proof.
  exists 1, PlasmaLower, 2, 0, (0, 0), 1, 1, pbz_mem, pbz_S.
  split; [lia|]. split; [right; reflexivity|]. split; [lia|]. split; [lia|].
  split; [cbn; lia|]. split; [|split].
  - unfold is_hermitian_band, pbz_S. split; [|split].
    + intros i j _ [[E _]|[_ E]]; [discriminate|]. assert (i = j) as -> by lia. rewrite Z.eqb_refl. reflexivity.
    + intros i j _ H. destruct (Z.eqb_spec i j); [lia|reflexivity].
    + intros i j _. rewrite (Z.eqb_sym j i). destruct (i =? j); apply (neqb_eq QI_fields); vm_compute; reflexivity.
  - intros i j _ H. unfold pbz_S. apply Z.eqb_neq in H. rewrite H. reflexivity.
  - rewrite pbz_driver. cbn [gdriver_ensures]. intros H. destruct pbz_allowed as [R1 R2].
    apply (gorder_possible _ _ pbz_order) in H; [|apply is_perm_spec; exact R1|apply respectsb_spec; exact R2].
    destruct H as (M' & _ & H). cbv beta in H. rewrite pbz_status in H.
    apply (H ltac:(discriminate) 0 ltac:(lia)). vm_compute. reflexivity.
Qed.

Lemma zpbtrf_wide : forall (F : fields) (R : roots F) (rp : F -> F) nb uplo n kd pA ld bA,
  0 < nb -> valid_uplo uplo -> 0 < n -> n <= kd -> kd < ld ->
  zpbtrf R rp nb uplo n kd pA ld bA = GReturns PlasmaErrorIllegalValue.
Proof.
  intros F R rp nb uplo n kd pA ld bA Hb Hu Hn Hk HL. unfold zpbtrf.
  assert (E1 : (uplo =? PlasmaUpper) || (uplo =? PlasmaLower) = true) by (destruct Hu as [->| ->]; reflexivity).
  rewrite E1. cbn [negb].
  replace (n <? 0) with false by (symmetry; apply Z.ltb_ge; lia).
  replace (kd <? 0) with false by (symmetry; apply Z.ltb_ge; lia).
  replace (ld <? kd + 1) with false by (symmetry; apply Z.ltb_ge; lia).
  replace (Z.max n 0 =? 0) with false by (symmetry; apply Z.eqb_neq; lia).
  destruct (pb_create uplo nb n kd) as [c|A size] eqn:E.
  - unfold pb_create, general_band_create in E. cbv zeta in E.
    match type of E with (if ?c then _ else _) = _ => destruct c end; [discriminate|]. injection E as <-. reflexivity.
  - exfalso. pose proof (pk_kd _ _ _ _ _ (pb_create_pb uplo nb n kd A size ltac:(lia) Hu E)). lia.
Qed.

Lemma zpbtrf_wide_band : exists nb uplo n kd ld, 0 < nb /\ valid_uplo uplo /\ 0 < n /\ 0 <= kd /\ kd + 1 <= ld /\
  forall (F : fields) (R : roots F) (rp : F -> F) pA bA,
    zpbtrf R rp nb uplo n kd pA ld bA = GReturns PlasmaErrorIllegalValue.
Proof.
  exists 4, PlasmaLower, 3, 3, 4. split; [lia|]. split; [right; reflexivity|]. split; [lia|]. split; [lia|]. split; [lia|].
  intros F R rp pA bA. apply zpbtrf_wide; try lia. right; reflexivity.
Qed.
