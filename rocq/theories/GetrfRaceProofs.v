(* An execution of plasma_zgetrf in which the update of a tile column overtakes the
   translation of one of its tiles. *)
From Coq Require Import ZArith QArith Qcanon List Bool Lia.
From Verif Require Import Base NumModel NumProofs FieldModel FieldInstances TaskModel TaskSpec DescModel DescDriverModel MatModel
  MatSpec MatProofs RegionProofs DescProofs LayoutModel LayoutProofs LayoutProofs2 OpProofs OperandProofs GemmProofs GemmDriverProofs SwpSpec SwpProofs GuardModel GuardSpec ExecProofs GuardExecProofs GetrfModel GetrfSpec GetrfInstances.
Import ListNotations.
Open Scope Z_scope.

(* the columns (1,1,1,1) and (1,1,0,1), stored at block 0 with lda = 4 *)
Definition race_matrix : mem (cell QI_fields) := fun l =>
  if (fst l =? 0) && negb (snd l =? 6) then (qi 1 0, 0) else (qi 0 0, 0).

Definition race_desc : desc := Eval vm_compute in
  match ge_create 1 4 2 with CrOk A _ => A | CrError _ => mkdesc 0 0 0 0 0 0 0 0 0 0 0 0 0 0 0 0 0 0 0 0 0 0 end.
Definition race_tasks : list (cktask (cell QI_fields)) :=
  map sure (pzge2desc (0, 0) 4 1 race_desc) ++ omp_async_zgetrf cabs_bigger 1 race_desc (2, 0) 1 1.
Definition race_order : list nat := [0;1;2;3;4;6;7;8;9;10;11;5;12;13;14;15;16;17]%nat.

Lemma race_created : ge_create 1 4 2 = CrOk race_desc 8.
Proof. lazy. reflexivity. Qed.

Lemma race_driver : zgetrf cabs_bigger 1 1 1 4 2 (0, 0) 4 (2, 0) 1 =
  RRuns race_tasks (pzdesc2ge 1 race_desc (0, 0) 4) (fun st => Z.min 4 2 + st).
Proof. unfold zgetrf. rewrite race_created. reflexivity. Qed.

Lemma race_status : snd (gk_order race_tasks race_order (race_matrix, 0)) = 2.
Proof. lazy. reflexivity. Qed.

Lemma race_allowed : is_perm race_order (length race_tasks) = true /\
  respectsb (map (fun k => k_deps (ck_task k)) race_tasks) race_order = true.
Proof. split; lazy; reflexivity. Qed.

Lemma race_fails : ~ rdriver_ensures (zgetrf cabs_bigger 1 1 1 4 2 (0, 0) 4 (2, 0) 1) race_matrix (fun _ code => code = 0).
Proof.
  rewrite race_driver. cbn [rdriver_ensures]. intros H. destruct race_allowed as [R1 R2].
  apply (gorder_possible _ _ race_order) in H.
  - destruct H as (M' & _ & H). cbv beta in H. rewrite race_status in H. cbn in H. discriminate.
  - apply is_perm_spec. exact R1.
  - apply respectsb_spec. exact R2.
Qed.

Lemma race_entry : forall i j, 0 <= i < 4 -> 0 <= j < 2 ->
  lul race_matrix (0, 0) 4 i j = if (i =? 2) && (j =? 1) then qi 0 0 else qi 1 0.
Proof.
  intros i j Hi Hj. unfold lul, MatSpec.ul, race_matrix. cbn [fst snd]. change (0 =? 0) with true. cbn [andb].
  assert (C : j = 0 \/ j = 1) by lia.
  destruct (Z.eqb_spec (0 + i + j * 4) 6), (Z.eqb_spec i 2), (Z.eqb_spec j 1); cbn [negb andb]; try reflexivity; lia.
Qed.

Lemma qi_distinct : qi 1 0 <> qi 0 0.
Proof. intros E. apply (f_equal (fun x : QI_fields => this (fst x))) in E. vm_compute in E. discriminate. Qed.

Lemma race_regular : forall k, 0 <= k < 2 -> ~ column_depends 4 (lul race_matrix (0, 0) 4) k.
Proof.
  intros k Hk (x & Hx). assert (C : k = 0 \/ k = 1) by lia. destruct C as [->| ->].
  - specialize (Hx 0 ltac:(lia)). rewrite race_entry in Hx by lia. rewrite nsum_nil in Hx by lia.
    cbn [Z.eqb andb] in Hx. apply qi_distinct. exact Hx.
  - pose proof (Hx 0 ltac:(lia)) as H0. pose proof (Hx 2 ltac:(lia)) as H2.
    rewrite nsum_one in H0, H2. rewrite !race_entry in H0, H2 by lia.
    change ((0 =? 2) && (1 =? 1)) with false in H0. change ((0 =? 2) && (0 =? 1)) with false in H0.
    change ((2 =? 2) && (1 =? 1)) with true in H2. change ((2 =? 2) && (0 =? 1)) with false in H2.
    cbv iota in H0, H2. apply qi_distinct. rewrite H0, H2. reflexivity.
Qed.

(* the columns (1,1,1,1) and (1,1,4,1) *)
Definition race_matrix2 : mem (cell QI_fields) := fun l =>
  if fst l =? 0 then (if snd l =? 6 then qi 4 0 else qi 1 0, 0) else (qi 0 0, 0).

Lemma race_status2 : snd (gk_order race_tasks race_order (race_matrix2, 0)) = 0.
Proof. lazy. reflexivity. Qed.

Lemma region_both : forall V (ks : list (ktask V)) M (Q1 Q2 : mem V -> Prop),
  region_ensures ks M Q1 -> region_ensures ks M Q2 -> region_ensures ks M (fun M' => Q1 M' /\ Q2 M').
Proof.
  intros V ks M Q1 Q2 [E H1] [_ H2]. split; [assumption|]. intros ts s HI HS.
  destruct (H1 ts s HI HS) as [A1 A2], (H2 ts s HI HS) as [B1 B2]. split; auto.
Qed.

Lemma race_wrong : ~ rdriver_ensures (zgetrf cabs_bigger 1 1 1 4 2 (0, 0) 4 (2, 0) 1) race_matrix2 (fun M' code =>
  code = 0 -> factored 4 2 (lul race_matrix2 (0, 0) 4) (lul M' (0, 0) 4) (pivots M' (2, 0))).
Proof.
  rewrite race_driver. cbn [rdriver_ensures]. intros H. destruct race_allowed as [R1 R2].
  apply (gorder_possible _ _ race_order) in H; [|apply is_perm_spec; exact R1|apply respectsb_spec; exact R2].
  destruct H as (M1 & HM & H). cbv beta in H. rewrite race_status2 in H. change (0 =? 0) with true in H. cbv iota in H.
  destruct (ge_create_dn _ _ _ _ _ race_created) as (HD & E3 & E4 & _).
  assert (HT := sq_t 1 race_desc (in_tiles race_desc) HD).
  rewrite pzdesc2ge_eq in H.
  assert (B : region_ensures (copy_out_all race_desc 1 (0, 0) 4 (idx_all race_desc)) M1 (fun M' =>
     (forall i j, 0 <= i < 4 -> 0 <= j < 2 -> ul M' (0, 0) 4 i j = el M1 1 race_desc i j) /\
     (forall l, fst l <> 0 -> M' l = M1 l))).
  { eapply region_mono; [|eapply (copy_out_ensures race_desc (in_tiles race_desc)); eauto].
    - rewrite E3, E4. intros M' [U1 U2]. split.
      + intros i j Hi Hj. apply U1; auto. apply in_tiles_pos; [apply (td_shape _ _ HT)|lia|lia].
      + intros l Hl. apply U2. intros i j _ _ _ ->. apply Hl. reflexivity.
    - apply idx_all_in.
    - apply idx_all_NoDup.
    - discriminate.
    - lia. }
  pose proof (region_both _ _ _ _ _ H B) as C. clear H B.
  apply (order_possible _ (qi 0 0, 0) _ (seq 0 8)) in C.
  - destruct C as (M' & _ & HF & HU & HO). destruct (HF eq_refl) as [_ HX]. clear HF.
    assert (P0 : pivots M' (2, 0) 0 = 1) by (unfold pivots; rewrite HO by discriminate; rewrite HM; lazy; reflexivity).
    assert (P1 : pivots M' (2, 0) 1 = 3) by (unfold pivots; rewrite HO by discriminate; rewrite HM; lazy; reflexivity).
    assert (X10 : lul M' (0, 0) 4 1 0 = qi 1 0).
    { unfold lul. rewrite HU by lia. unfold el. rewrite HM. apply (neqb_eq QI_fields). lazy. reflexivity. }
    assert (X01 : lul M' (0, 0) 4 0 1 = qi 1 0).
    { unfold lul. rewrite HU by lia. unfold el. rewrite HM. apply (neqb_eq QI_fields). lazy. reflexivity. }
    assert (X11 : lul M' (0, 0) 4 1 1 = qi 4 0).
    { unfold lul. rewrite HU by lia. unfold el. rewrite HM. apply (neqb_eq QI_fields). lazy. reflexivity. }
    specialize (HX 1 1 ltac:(split; lia)).
    rewrite interchanges_z in HX by lia. change (zrange 0 (Z.min 4 2)) with [0; 1] in HX. cbn [map] in HX. rewrite P0, P1 in HX.
    unfold nsum in HX. change (zrange 0 (Z.min 4 2)) with [0; 1] in HX. cbn [fold_right] in HX.
    unfold factor_L, factor_U in HX.
    change (1 =? 0) with false in HX. change (0 <? 1) with true in HX. change (0 <=? 1) with true in HX.
    change (1 =? 1) with true in HX. change (1 <=? 1) with true in HX. cbv iota in HX.
    rewrite X10, X01, X11 in HX.
    change (source [(0, 1 - 1); (1, 3 - 1)] 1) with 2 in HX.
    apply (f_equal (fun x : QI_fields => this (fst x))) in HX. lazy in HX. discriminate.
  - rewrite <- pzdesc2ge_eq. apply (out_kgood 1); [assumption|lia].
  - apply is_perm_spec. reflexivity.
  - apply respectsb_spec. lazy. reflexivity.
Qed.

Lemma race_wrong_exists : exists (nb ib mpt m n : Z) (pA : loc) (lda : Z) (pI : loc) (b : Z) (M : mem (cell QI_fields)),
  0 < nb /\ 0 < ib /\ 0 < mpt /\ 0 <= m /\ 0 <= n /\ Z.max 1 m <= lda /\
  fst pA <> b /\ fst pI <> b /\ fst pI <> fst pA /\
  ~ rdriver_ensures (zgetrf cabs_bigger nb ib mpt m n pA lda pI b) M (fun M' code =>
      code = 0 -> factored m n (lul M pA lda) (lul M' pA lda) (pivots M' pI)).
Proof.
  exists 1, 1, 1, 4, 2, (0, 0), 4, (2, 0), 1, race_matrix2. repeat (split; [cbn; lia|]). apply race_wrong.
Qed.

Lemma race_fails_exists : exists (nb ib mpt m n : Z) (pA : loc) (lda : Z) (pI : loc) (b : Z) (M : mem (cell QI_fields)),
  0 < nb /\ 0 < ib /\ 0 < mpt /\ 0 <= m /\ 0 <= n /\ Z.max 1 m <= lda /\
  fst pA <> b /\ fst pI <> b /\ fst pI <> fst pA /\
  (forall k, 0 <= k < Z.min m n -> ~ column_depends m (lul M pA lda) k) /\
  ~ rdriver_ensures (zgetrf cabs_bigger nb ib mpt m n pA lda pI b) M (fun M' code => code = 0).
Proof.
  exists 1, 1, 1, 4, 2, (0, 0), 4, (2, 0), 1, race_matrix. repeat (split; [cbn; lia|]). split; [|apply race_fails].
  exact race_regular.
Qed.
