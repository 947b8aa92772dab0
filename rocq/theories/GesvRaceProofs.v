(* Executions of plasma_zgesv that go wrong. *)
From Coq Require Import ZArith QArith Qcanon List Bool Lia.
From Verif Require Import Base NumModel NumProofs FieldModel FieldInstances TaskModel TaskSpec DescModel DescDriverModel MatModel
  MatSpec LayoutModel GuardModel GuardSpec ExecProofs GuardExecProofs PotrfModel PotrfSpec GetrfModel GetrfSpec GetrfInstances GetrfRaceProofs DescSpec GesvModel.
Import ListNotations.
Open Scope Z_scope.

(* the columns (1,1,1,1), (1,1,v,1), (0,1,0,0), (0,0,0,1) at block 0, the right hand side
   (0,0,1,0) at block 3 *)
Definition svrace (v : QI_fields) : mem (cell QI_fields) := fun l =>
  if fst l =? 0 then
    (if snd l =? 6 then v
     else if existsb (Z.eqb (snd l)) [0; 1; 2; 3; 4; 5; 7; 9; 15] then qi 1 0 else qi 0 0, 0)
  else if (fst l =? 3) && (snd l =? 2) then (qi 1 0, 0) else (qi 0 0, 0).

Definition svrace_tasks : list (cktask (cell QI_fields)) :=
  match zgesv cabs_bigger 1 1 1 4 1 (0, 0) 4 (2, 0) (3, 0) 4 1 5 with GRuns ks => ks | GReturns _ => [] end.
(* the translation of tile (2,1) comes after the update of tile column 1 *)
Definition svrace_order : list nat := (seq 0 9 ++ seq 10 16 ++ [9] ++ seq 26 60)%nat.

Lemma svrace_driver : zgesv cabs_bigger 1 1 1 4 1 (0, 0) 4 (2, 0) (3, 0) 4 1 5 = GRuns svrace_tasks.
Proof. reflexivity. Qed.
Lemma svrace_allowed : is_perm svrace_order (length svrace_tasks) = true /\
  respectsb (map (fun k => k_deps (ck_task k)) svrace_tasks) svrace_order = true.
Proof. split; vm_compute; reflexivity. Qed.

Lemma rows_independent : forall (F : fields) m (A : Z -> Z -> F) k r r', 0 <= r < m -> 0 <= r' < m ->
  (forall j, 0 <= j < k -> A r j = A r' j) -> A r k <> A r' k -> ~ column_depends m A k.
Proof.
  intros F m A k r r' Hr Hr' HE HN (x & Hx). apply HN. rewrite (Hx r Hr), (Hx r' Hr'). apply nsum_ext.
  intros j Hj. rewrite (HE j Hj). reflexivity.
Qed.

Lemma svrace_regular : forall k, 0 <= k < 4 -> ~ column_depends 4 (lul (svrace (qi 0 0)) (0, 0) 4) k.
Proof.
  intros k Hk. assert (C : k = 0 \/ k = 1 \/ k = 2 \/ k = 3) by lia.
  destruct C as [->|[->|[->| ->]]].
  - intros (x & Hx). specialize (Hx 0 ltac:(lia)). rewrite nsum_nil in Hx by lia. apply qi_distinct. exact Hx.
  - apply (rows_independent _ _ _ _ 0 2); try lia; [|exact qi_distinct].
    intros j Hj. assert (j = 0) by lia. subst j. reflexivity.
  - apply (rows_independent _ _ _ _ 1 0); try lia; [|exact qi_distinct].
    intros j Hj. assert (C : j = 0 \/ j = 1) by lia. destruct C as [->| ->]; reflexivity.
  - apply (rows_independent _ _ _ _ 3 0); try lia; [|exact qi_distinct].
    intros j Hj. assert (C : j = 0 \/ j = 1 \/ j = 2) by lia. destruct C as [->|[->| ->]]; reflexivity.
Qed.

Lemma svrace_status : snd (gk_order svrace_tasks svrace_order (svrace (qi 0 0), 0)) = 2.
Proof. lazy. reflexivity. Qed.
Lemma svrace_status3 : snd (gk_order svrace_tasks svrace_order (svrace (qi 3 0), 0)) = 0.
Proof. lazy. reflexivity. Qed.

Lemma svrace_fails_exists : exists (nb ib mpt n nrhs : Z) (pA : loc) (lda : Z) (pI pB : loc) (ldb bA bB : Z) (M : mem (cell QI_fields)),
  0 < nb /\ 0 < ib /\ 0 < mpt /\ 0 <= n /\ 0 <= nrhs /\ Z.max 1 n <= lda /\ Z.max 1 n <= ldb /\
  NoDup [fst pA; fst pB; fst pI; bA; bB] /\
  (forall k, 0 <= k < n -> ~ column_depends n (lul M pA lda) k) /\
  ~ gdriver_ensures (zgesv cabs_bigger nb ib mpt n nrhs pA lda pI pB ldb bA bB) M (fun M' st => st = 0).
Proof.
  exists 1, 1, 1, 4, 1, (0, 0), 4, (2, 0), (3, 0), 4, 1, 5, (svrace (qi 0 0)).
  repeat (split; [lia|]). split; [cbn; repeat constructor; cbn; lia|]. split; [exact svrace_regular|].
  rewrite svrace_driver. cbn [gdriver_ensures]. intros H. destruct svrace_allowed as [R1 R2].
  apply (gorder_possible _ _ svrace_order) in H.
  - destruct H as (M' & _ & H). rewrite svrace_status in H. discriminate.
  - apply is_perm_spec. exact R1.
  - apply respectsb_spec. exact R2.
Qed.

Lemma svrace_wrong_exists : exists (nb ib mpt n nrhs : Z) (pA : loc) (lda : Z) (pI pB : loc) (ldb bA bB : Z) (M : mem (cell QI_fields)),
  0 < nb /\ 0 < ib /\ 0 < mpt /\ 0 <= n /\ 0 <= nrhs /\ Z.max 1 n <= lda /\ Z.max 1 n <= ldb /\
  NoDup [fst pA; fst pB; fst pI; bA; bB] /\
  ~ gdriver_ensures (zgesv cabs_bigger nb ib mpt n nrhs pA lda pI pB ldb bA bB) M (fun M' st => st = 0 ->
      forall i j, in_matrix n nrhs i j -> nsum (fun l => nmul (lul M pA lda i l) (lul M' pB ldb l j)) 0 n = lul M pB ldb i j).
Proof.
  exists 1, 1, 1, 4, 1, (0, 0), 4, (2, 0), (3, 0), 4, 1, 5, (svrace (qi 3 0)).
  repeat (split; [lia|]). split; [cbn; repeat constructor; cbn; lia|].
  rewrite svrace_driver. cbn [gdriver_ensures]. intros H. destruct svrace_allowed as [R1 R2].
  apply (gorder_possible _ _ svrace_order) in H.
  - destruct H as (M' & HM & H). rewrite svrace_status3 in H. specialize (H eq_refl 2 0 ltac:(split; lia)).
    rewrite (nsum_ext _ _ (fun l => nmul (lul (svrace (qi 3 0)) (0, 0) 4 2 l)
      (lul (fst (gk_order svrace_tasks svrace_order (svrace (qi 3 0), 0))) (3, 0) 4 l 0))) in H
      by (intros l Hl; unfold lul, ul; rewrite HM; reflexivity).
    apply (f_equal (fun x : QI_fields => this (fst x))) in H. lazy in H. discriminate.
  - apply is_perm_spec. exact R1.
  - apply respectsb_spec. exact R2.
Qed.

(* The matrix of zeros of order 2, entry 1 of the array ipiv being 7 before the call. *)
Definition svzero : mem (cell QI_fields) := fun l => (qi 0 0, if (fst l =? 2) && (snd l =? 1) then 7 else 0).
Definition svzero_desc : desc := Eval vm_compute in
  match ge_create 1 2 2 with CrOk A _ => A | CrError _ => mkdesc 0 0 0 0 0 0 0 0 0 0 0 0 0 0 0 0 0 0 0 0 0 0 end.
Definition svzero_tasks : list (cktask (cell QI_fields)) :=
  map sure (pzge2desc (0, 0) 2 1 svzero_desc) ++ pzgetrf cabs_bigger 1 svzero_desc (2, 0) 1 1.

Lemma svzero_exists : exists (nb ib mpt n : Z) (A : desc) (size : Z) (pA : loc) (lda : Z) (pI : loc) (bA : Z) (M : mem (cell QI_fields)),
  0 < ib /\ 0 < mpt /\ Z.max 1 n <= lda /\ NoDup [fst pA; fst pI; bA] /\ n <= 3 * nb /\ ge_create nb n n = CrOk A size /\
  ~ gregion_ensures (map sure (pzge2desc pA lda bA A) ++ pzgetrf cabs_bigger bA A pI ib mpt) M (fun M' st =>
      forall t, 0 <= t < n -> 1 <= pivots M' pI t <= n \/ 1 <= pivots M' pI t + t / nb * nb <= n).
Proof.
  exists 1, 1, 1, 2, svzero_desc, 4, (0, 0), 2, (2, 0), 1, svzero.
  split; [lia|]. split; [lia|]. split; [lia|]. split; [cbn; repeat constructor; cbn; lia|]. split; [lia|]. split; [reflexivity|].
  intros H. apply (gorder_possible _ svzero_tasks (seq 0 (length svzero_tasks))) in H.
  - destruct H as (M' & HM & H). specialize (H 1 ltac:(lia)). unfold pivots in H. rewrite HM in H. lazy in H.
    destruct H as [[_ H]|[_ H]]; apply H; reflexivity.
  - apply is_perm_spec. vm_compute. reflexivity.
  - apply respectsb_spec. vm_compute. reflexivity.
Qed.
