(* plasma_zunglq with fewer reflectors than rows; plasma_zgelqs and plasma_zgels on empty matrices. *)
From Coq Require Import Reals ZArith List Bool Lia Lra.
From Verif Require Import Base NumModel NumProofs FieldModel ComplexInstances TaskModel TaskSpec DescModel DescDriverModel
  MatModel MatSpec MatProofs RegionProofs DriverModel DriverSpec RankDriverProofs TriModel TriSpec QrModel QrSpec QrInstances LsModel LsSpec LsRefProofs LqModel LqSpec LqDriverProofs LqGlqProofs LqGelsProofs.
Import ListNotations.
Open Scope Z_scope.

Section Short.
Context {N : numbers}.
Add Ring num_ring_lq_ref : (nring N).
Lemma zunglq_short : forall (lg : N -> list N -> N * N * list N), larfg_ok lg -> (n1 : N) <> n0 ->
  forall nb ib m n k pA lda bA bT M pQ ldq bV bQ,
  0 < nb -> 0 < ib -> 0 <= k -> k < m <= n -> Z.max 1 m <= lda -> Z.max 1 m <= ldq -> NoDup [fst pA; bA; bT; fst pQ; bV; bQ] ->
  (forall j, 0 <= j < n -> ul M pQ ldq k j = n0) ->
  driver_ensures (zgelqf lg nb ib k n pA lda bA bT) M (fun M' => forall T size, gelqf_T nb ib k n = CrOk T size ->
    driver_ensures (zunglq nb m n k pA lda bT T pQ ldq bV bQ) M' (fun M3 => ~ orthonormal_rows m n (ul M3 pQ ldq))).
Proof.
  intros lg LG NT nb ib m n k pA lda bA bT M pQ ldq bV bQ Hnb Hib Hk Hn Hlda Hldq HND HZ.
  assert (HND1 : NoDup [fst pA; bA; bT]).
  { inversion HND as [|? ? X1 X2]; subst. inversion X2 as [|? ? X3 X4]; subst.
    constructor; [|constructor; [|constructor; [|constructor]]]; cbn in *; tauto. }
  pose proof (zunglq_main (N := N) lg LG nb ib k n pA lda bA bT M Hnb Hib Hk ltac:(lia) ltac:(lia) HND1) as X.
  pose proof (zgelqf_main lg LG nb ib k n pA lda bA bT M Hnb Hib Hk ltac:(lia) ltac:(lia) HND1) as Y.
  eapply driver_mono; [|exact (driver_both _ _ _ _ _ X Y)]. clear X Y.
  intros M' [(Q & _ & _ & XQ) (_ & _ & _ & FR & _)] T size HT.
  rewrite Z.min_l in * by lia.
  assert (D : forall x y, In x [fst pA; bA; bT] -> In y [fst pQ; bV; bQ] -> x <> y).
  { intros x y HX HY ->. apply (NoDup_app_disj [fst pA; bA; bT] [fst pQ; bV; bQ] HND y HX HY). }
  assert (HND3 : NoDup [fst pQ; bV; bQ]).
  { inversion HND as [|? ? _ X2]; subst. inversion X2 as [|? ? _ X4]; subst. inversion X4; subst; assumption. }
  assert (HND2 : NoDup [bT; bV; bQ]).
  { inversion HND3 as [|? ? X1 X2]; subst. constructor; [|assumption].
    intros HI. apply (D bT bT); [cbn; tauto|right; exact HI|reflexivity]. }
  assert (D2 : fst pA <> fst pQ) by (apply D; cbn; tauto).
  eapply driver_mono; [|apply (XQ T size m pA lda pQ ldq bV bQ M' HT)]; try assumption; try lia.
  - intros M3 [_ F3] OC. specialize (OC k k ltac:(lia) ltac:(lia)). rewrite Z.eqb_refl in OC.
    apply NT. rewrite <- OC. apply nsum_0. intros j Hj.
    assert (E : ul M3 pQ ldq k j = NumModel.n0); [|rewrite E; ring].
    rewrite <- (HZ j Hj). unfold ul. rewrite F3, FR; [reflexivity| | | | | |]; cbn [fst].
    + intros E. apply (D bA (fst pQ)); cbn; auto.
    + intros E. apply (D bT (fst pQ)); cbn; auto.
    + intros (i' & j' & _ & _ & E). apply D2. injection E as E _. symmetry. exact E.
    + inversion HND3; subst. cbn in *. intuition congruence.
    + inversion HND3; subst. cbn in *. intuition congruence.
    + intros (i' & j' & Hi' & Hj' & E). injection E as E.
      assert (j = j') by (destruct (Z.lt_trichotomy j j') as [?|[?|?]]; [exfalso; nia|assumption|exfalso; nia]). subst j'. lia.
  - intros b [<-|[<-|[]]] [E|[E|[E|[]]]].
    + cbn in HND1. inversion HND1; subst. cbn in *. intuition congruence.
    + apply (D (fst pA) bV); cbn; auto.
    + apply (D (fst pA) bQ); cbn; auto.
    + apply (D bT (fst pQ)); cbn; auto.
    + inversion HND3; subst. cbn in *. intuition congruence.
    + inversion HND3; subst. cbn in *. intuition congruence.
  - intros l (i & j & _ & _ & ->) (i' & j' & _ & _ & E). injection E as E _. exact (D2 E).
  - reflexivity.
  - reflexivity.
Qed.
End Short.

(* the 1 x 2 matrix (3,4) in block 0 with leading dimension 2, and zeroes elsewhere *)
Definition lq_ref_mem (l : loc) : C_fields :=
  if fst l =? 0 then if snd l =? 0 then (3, 0)%R else if snd l =? 2 then (4, 0)%R else (0, 0)%R else (0, 0)%R.

Lemma zunglq_incomplete : exists nb ib m n k pA lda bA bT M pQ ldq bV bQ,
  0 < nb /\ 0 < ib /\ 0 <= k <= m /\ m <= n /\ Z.max 1 m <= lda /\ Z.max 1 m <= ldq /\
  NoDup [fst pA; bA; bT; fst pQ; bV; bQ] /\
  driver_ensures (zgelqf larfg_C nb ib k n pA lda bA bT) M (fun M' => forall T size, gelqf_T nb ib k n = CrOk T size ->
    driver_ensures (zunglq nb m n k pA lda bT T pQ ldq bV bQ) M' (fun M3 => ~ orthonormal_rows m n (ul M3 pQ ldq))).
Proof.
  exists 1, 1, 2, 2, 1, (0, 0), 2, 1, 2, lq_ref_mem, (3, 0), 2, 4, 5.
  assert (ND : NoDup [fst (0, 0); 1; 2; fst (3, 0); 4; 5]).
  { cbn. repeat (constructor; [cbn; lia|]). constructor. }
  do 6 (split; [lia|]). split; [exact ND|].
  apply zunglq_short; try exact larfg_C_ok; try exact C_nontrivial; try exact ND; try lia.
  intros i Hi. reflexivity.
Qed.

(* ones everywhere *)
Definition ones_mem (l : loc) : C_fields := n1.

Lemma zgelqs_empty : exists nb m n nrhs pA lda bT T pB ldb bA bB (M : mem C_fields),
  0 < nb /\ 0 <= m <= n /\ 0 < nrhs /\ Z.max 1 m <= lda /\ Z.max 1 n <= ldb /\
  full_row_rank m n (ul M pA lda) /\
  driver_ensures (zgelqs (F := C_fields) nb m n nrhs pA lda bT T pB ldb bA bB) M (fun M' =>
    ~ minimum_norm m n (ul M pA lda) (fun i => ul M pB ldb i 0) (fun i => ul M' pB ldb i 0)).
Proof.
  destruct (gelqf_T 1 1 1 1) as [c|T size] eqn:ET; [discriminate ET|].
  exists 1, 0, 1, 1, (0, 0), 1, 2, T, (3, 0), 1, 4, 5, ones_mem.
  do 5 (split; [lia|]). split; [exists (fun _ _ => n0); intros; lia|].
  cbn [zgelqs driver_ensures]. split; [reflexivity|]. intros [_ H].
  specialize (H (fun _ => n1) ltac:(intros; lia)). apply C_nontrivial. rewrite <- H.
  rewrite nsum_one. unfold ul, ones_mem. cbn. apply injective_projections; cbn; ring.
Qed.

Lemma zgels_empty : exists nb ib m n nrhs pA lda pB ldb bA bB bT (M : mem C_fields),
  0 < nb /\ 0 < ib /\ 0 <= n <= m /\ 0 < nrhs /\ Z.max 1 m <= lda /\ Z.max 1 m <= ldb /\
  full_column_rank m n (ul M pA lda) /\
  driver_ensures (zgels larfg_C nb ib PlasmaNoTrans m n nrhs pA lda pB ldb bA bB bT) M (fun M' =>
    sum_squares (fun i => nsub (ul M pB ldb i 0) (mat_vec n (ul M pA lda) (fun i => ul M' pB ldb i 0) i)) 0 m
    <> sum_squares (fun i => ul M' pB ldb i 0) n m).
Proof.
  exists 1, 1, 1, 0, 1, (0, 0), 1, (3, 0), 1, 4, 5, 6, ones_mem.
  do 6 (split; [lia|]). split; [exists (fun _ _ => n0); intros; lia|].
  cbn [zgels driver_ensures]. eapply region_mono; [|apply region_one].
  2:{ apply (mset_kgood C_fields _ (3, 0) 1 1 1 _ (fun _ _ _ => n0)); [lia|apply finite_none|reflexivity]. }
  intros M' HM' E. unfold sum_squares in E. change (0 + 1) with 1 in E. rewrite !nsum_one in E. unfold mat_vec in E. rewrite nsum_nil in E by lia.
  assert (Z0 : ul M' (3, 0) 1 0 0 = n0) by (unfold ul; rewrite HM'; reflexivity).
  rewrite Z0 in E. apply (f_equal fst) in E. cbn in E. lra.
Qed.
