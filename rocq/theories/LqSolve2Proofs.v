(* plasma_zgelqs. *)
From Coq Require Import ZArith List Bool Lia Ring.
From Verif Require Import Base NumModel NumProofs FieldModel ControlModel TaskModel TaskSpec TaskProofs DescModel DescSpec DescDriverModel DescProofs DescProofs3 DescProofs4 DescTProofs
  MatModel MatSpec MatProofs RegionProofs LayoutModel LayoutProofs LayoutProofs2 DriverModel DriverSpec OpProofs OperandProofs GemmProofs GemmDriverProofs RankDriverProofs
  TriModel TriSpec LasetModel QrModel QrSpec QrAlgProofs QrStepProofs QrKerProofs QrKerProofs2 QrMulProofs QrLiftProofs QrTaskProofs QrEffProofs QrUnmProofs QrFacProofs QrInvProofs QrListProofs QrDrvProofs QrDriverProofs
  LsModel LsSpec LsAlgProofs LsViewProofs LsProofs LsQrsProofs LqModel LqDualProofs LqDual2Proofs LqSimProofs LqListProofs LqMateProofs LqEffProofs LqDriverProofs LqSolveProofs.
Import ListNotations.
Open Scope Z_scope.

Section Gelqs.
  Context {F : fields}.
  Add Ring num_ring_lq_gelqs : (nring F).

  Lemma min_norm_adj : forall m n (A : Z -> Z -> F) b x, minimum_norm m n (LsAlgProofs.adj (conj_tr (N := F) A)) b x -> minimum_norm m n A b x.
  Proof.
    intros m n A b x [H1 H2].
    assert (E : forall y i, mat_vec n (LsAlgProofs.adj (conj_tr (N := F) A)) y i = mat_vec n A y i).
    { intros y i. unfold mat_vec. apply nsum_ext. intros l Hl. unfold LsAlgProofs.adj, conj_tr. rewrite nconj_conj. reflexivity. }
    split; [intros i Hi; rewrite <- E; auto|]. intros z Hz. apply H2. intros i Hi. rewrite E. auto.
  Qed.

  Lemma min_norm_ext : forall m n (A : Z -> Z -> F) b b' x x', (forall i, 0 <= i < m -> b i = b' i) -> (forall i, 0 <= i < n -> x i = x' i) ->
    minimum_norm m n A b x -> minimum_norm m n A b' x'.
  Proof.
    intros m n A b b' x x' HB HX [H1 H2]. split.
    - intros i Hi. rewrite <- HB, <- H1 by assumption. unfold mat_vec. apply nsum_ext. intros l Hl. rewrite HX by assumption. reflexivity.
    - intros z Hz. rewrite <- (H2 z Hz). apply nsum_ext. intros l Hl. rewrite HX by assumption. reflexivity.
  Qed.

  Lemma least_ext : forall m n (A : Z -> Z -> F) b b' x x', (forall i, 0 <= i < m -> b i = b' i) -> (forall i, 0 <= i < n -> x i = x' i) ->
    least_squares m n A b x -> least_squares m n A b' x'.
  Proof.
    intros m n A b b' x x' HB HX H r Hr. rewrite <- (H r Hr). apply nsum_ext. intros i Hi. rewrite HB by assumption.
    f_equal. f_equal. unfold mat_vec. apply nsum_ext. intros l Hl. rewrite HX by assumption. reflexivity.
  Qed.

  Lemma zgelqs_run : forall nb ib m n T bT (El : Z -> Z -> F) M taus (A0 : Z -> Z -> F), 0 < nb -> 0 < ib -> 0 < m <= n ->
    ltok nb ib m n T -> holds_l nb ib n m T bT El M taus ->
    (forall i j, 0 <= i < m -> 0 <= j < n ->
       A0 i j = nsum (fun l => nmul (if l <=? i then El i l else n0) (lmat nb n m El taus l j)) 0 n) ->
    (n1 : F) <> n0 -> full_row_rank m n A0 ->
    forall nrhs pA lda pB ldb bA bB M2, 0 <= nrhs -> Z.max 1 m <= lda -> Z.max 1 n <= ldb ->
    NoDup [bT; bA; bB] -> (forall b, In b [fst pA; fst pB] -> ~ In b [bT; bA; bB]) ->
    apart pA lda m n pB ldb n nrhs ->
    (forall i j, 0 <= i < m -> 0 <= j < n -> ul M2 pA lda i j = El i j) ->
    (forall l, fst l = bT -> M2 l = M l) ->
    driver_ensures (zgelqs (F := F) nb m n nrhs pA lda bT T pB ldb bA bB) M2 (fun M3 =>
      (forall j, 0 <= j < nrhs ->
         minimum_norm m n A0 (fun i => ul M2 pB ldb i j) (fun i => ul M3 pB ldb i j)) /\
      (forall l, fst l <> bA -> fst l <> bB -> ~ in_user pB ldb n nrhs l -> M3 l = M2 l)).
  Proof.
    intros nb ib m n T bT El M taus A0 Hnb Hib Hm HT HL HF NT RK nrhs pA lda pB ldb bA bB M2 Hnr Hlda Hldb HND HFr HAP HE HM.
    unfold zgelqs.
    destruct (Z.ltb_spec m 0); [lia|]. destruct (Z.ltb_spec n 0); [lia|]. destruct (Z.ltb_spec n m); [lia|]. cbn [orb].
    destruct (Z.ltb_spec nrhs 0); [lia|]. destruct (Z.ltb_spec lda (Z.max 1 m)); [lia|]. destruct (Z.ltb_spec ldb (Z.max 1 (Z.max 1 n))); [lia|].
    destruct ((m =? 0) || (n =? 0) || (nrhs =? 0)) eqn:QR.
    { cbn [driver_ensures]. split; [reflexivity|]. split; [|reflexivity]. intros j Hj. exfalso.
      rewrite !orb_true_iff, !Z.eqb_eq in QR. lia. }
    rewrite !orb_false_iff, !Z.eqb_neq in QR. destruct QR as [[Q1 Q2] Q3].
    destruct (ge_create_succeeds nb m n Hnb ltac:(lia) ltac:(lia)) as (A & EA & _). rewrite EA.
    destruct (ge_create_succeeds nb n nrhs Hnb ltac:(lia) ltac:(lia)) as (B & EB & _). rewrite EB.
    cbn [with_desc driver_ensures].
    destruct (ge_create_dn _ _ _ _ _ EA) as (DA & A1 & A2 & _).
    destruct (ge_create_dn _ _ _ _ _ EB) as (DB & B1 & B2 & B3 & B4).
    destruct (ge_create_gen _ _ _ _ _ EA) as (GA & _). destruct (ge_create_gen _ _ _ _ _ EB) as (GB & _). clear EA EB.
    replace ((d_m A =? 0) || (d_n A =? 0) || (d_n B =? 0)) with false
      by (symmetry; rewrite !orb_false_iff, !Z.eqb_neq; lia).
    assert (NAC : bA <> bB /\ bT <> bA /\ bT <> bB).
    { inversion_clear HND as [|? ? N1 N2]. inversion_clear N2 as [|? ? N3 N4]. cbn in *. intuition. }
    destruct NAC as (NAB & NTA & NTB).
    assert (FT : functionalZ (homeD T (in_tiles T))) by (apply homeD_functional; apply (tk_t _ _ _ _ _ (proj1 HT))).
    rewrite A1, A2. rewrite <- B1 at 1. fold (down_tasks (F := F) B bB m). fold (view_tasks (F := F) A B bA bB PlasmaLower m PlasmaNoTrans).
    eapply region_mono; [|apply (ext_region2 F nb bA A pA lda bB B pB ldb bT (homeD T (in_tiles T))); auto; rewrite ?A1, ?A2, ?B1, ?B2; auto; try lia].
    - intros M' (M3 & H1' & H2' & H3' & H4' & H5').
      rewrite A1, A2 in H1'. rewrite B1, B2 in H2', H4', H5'. rewrite !krun_app in H4', H5'.
      assert (X1 : forall i j, 0 <= i < m -> 0 <= j < n -> el M3 bA A i j = El i j) by (intros; rewrite H1' by assumption; apply HE; assumption).
      assert (X3 : forall l, fst l = bT -> M3 l = M l).
      { intros l Hl. rewrite H3' by congruence. apply HM. assumption. }
      pose proof (lmat_unitary (N := F) nb ib n m T bT El M taus Hnb ltac:(lia) HL) as UN.
      pose proof (under_fin (F := F) nb n m A B bA bB PlasmaLower PlasmaNoTrans GA DA GB DB (or_intror eq_refl) Hm ltac:(lia) ltac:(lia) B1 ltac:(lia) NAB
        (conj_tr (N := F) A0) (conj_tr (N := F) (lmat nb n m El taus)) (conj_tr (N := F) El) (conj_tr_unitary _ _ UN)
        (lq_adj m n A0 El (lmat nb n m El taus) ltac:(lia) HF) NT (row_col_rank _ _ _ RK) B3 B4
        M3 (fun i j => if j <=? i then El i j else n0)) as UF. cbv zeta in UF.
      destruct UF as [R2 R1].
      { intros i j Hi Hj. unfold uplo_sel. change (PlasmaLower =? PlasmaUpper) with false. change (PlasmaLower =? PlasmaLower) with true. cbv iota.
        destruct (j <=? i); [|reflexivity]. symmetry. apply X1; lia. }
      { intros i l Hi Hl. unfold op_of, rt, conj_tr. change (PlasmaNoTrans =? PlasmaNoTrans) with true. cbv iota.
        destruct (l <=? i); [rewrite nconj_conj|rewrite nconj_0]; reflexivity. }
      { intros i Hi. rewrite Z.leb_refl. right. unfold conj_tr. rewrite nconj_conj. reflexivity. }
      remember (krun (view_tasks A B bA bB PlasmaLower m PlasmaNoTrans) (krun (down_tasks B bB m) M3)) as M5 eqn:E5. clear E5.
      destruct (unmlq_eff (N := F) nb ib m n m T bT El M taus Hnb Hib Hm ltac:(lia) HT HL A bA B bB PlasmaLeft PlasmaConjTrans M5 DA A1 A2 DB B1 NAB NTB ltac:(auto)
        (or_introl eq_refl) (or_intror eq_refl)) as [U1 U2].
      { intros i j Hi Hj. rewrite <- X1 by assumption. unfold el. apply R2. cbn. assumption. }
      { intros l Hl. rewrite R2 by congruence. apply X3. assumption. }
      specialize (R1 (krun (pzunmlq PlasmaLeft PlasmaConjTrans bA A bT T bB B) M5)).
      assert (R3 := R1 ltac:(intros i j Hi Hj; rewrite U1 by lia; reflexivity)). clear R1.
      split.
      + intros j Hj. eapply min_norm_ext; [| |apply min_norm_adj; apply (R3 j); lia].
        * intros i Hi. cbv beta. apply H2'; lia.
        * intros i Hi. cbv beta. symmetry. apply H4'; lia.
      + intros l L1 L2 L3. rewrite H5' by assumption. rewrite U2, R2 by assumption. apply H3'; assumption.
    - intros env HEA HEB HET. apply Forall_app. split; [|apply Forall_app; split].
      + apply (down_tasks_ok nb B bB m DB GB B3 B4); [lia|assumption].
      + apply (view_tasks_ok (F := F) nb A B bA bB PlasmaLower m PlasmaNoTrans GA DA GB DB (or_intror eq_refl)); try assumption; lia.
      + apply (unmlq_ok (N := F) nb ib m n m T bT Hnb Hib); auto; try lia.
  Qed.

  Lemma zgelqs_main : forall (lg : F -> list F -> F * F * list F), larfg_ok lg -> (n1 : F) <> n0 ->
    forall nb ib m n pA lda bA bT M,
    0 < nb -> 0 < ib -> 0 <= m <= n -> Z.max 1 m <= lda -> NoDup [fst pA; bA; bT] ->
    full_row_rank m n (ul M pA lda) ->
    driver_ensures (zgelqf lg nb ib m n pA lda bA bT) M (fun M' =>
      forall T size nrhs pV ldv pB ldb bV bB M2,
        gelqf_T nb ib m n = CrOk T size ->
        0 < m -> 0 <= nrhs -> Z.max 1 m <= ldv -> Z.max 1 n <= ldb ->
        NoDup [bT; bV; bB] -> (forall b, In b [fst pV; fst pB] -> ~ In b [bT; bV; bB]) ->
        apart pV ldv m n pB ldb n nrhs ->
        (forall i j, 0 <= i < m -> 0 <= j < n -> ul M2 pV ldv i j = ul M' pA lda i j) ->
        (forall l, fst l = bT -> M2 l = M' l) ->
        driver_ensures (zgelqs (F := F) nb m n nrhs pV ldv bT T pB ldb bV bB) M2 (fun M3 =>
          (forall j, 0 <= j < nrhs ->
             minimum_norm m n (ul M pA lda) (fun i => ul M2 pB ldb i j) (fun i => ul M3 pB ldb i j)) /\
          (forall l, fst l <> bV -> fst l <> bB -> ~ in_user pB ldb n nrhs l -> M3 l = M2 l))).
  Proof.
    intros lg LG NT nb ib m n pA lda bA bT M Hnb Hib Hn Hlda HND RK.
    destruct (Z.eq_dec m 0) as [EK|EK].
    - pose proof (zgelqf_main (N := F) lg LG nb ib m n pA lda bA bT M Hnb Hib ltac:(lia) ltac:(lia) Hlda HND) as X.
      eapply driver_mono; [|exact X]. clear X. intros M' _. intros. lia.
    - eapply driver_mono; [|apply (zgelqf_core (N := F) lg LG nb ib m n pA lda bA bT M); auto; lia].
      intros M' (T & size & taus & El & ET & HT & HE & HL & HF & _). rewrite Z.min_l in HL, HF by lia.
      intros T' size' nrhs pV ldv pB ldb bV bB M2 HT' Hm Hnr Hldv Hldb HND2 HFr HAP HE2 HM.
      assert (T' = T) by congruence. subst T'.
      apply (zgelqs_run nb ib m n T bT El M' taus (ul M pA lda)); auto; try lia.
      intros i j Hi Hj. rewrite HE2 by assumption. apply HE; lia.
  Qed.
End Gelqs.
