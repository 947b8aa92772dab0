(* plasma_ztrsm, the whole driver *)
From Coq Require Import ZArith List Bool Lia Ring.
From Verif Require Import Base NumModel NumProofs FieldModel TaskModel TaskSpec TaskProofs DescModel DescSpec
  DescDriverModel DescProofs DescPackProofs DescProofs3 DescProofs4 MatModel MatSpec MatProofs RegionProofs
  LayoutModel LayoutProofs LayoutProofs2 DriverModel DriverSpec OpProofs SimProofs OperandProofs
  GemmModel GemmProofs GemmDriverProofs RankProofs RankDriverProofs LasetModel LasetProofs TriModel TriSpec
  TriVecProofs TriProofs TrmmProofs TrmmDriverProofs TrsmProofs.
Import ListNotations.
Open Scope Z_scope.

Section Driver.
  Context {F : fields}.
  Add Ring num_ring_trsmd : (nring F).

  Lemma nconj_nz : forall x : F, x <> n0 -> nconj x <> n0.
  Proof.
    intros x Hx E. apply Hx. rewrite <- (nconj_conj F x), E. apply nconj_0.
  Qed.

  Lemma ztrsm_main : forall (S : Z -> Z -> F) nb side uplo trans diag m n (alpha : F) pA lda pB ldb bA bB M,
    0 < nb -> side = PlasmaLeft \/ side = PlasmaRight -> valid_uplo uplo -> valid_trans trans ->
    diag = PlasmaUnit \/ diag = PlasmaNonUnit -> 0 <= m -> 0 <= n ->
    let k := if side =? PlasmaLeft then m else n in
    Z.max 1 k <= lda -> Z.max 1 m <= ldb ->
    NoDup [bA; bB] -> (forall b, In b [fst pA; fst pB] -> ~ In b [bA; bB]) ->
    apart pA lda k k pB ldb m n ->
    is_triangle M uplo diag pA lda k S ->
    (forall i, 0 <= i < k -> S i i <> n0) ->
    (side = PlasmaRight -> trans <> PlasmaNoTrans -> nb < n -> alpha <> n0) ->
    exists d, ztrsm nb side uplo trans diag m n alpha pA lda pB ldb bA bB = Some d /\
    driver_ensures d M (fun M' =>
      (forall i j, in_matrix m n i j ->
         (if side =? PlasmaLeft
          then nsum (fun l => nmul (op_of trans S i l) (ul M' pB ldb l j)) 0 m
          else nsum (fun l => nmul (ul M' pB ldb i l) (op_of trans S l j)) 0 n)
         = nmul alpha (ul M pB ldb i j)) /\
      (forall l, ~ In (fst l) [bA; bB] -> ~ in_user pB ldb m n l -> M' l = M l)).
  Proof.
    intros S nb side uplo trans diag m n alpha pA lda pB ldb bA bB M Hnb Hsd Hu Ht Hd Hm Hn k LA LB ND HF AP HS HNS HAL.
    unfold ztrsm. fold k.
    replace ((side =? PlasmaLeft) || (side =? PlasmaRight)) with true by (destruct Hsd as [->| ->]; reflexivity).
    replace ((uplo =? PlasmaUpper) || (uplo =? PlasmaLower)) with true by (destruct Hu as [->| ->]; reflexivity).
    rewrite (trans_b3 trans Ht).
    replace ((diag =? PlasmaUnit) || (diag =? PlasmaNonUnit)) with true by (destruct Hd as [->| ->]; reflexivity).
    cbn [negb].
    replace (m <? 0) with false by (symmetry; apply Z.ltb_ge; lia).
    replace (n <? 0) with false by (symmetry; apply Z.ltb_ge; lia). cbv zeta.
    replace (lda <? Z.max 1 k) with false by (symmetry; apply Z.ltb_ge; lia).
    replace (ldb <? Z.max 1 m) with false by (symmetry; apply Z.ltb_ge; lia).
    destruct ((m =? 0) || (n =? 0)) eqn:Q.
    { eexists. split; [reflexivity|]. cbn. split; [reflexivity|]. split; [|reflexivity].
      intros i j [Hi Hj]. rewrite orb_true_iff, !Z.eqb_eq in Q. lia. }
    rewrite orb_false_iff, !Z.eqb_neq in Q.
    assert (Z0 : 0 < m /\ 0 < n) by lia.
    assert (Hk : 0 < k) by (unfold k; destruct (side =? PlasmaLeft); lia).
    destruct (ge_create_succeeds nb k k Hnb ltac:(lia) ltac:(lia)) as (A & EA & _). rewrite EA.
    destruct (ge_create_dn _ _ _ _ _ EA) as (DA & A1 & A2 & _). clear EA.
    destruct (ge_create_succeeds nb m n Hnb Hm Hn) as (B & EB & _). rewrite EB.
    destruct (ge_create_dn _ _ _ _ _ EB) as (DB & B1 & B2 & _). clear EB.
    replace ((d_m B =? 0) || (d_n B =? 0)) with false.
    2:{ symmetry. rewrite B1, B2, !orb_false_iff, !Z.eqb_neq. lia. }
    assert (N1 : bA <> bB) by (inversion_clear ND as [|? ? X Y]; cbn in X; intuition).
    assert (AM : d_n A = if lft side then d_m B else d_n B) by (rewrite A2, B1, B2; reflexivity).
    assert (AS : d_m A = d_n A) by congruence.
    assert (HT : forall i j, 0 <= i < ntl nb (d_n A) -> 0 <= j < ntl nb (d_n A) -> uplo_sel uplo i j = true -> in_tiles A i j).
    { intros i j Hi Hj _. unfold in_tiles. rewrite (dn_mt nb A DA), (dn_nt nb A DA), AS. auto. }
    assert (HDV : dv side trans = true -> 1 < ntl nb (d_n A) -> alpha <> n0).
    { unfold dv, lft. rewrite andb_true_iff, !negb_true_iff, !Z.eqb_neq. intros [D1 D2] D3. apply HAL; auto.
      - destruct Hsd; [contradiction|assumption].
      - rewrite A2 in D3. unfold k in D3. replace (side =? PlasmaLeft) with false in D3 by (symmetry; apply Z.eqb_neq; assumption).
        apply (ntl_spec nb n 1) in D3; lia. }
    replace (pztrsm_divides side trans B && neqb alpha n0) with false.
    2:{ symmetry. destruct (pztrsm_divides side trans B) eqn:ED; [|reflexivity]. cbn [andb].
        destruct (neqb alpha n0) eqn:EZ; [|reflexivity]. exfalso. apply neqb_eq in EZ.
        unfold pztrsm_divides in ED. rewrite !andb_true_iff in ED. destruct ED as [[[D1 D2] _] D3].
        apply HDV; [unfold dv, lft; rewrite D1, D2; reflexivity| |assumption].
        apply Z.ltb_lt in D3. rewrite (dn_nt nb B DB), B2 in D3. rewrite A2. unfold k.
        apply negb_true_iff in D1. rewrite D1. exact D3. }
    eexists. split; [reflexivity|]. cbn [driver_ensures].
    eapply region_mono; [|apply (ge_region2 F nb bA A pA lda bB B pB ldb)]; auto;
      try (rewrite ?A1, ?A2, ?B1, ?B2; auto; lia).
    - intros M' (M3 & H1 & H2 & H3 & H4 & H5). rewrite A1, A2 in H1. rewrite B1, B2 in H2, H4, H5.
      pose proof (TT_spec F M3 M A bA side uplo trans diag pA lda k S Hu Hd HS (fun i j Hi Hj _ => H1 i j Hi Hj)) as TS.
      assert (TD : forall r, 0 <= r < d_n A -> TT A bA side uplo trans diag M3 r r <> n0).
      { intros r Hr. rewrite A2 in Hr. rewrite TS by assumption. pose proof (HNS r Hr) as NZ.
        unfold op_of. destruct (side =? PlasmaLeft); destruct (trans =? PlasmaNoTrans); auto;
          destruct (trans =? PlasmaTrans); auto using nconj_nz. }
      pose proof (pztrsm_at nb A B (in_tiles A) bA bB side uplo trans diag alpha DA DB Hu AS AM HT N1 M3 TD HDV) as AT.
      cbv zeta in AT.
      rewrite A2 in AT. unfold elV, oth, lft in AT. rewrite B1, B2 in AT. split.
      + intros i j [Hi Hj]. unfold k in TS, AT. destruct (side =? PlasmaLeft).
        * destruct (AT j Hj) as [_ V]. rewrite <- H2 by assumption. rewrite <- V by assumption.
          apply nsum_ext. intros l Hl. rewrite H4, TS by assumption. reflexivity.
        * destruct (AT i Hi) as [_ V]. rewrite <- H2 by assumption. rewrite <- V by assumption.
          apply nsum_ext. intros l Hl. rewrite H4, TS by assumption. ring.
      + intros l Hl Hl'. rewrite H5 by assumption. rewrite <- H3 by assumption.
        destruct (AT 0) as [X _]; [destruct (side =? PlasmaLeft); lia|]. apply X. cbn in Hl. intuition.
    - apply (pztrsm_kgood nb A B (in_tiles A)); auto.
    - intros env E1 E2. apply (pztrsm_kdecl nb A B (in_tiles A)); auto.
  Qed.

  (* the excluded case divides by zero *)
  Lemma ztrsm_alpha0 : forall nb side uplo trans diag m n pA lda pB ldb bA bB,
    0 < nb -> side = PlasmaRight -> valid_uplo uplo -> valid_trans trans -> trans <> PlasmaNoTrans ->
    diag = PlasmaUnit \/ diag = PlasmaNonUnit -> 0 < m -> nb < n ->
    n <= lda -> m <= ldb ->
    ztrsm nb side uplo trans diag m n (n0 : F) pA lda pB ldb bA bB = None.
  Proof.
    intros nb side uplo trans diag m n pA lda pB ldb bA bB Hnb -> Hu Ht Hnt Hd Hm Hn LA LB.
    unfold ztrsm.
    replace ((uplo =? PlasmaUpper) || (uplo =? PlasmaLower)) with true by (destruct Hu as [->| ->]; reflexivity).
    rewrite (trans_b3 trans Ht).
    replace ((diag =? PlasmaUnit) || (diag =? PlasmaNonUnit)) with true by (destruct Hd as [->| ->]; reflexivity).
    replace ((PlasmaRight =? PlasmaLeft) || (PlasmaRight =? PlasmaRight)) with true by reflexivity.
    replace (PlasmaRight =? PlasmaLeft) with false by reflexivity.
    cbn [negb].
    replace (m <? 0) with false by (symmetry; apply Z.ltb_ge; lia).
    replace (n <? 0) with false by (symmetry; apply Z.ltb_ge; lia). cbv zeta.
    replace (lda <? Z.max 1 n) with false by (symmetry; apply Z.ltb_ge; lia).
    replace (ldb <? Z.max 1 m) with false by (symmetry; apply Z.ltb_ge; lia).
    replace ((m =? 0) || (n =? 0)) with false.
    2:{ symmetry. rewrite !orb_false_iff, !Z.eqb_neq. lia. }
    destruct (ge_create_succeeds nb n n Hnb ltac:(lia) ltac:(lia)) as (A & EA & _). rewrite EA.
    destruct (ge_create_succeeds nb m n Hnb ltac:(lia) ltac:(lia)) as (B & EB & _). rewrite EB.
    destruct (ge_create_dn _ _ _ _ _ EB) as (DB & B1 & B2 & _). clear EB EA.
    replace ((d_m B =? 0) || (d_n B =? 0)) with false.
    2:{ symmetry. rewrite B1, B2, !orb_false_iff, !Z.eqb_neq. lia. }
    unfold pztrsm_divides. rewrite (dn_mt nb B DB), (dn_nt nb B DB), B1, B2.
    replace (trans =? PlasmaNoTrans) with false by (symmetry; apply Z.eqb_neq; assumption).
    replace (0 <? ntl nb m) with true by (symmetry; apply Z.ltb_lt; apply ntl_spec; lia).
    replace (1 <? ntl nb n) with true by (symmetry; apply Z.ltb_lt; apply ntl_spec; lia).
    replace (neqb (n0 : F) n0) with true by (symmetry; apply neqb_eq; reflexivity). reflexivity.
  Qed.
End Driver.

Lemma ztrsm_zero_scalar : exists nb side uplo trans diag m n,
  0 < nb /\ side = PlasmaRight /\ valid_uplo uplo /\ valid_trans trans /\
  (diag = PlasmaUnit \/ diag = PlasmaNonUnit) /\ 0 < m /\ 0 < n /\
  forall (F : fields) pA lda pB ldb bA bB, n <= lda -> m <= ldb ->
    ztrsm nb side uplo trans diag m n (n0 : F) pA lda pB ldb bA bB = None.
Proof.
  assert (V1 : valid_uplo PlasmaUpper) by (left; reflexivity).
  assert (V2 : valid_trans PlasmaTrans) by (unfold valid_trans; auto).
  exists 1, PlasmaRight, PlasmaUpper, PlasmaTrans, PlasmaUnit, 1, 2.
  split; [lia|]. split; [reflexivity|]. split; [assumption|]. split; [assumption|].
  split; [left; reflexivity|]. split; [lia|]. split; [lia|].
  intros F pA lda pB ldb bA bB LA LB. apply ztrsm_alpha0; auto; try lia; discriminate.
Qed.
