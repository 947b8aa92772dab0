(* plasma_ztrmm, the whole driver *)
From Coq Require Import ZArith List Bool Lia Ring.
From Verif Require Import Base NumModel NumProofs FieldModel TaskModel TaskSpec TaskProofs DescModel DescSpec
  DescDriverModel DescProofs DescPackProofs DescProofs3 DescProofs4 MatModel MatSpec MatProofs RegionProofs
  LayoutModel LayoutProofs LayoutProofs2 DriverModel DriverSpec OpProofs SimProofs OperandProofs
  GemmModel GemmProofs GemmDriverProofs RankProofs RankDriverProofs LasetModel LasetProofs TriModel TriSpec
  TriVecProofs TriProofs TrmmProofs.
Import ListNotations.
Open Scope Z_scope.

Lemma trans_b3 : forall t, valid_trans t -> (t =? PlasmaConjTrans) || (t =? PlasmaNoTrans) || (t =? PlasmaTrans) = true.
Proof. intros t [->|[->| ->]]; reflexivity. Qed.

(* the matrix the tasks use is the one of the specification *)
Lemma TT_spec : forall (N : numbers) (M3 M : mem N) A bA side uplo trans diag pA lda k (S : Z -> Z -> N),
  valid_uplo uplo -> diag = PlasmaUnit \/ diag = PlasmaNonUnit ->
  is_triangle M uplo diag pA lda k S ->
  (forall i j, 0 <= i < k -> 0 <= j < k -> uplo_sel uplo i j = true -> el M3 bA A i j = ul M pA lda i j) ->
  forall r l, 0 <= r < k -> 0 <= l < k ->
  TT A bA side uplo trans diag M3 r l
  = if side =? PlasmaLeft then op_of trans S r l else op_of trans S l r.
Proof.
  intros N M3 M A bA side uplo trans diag pA lda k S Hu Hd HS HE r l Hr Hl.
  assert (G : forall i j, 0 <= i < k -> 0 <= j < k -> tri_el A bA uplo diag M3 i j = S i j).
  { intros i j Hi Hj. destruct (HS i j) as (S1 & S2 & S3); [split; assumption|]. unfold tri_el.
    destruct (uplo_sel uplo i j) eqn:E.
    - destruct (Z.eqb_spec diag PlasmaUnit) as [ED|ED]; cbn [andb].
      + destruct (Z.eqb_spec i j) as [EJ|EJ]; [symmetry; auto|].
        rewrite HE by assumption. symmetry. apply S1; [apply selects_sel; assumption|left; assumption].
      + rewrite HE by assumption. symmetry. apply S1; [apply selects_sel; assumption|right].
        destruct Hd; [contradiction|assumption].
    - assert (NS : ~ selects uplo i j).
      { intros H. apply selects_sel in H; auto. congruence. }
      rewrite (S3 NS). replace (i =? j) with false; [rewrite andb_false_r; reflexivity|].
      symmetry. apply Z.eqb_neq. intros ->. apply NS. destruct Hu as [->| ->]; [left|right]; split; auto; lia. }
  unfold TT, op_tel, op_of, lft. destruct (side =? PlasmaLeft); rewrite !G by assumption; reflexivity.
Qed.

Section Driver.
  Context {N : numbers}.
  Add Ring num_ring_trmmd : (nring N).

  Lemma ztrmm_main : forall (S : Z -> Z -> N) nb side uplo trans diag m n (alpha : N) pA lda pB ldb bA bB M,
    0 < nb -> side = PlasmaLeft \/ side = PlasmaRight -> valid_uplo uplo -> valid_trans trans ->
    diag = PlasmaUnit \/ diag = PlasmaNonUnit -> 0 <= m -> 0 <= n ->
    let k := if side =? PlasmaLeft then m else n in
    Z.max 1 k <= lda -> Z.max 1 m <= ldb ->
    NoDup [bA; bB] -> (forall b, In b [fst pA; fst pB] -> ~ In b [bA; bB]) ->
    apart pA lda k k pB ldb m n ->
    is_triangle M uplo diag pA lda k S ->
    driver_ensures (ztrmm nb side uplo trans diag m n alpha pA lda pB ldb bA bB) M (fun M' =>
      (forall i j, in_matrix m n i j -> ul M' pB ldb i j
         = nmul alpha (if side =? PlasmaLeft
                       then nsum (fun l => nmul (op_of trans S i l) (ul M pB ldb l j)) 0 m
                       else nsum (fun l => nmul (ul M pB ldb i l) (op_of trans S l j)) 0 n)) /\
      (forall l, ~ In (fst l) [bA; bB] -> ~ in_user pB ldb m n l -> M' l = M l)).
  Proof.
    intros S nb side uplo trans diag m n alpha pA lda pB ldb bA bB M Hnb Hsd Hu Ht Hd Hm Hn k LA LB ND HF AP HS.
    unfold ztrmm. fold k.
    replace ((side =? PlasmaLeft) || (side =? PlasmaRight)) with true by (destruct Hsd as [->| ->]; reflexivity).
    replace ((uplo =? PlasmaUpper) || (uplo =? PlasmaLower)) with true by (destruct Hu as [->| ->]; reflexivity).
    rewrite (trans_b3 trans Ht).
    replace ((diag =? PlasmaUnit) || (diag =? PlasmaNonUnit)) with true by (destruct Hd as [->| ->]; reflexivity).
    cbn [negb].
    replace (m <? 0) with false by (symmetry; apply Z.ltb_ge; lia).
    replace (n <? 0) with false by (symmetry; apply Z.ltb_ge; lia). cbv zeta.
    replace (lda <? Z.max 1 k) with false by (symmetry; apply Z.ltb_ge; lia).
    replace (ldb <? Z.max 1 m) with false by (symmetry; apply Z.ltb_ge; lia).
    destruct (Z.eqb_spec (Z.min m n) 0) as [Q|Q].
    { cbn. split; [reflexivity|]. split; [|reflexivity]. intros i j [Hi Hj]. lia. }
    assert (Hk : 0 < k) by (unfold k; destruct (side =? PlasmaLeft); lia).
    destruct (tr_create_succeeds uplo nb k Hu Hnb ltac:(lia)) as (A & sz & EA & A1 & A2). rewrite EA.
    pose proof (tr_create_tri _ _ _ _ _ Hu EA) as TA. clear EA.
    destruct (ge_create_succeeds nb m n Hnb Hm Hn) as (B & EB & _). rewrite EB.
    cbn [with_desc driver_ensures].
    assert (TB : d_type B <> PlasmaGeneralBand).
    { unfold ge_create in EB.
      destruct (general_create_ok _ _ _ _ _ _ _ _ _ _ _ (Z.le_refl 0) (Z.le_refl 0) EB) as (G & _ & _).
      rewrite (gk_type _ G). discriminate. }
    destruct (ge_create_dn _ _ _ _ _ EB) as (DB & B1 & B2 & _). clear EB.
    replace ((d_m A =? 0) || (d_n A =? 0) || (d_m B =? 0) || (d_n B =? 0)) with false.
    2:{ symmetry. rewrite A1, A2, B1, B2, !orb_false_iff, !Z.eqb_neq. lia. }
    assert (N1 : bA <> bB) by (inversion_clear ND as [|? ? X Y]; cbn in X; intuition).
    assert (AM : d_n A = if lft side then d_m B else d_n B) by (rewrite A2, B1, B2; reflexivity).
    assert (AS : d_m A = d_n A) by congruence.
    pose proof (tri_sq _ _ _ _ TA) as SQ. pose proof (tri_tiles uplo nb k A Hu TA) as HT.
    assert (Z0 : 0 < m /\ 0 < n) by lia.
    destruct (neqb alpha n0) eqn:EZ.
    - apply neqb_eq in EZ. subst alpha.
      eapply region_mono; [|apply (tr_region2 N nb uplo k bA A pA lda bB B pB ldb)]; auto; try (rewrite ?B1, ?B2; auto; lia).
      + intros M' (M3 & H1 & H2 & H3 & H4 & H5). rewrite B1, B2 in H2, H4, H5.
        assert (AT : forall i j, 0 <= i < m -> 0 <= j < n ->
                  at_elem M3 bB B i j (krun (pzlaset PlasmaGeneral n0 n0 bB B) M3) n0).
        { intros i j Hi Hj. pose proof (pzlaset_at nb B bB PlasmaGeneral (n0 : N) n0 DB TB (or_introl eq_refl) M3 i j) as X.
          rewrite B1, B2 in X. specialize (X Hi Hj). unfold las_val in X.
          replace (uplo_sel PlasmaGeneral i j) with true in X by reflexivity. destruct (i =? j); exact X. }
        split.
        * intros i j [Hi Hj]. rewrite H4 by assumption. destruct (AT i j Hi Hj) as [_ ->].
          match goal with |- n0 = nmul n0 ?x => generalize x end. intros x. ring.
        * intros l Hl Hl'. rewrite H5 by assumption. rewrite <- H3 by assumption.
          destruct (AT 0 0) as [X _]; [lia|lia|]. apply X. cbn in Hl. intuition.
      + apply (pzlaset_kgood nb); auto.
      + intros env E1 E2. apply (pzlaset_kdecl nb); auto.
    - eapply region_mono; [|apply (tr_region2 N nb uplo k bA A pA lda bB B pB ldb)]; auto; try (rewrite ?B1, ?B2; auto; lia).
      + intros M' (M3 & H1 & H2 & H3 & H4 & H5). rewrite B1, B2 in H2, H4, H5.
        pose proof (pztrmm_at nb A B (in_tri A) bA bB side uplo trans diag alpha SQ DB Hu AS AM HT N1 M3) as AT.
        cbv zeta in AT.
        pose proof (TT_spec N M3 M A bA side uplo trans diag pA lda k S Hu Hd HS H1) as TS.
        rewrite A2 in AT. unfold elV, oth, lft in AT. rewrite B1, B2 in AT. split.
        * intros i j [Hi Hj]. rewrite H4 by assumption. unfold k in TS, AT. destruct (side =? PlasmaLeft).
          -- destruct (AT j Hj) as [_ V]. rewrite V by assumption. apply f_equal. apply nsum_ext. intros l Hl.
             rewrite TS, H2 by assumption. reflexivity.
          -- destruct (AT i Hi) as [_ V]. rewrite V by assumption. apply f_equal. apply nsum_ext. intros l Hl.
             rewrite TS, H2 by assumption. ring.
        * intros l Hl Hl'. rewrite H5 by assumption. rewrite <- H3 by assumption.
          destruct (AT 0) as [X _]; [destruct (side =? PlasmaLeft); lia|]. apply X. cbn in Hl. intuition.
      + apply (pztrmm_kgood nb A B (in_tri A)); auto.
      + intros env E1 E2. apply (pztrmm_kdecl nb A B (in_tri A)); auto.
  Qed.
End Driver.
