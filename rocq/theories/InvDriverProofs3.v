(* plasma_zpoinv: the inverse of a Hermitian positive definite matrix. *)
From Coq Require Import ZArith List Bool Lia Ring.
From Verif Require Import Base NumModel NumProofs FieldModel TaskModel TaskSpec TaskProofs DescModel DescSpec
  DescDriverModel DescProofs DescPackProofs DescProofs3 DescProofs4 MatModel MatSpec MatProofs RegionProofs
  GuardModel GuardSpec GuardProofs GuardProofs2 GuardAnyProofs
  LayoutModel LayoutProofs LayoutProofs2 DriverModel DriverSpec OpProofs SimProofs OperandProofs GOperandProofs GAnyProofs
  GemmModel GemmProofs GemmDriverProofs RankModel RankProofs RankDriverProofs LasetModel LasetProofs EwDriverProofs
  TriModel TriSpec TriVecProofs TriProofs TrmmProofs TrsmProofs PotrfModel PotrfSpec CholProofs HpdProofs PotrfProofs PotrfDriverProofs
  InvSpec InvProofs ViewProofs TrtriModel TrtriTaskProofs TrtriStepProofs TrtriProofs TrtriCodeProofs TrtriDriverProofs
  LauumTaskProofs LauumProofs InvDriverProofs InvDriverProofs2.
Import ListNotations.
Open Scope Z_scope.

Lemma guilty_app : forall V (a b : list (cktask V)) M c, guilty (a ++ b) M c ->
  guilty a M c \/ In c (kcodes b (krun (map ck_task a) M)).
Proof.
  intros V a b M c (l1 & k & l2 & E & EC & HL).
  destruct (app_cons_cases _ _ _ _ _ _ E) as [(r & E1 & E2)|(r & E1 & E2)].
  - left. exists l1, k, r. auto.
  - right. subst b l1. rewrite kcodes_app. apply in_or_app. right. cbn [kcodes]. left.
    rewrite <- EC, map_app, krun_app. reflexivity.
Qed.

Lemma kcodes_In : forall V (l : list (cktask V)) M c, In c (kcodes l M) ->
  exists a x b, l = a ++ x :: b /\ ck_info x (krun (map ck_task a) M) = c.
Proof.
  intros V l. induction l as [|k l IH]; intros M c H; cbn in H; [contradiction|].
  destruct H as [H|H].
  - exists [], k, l. auto.
  - destruct (IH _ _ H) as (a & x & b & E1 & E2). exists (k :: a), x, b. split; [rewrite E1; reflexivity|exact E2].
Qed.

Lemma first_code_in : forall l, first_code l <> 0 -> In (first_code l) l.
Proof.
  intros l. induction l as [|c l IH]; cbn; intros H; [exfalso; apply H; reflexivity|].
  destruct (Z.eqb_spec c 0); [right; apply IH; assumption|left; reflexivity].
Qed.

(* if the tasks that may fail wait for each other, only the first failure counts *)
Lemma guilty_chain : forall V (ks : list (cktask V)) M c, Forall cksound ks -> fail_chain ks -> c <> 0 ->
  guilty ks M c -> first_code (kcodes ks M) = c.
Proof.
  intros V ks M c HS HC NZ (l1 & k & l2 & E & EC & HL). subst ks.
  assert (KS : forall x, In x (l1 ++ k :: l2) -> forall m, ck_info x m <> 0 -> ck_may_fail x = true).
  { intros x Hx m Hm. apply (proj1 (Forall_forall _ _) HS) in Hx. destruct Hx as [_ Hx].
    destruct (ck_may_fail x); [reflexivity|]. exfalso. apply Hm. auto. }
  rewrite kcodes_app, first_code_app.
  assert (Z1 : first_code (kcodes l1 M) = 0).
  { destruct (Z.eq_dec (first_code (kcodes l1 M)) 0) as [|N]; [assumption|]. exfalso.
    destruct (kcodes_In _ _ _ _ (first_code_in _ N)) as (a & x & b & E1 & E2).
    apply N. rewrite <- E2. apply (HL a x b E1). apply (HC a x b k l2).
    - rewrite E1, <- app_assoc. reflexivity.
    - apply (KS x) with (m := krun (map ck_task a) M); [rewrite E1; rewrite !in_app_iff; left; right; left; reflexivity|]. congruence.
    - apply (KS k) with (m := krun (map ck_task l1) M); [rewrite in_app_iff; right; left; reflexivity|]. congruence. }
  rewrite Z1. cbn. rewrite EC. apply Z.eqb_neq in NZ. rewrite NZ. reflexivity.
Qed.

Section Driver.
  Context {F : fields}.
  Add Ring num_ring_inv_driver3 : (nring F).
  Variable R : roots F.
  Variable rp : F -> F.
  Hypothesis Hrp : forall x, nconj x = x -> rp x = x.

  Lemma zpoinv_core : forall S nb uplo n pA lda bA M,
    0 < nb -> valid_uplo uplo -> 0 <= n -> Z.max 1 n <= lda -> fst pA <> bA ->
    is_hermitian M uplo pA lda n S ->
    gdriver_ensures (zpoinv rp R nb uplo n pA lda bA) M (fun M' st => exists L,
      chol_eqs R rp n S L /\
      st = first_bad (fun j => badp R (rp (piv L S j))) 0 n /\
      (st = 0 -> (exists X, is_hermitian M' uplo pA lda n X /\ is_inverse n S X) /\
                 (forall l, fst l <> bA -> ~ in_triangle uplo pA lda n l -> M' l = M l)) /\
      (forall l, fst l <> bA -> ~ in_user pA lda n n l -> M' l = M l)).
  Proof.
    intros S nb uplo n pA lda bA M Hb Hu Hn LA HP HS. pose proof HS as [HS1 HS2]. unfold zpoinv.
    assert (E1 : negb (uplo =? PlasmaUpper) && negb (uplo =? PlasmaLower) = false) by (destruct Hu as [->| ->]; reflexivity).
    rewrite E1. replace (n <? 0) with false by (symmetry; apply Z.ltb_ge; lia).
    replace (lda <? Z.max 1 n) with false by (symmetry; apply Z.ltb_ge; lia).
    remember (uview M uplo pA lda) as SV eqn:ESV.
    assert (SE : forall i j, 0 <= j <= i -> i < n -> SV i j = S i j).
    { intros i j Hj Hi. rewrite ESV. unfold uview. destruct Hu as [->| ->].
      - cbn. rewrite (HS2 j i) by (split; lia). apply f_equal. symmetry.
        apply HS1; [split; lia|]. left. split; [reflexivity|lia].
      - cbn. symmetry. apply HS1; [split; lia|]. right. split; [reflexivity|lia]. }
    remember (fst (potf2 R rp n SV)) as L eqn:EL.
    assert (CE : chol_eqs R rp n SV L).
    { destruct (potf2_inv R rp SV n Hn) as (_ & I2 & _). rewrite EL. destruct (I2 n); [assumption|lia]. }
    assert (CS : chol_eqs R rp n S L) by (eapply chol_eqs_ext; eauto).
    assert (PV : forall j, 0 <= j < n -> piv L SV j = piv L S j).
    { intros j Hj. unfold piv. rewrite SE by lia. reflexivity. }
    assert (FB : first_bad (fun j => badp R (rp (piv L SV j))) 0 n = first_bad (fun j => badp R (rp (piv L S j))) 0 n).
    { apply first_bad_ext. intros j Hj. rewrite PV by assumption. reflexivity. }
    destruct (Z.eqb_spec (Z.max n 0) 0) as [E0|E0].
    { cbn. exists L. assert (n = 0) as -> by lia. split; [assumption|]. split; [symmetry; apply first_bad_nil; lia|].
      split; [|auto]. intros _. split; [|auto].
      exists (fun _ _ => n0). split; [split; intros i j [Hi _]; lia|]. intros i j [Hi _]; lia. }
    destruct (tr_create_succeeds uplo nb n Hu Hb ltac:(lia)) as (A & sz & EA & A1 & A2). rewrite EA. cbn [with_gdesc].
    pose proof (tr_create_tri _ _ _ _ _ Hu EA) as TA. clear EA.
    replace (d_n A =? 0) with false by (symmetry; apply Z.eqb_neq; lia).
    pose proof (tri_sq _ _ _ _ TA) as HQ. pose proof (tri_tiles uplo nb n A Hu TA) as HSA.
    assert (DM : d_m A = n) by (apply (tk_m _ _ _ _ TA)). assert (DN : d_n A = n) by (apply (tk_n _ _ _ _ TA)).
    rewrite DN in HSA.
    rewrite (pzpotrf_eq nb n A bA uplo Hu TA R rp). fold (plist nb n A bA uplo R rp).
    rewrite (pztrtri_eq nb n A (in_tri A) bA uplo PlasmaNonUnit Hu HQ DM DN HSA).
    rewrite (pzlauum_eq nb n A (in_tri A) bA uplo Hu HQ DM DN HSA rp).
    fold (ilist rp nb n A bA uplo).
    rewrite <- (tr_opnd_in F bA A pA lda), <- (tr_opnd_out F bA A pA lda).
    assert (ST : forall i j, stored nb n i j <-> in_stored_tile (uplo =? PlasmaUpper) nb n
        (if uplo =? PlasmaLower then i else j) (if uplo =? PlasmaLower then j else i)).
    { intros i j. unfold stored, in_stored_tile. destruct Hu as [->| ->]; cbn; tauto. }
    assert (HSr : forall j, 0 <= j < n -> nconj (SV j j) = SV j j).
    { intros j Hj. rewrite SE by lia. symmetry. apply HS2. split; lia. }
    assert (OE : forall i j, in_stored_tile (uplo =? PlasmaUpper) nb n i j -> o_el (tr_opnd bA A pA lda) i j)
      by (intros; eapply tr_opnd_el; eauto).
    assert (OU : forall l, o_user (tr_opnd bA A pA lda) l ->
      exists i j, in_stored_tile (uplo =? PlasmaUpper) nb n i j /\ l = (fst pA, snd pA + i + j * lda)).
    { intros l (i & j & (I1 & I2 & I3) & E). cbn in I1, I2, I3, E. rewrite DM in I1. rewrite DN in I2.
      exists i, j. split; [|assumption]. eapply tri_stored_inv; eauto. }
    eapply gregion_mono2; [|apply (one_region_any F nb (tr_opnd bA A pA lda)
      (plist nb n A bA uplo R rp ++ ilist rp nb n A bA uplo))].
    - cbn [o_b o_p o_ld o_A tr_opnd]. intros M' st (M3 & H1 & H2 & H3 & H4 & H5). exists L. split; [assumption|].
      assert (RL : rel nb n A bA uplo M3 SV M3).
      { split; [reflexivity|]. intros i j Hij. apply ST in Hij. unfold VV, low. rewrite ESV. unfold uview.
        destruct (uplo =? PlasmaLower); [|apply f_equal]; apply H1; auto. }
      destruct (plist_step nb n A bA uplo Hu TA M3 R rp Hrp SV L CE HSr M3 RL) as [[R1 R2] R3].
      remember (krun (map ck_task (plist nb n A bA uplo R rp)) M3) as M4 eqn:EM4.
      remember (fun i j => if i <? j then SV i j else L i j) as S2 eqn:ES2.
      assert (D2 : forall i, S2 i i = L i i) by (intros i; rewrite ES2, Z.ltb_irrefl; reflexivity).
      assert (NZ2 : forall i, 0 <= i < n -> S2 i i <> n0).
      { intros i Hi. rewrite D2. apply (chol_diag_nz R rp n SV L CE i Hi). }
      assert (RE2 : forall i, 0 <= i < n -> nconj (S2 i i) = S2 i i).
      { intros i Hi. rewrite D2. apply (chol_diag_real R rp n SV L CE i Hi). }
      assert (VR : vrel nb n A bA uplo M4 S2 M4) by (split; [reflexivity|]; rewrite ES2; exact R2).
      assert (FR : forall l, fst l <> bA -> ~ in_user pA lda n n l -> M' l = M l).
      { intros l Hl HN. apply H5; [assumption|]. intros HO. destruct (OU l HO) as (i & j & (Hi & Hj & _) & E).
        apply HN. exists i, j. auto. }
      assert (STE : st = first_bad (fun j => badp R (rp (piv L S j))) 0 n).
      { rewrite <- FB, <- R3. destruct (Z.eq_dec st 0) as [Z0|NZ].
        - destruct (H4 Z0) as (K & _). apply kcodes_all0 in K. destruct K as [K _]. rewrite first_code_all0 by assumption. assumption.
        - destruct (guilty_app _ _ _ _ _ (H3 NZ)) as [G|G].
          + symmetry. apply guilty_chain; auto.
            * apply plist_sound; assumption.
            * pose proof (plist_chain nb n A bA uplo R rp []) as C. cbn [map] in C. rewrite app_nil_r in C.
              apply (ch_fail_chain _ None). assumption.
          + exfalso. rewrite <- EM4 in G. unfold ilist in G. rewrite kcodes_app in G. apply in_app_or in G.
            destruct G as [G|G]; [|apply NZ; apply (kcodes_sure0 _ _ _ _ G)].
            assert (PD0 : PD nb n A bA uplo S2 0 M4).
            { intros i Hi. apply (proj2 VR). repeat split; lia. }
            destruct (tlist_code_in nb n A (in_tri A) bA uplo PlasmaNonUnit Hu HQ DM DN HSA S2 M4 st PD0 G NZ) as (_ & C1 & C2 & _).
            apply (NZ2 (st - 1)); [lia|assumption]. }
      split; [exact STE|]. split; [|exact FR].
      intros Z0. destruct (H4 Z0) as (_ & H6 & H7). clear H3 H4 H5.
      rewrite map_app, krun_app, <- EM4 in H6, H7.
      destruct (ilist_step rp Hrp nb n A (in_tri A) bA uplo Hu HQ DM DN HSA M4 S2 NZ2 RE2 M4 VR) as [[Q1 Q2] _].
      remember (krun (map ck_task (ilist rp nb n A bA uplo)) M4) as M5 eqn:EM5.
      assert (HD' : forall i, 0 <= i < n -> TS PlasmaNonUnit S2 i i <> n0) by (intros i Hi; rewrite TS_diag; auto).
      pose proof (TS_low n S2) as HLo.
      assert (RV : forall i j, stored nb n i j ->
        uview M' uplo pA lda i j = if j <=? i then whw n (inverse n (TS PlasmaNonUnit S2)) i j else SV i j).
      { intros i j Hij. transitivity (vview A bA uplo M5 i j).
        - apply ST in Hij. unfold uview, vview, vlow. destruct (uplo =? PlasmaLower); [|apply f_equal]; apply H6; auto.
        - rewrite Q2 by assumption. destruct (Z.leb_spec j i); [reflexivity|]. rewrite ES2.
          replace (i <? j) with true by (symmetry; apply Z.ltb_lt; lia). reflexivity. }
      split.
      + exists (whw n (inverse n (TS PlasmaNonUnit S2))). split.
        * apply view_hermitian; [assumption|]. intros i j Hj Hi. rewrite RV.
          -- replace (j <=? i) with true by (symmetry; apply Z.leb_le; lia). reflexivity.
          -- repeat split; try lia. apply Z.div_le_mono; lia.
        * assert (HG : good R rp S L n).
          { intros j Hj. rewrite STE in Z0. apply (first_bad_zero _ 0 n Z0 ltac:(lia) j Hj). }
          assert (HH : forall i j, 0 <= i < n -> 0 <= j < n -> S j i = nconj (S i j)) by (intros; apply HS2; split; assumption).
          assert (VP : forall i j, 0 <= i < n -> 0 <= j < n -> S i j = vvh n (TS PlasmaNonUnit S2) i j).
          { intros i j Hi Hj. rewrite <- (gram_off R rp Hrp n S L CS HH n i j ltac:(lia) HG Hi Hj ltac:(lia)).
            unfold vvh. apply nsum_ext. intros l Hl. unfold TS. change (PlasmaNonUnit =? PlasmaUnit) with false. cbn [andb].
            rewrite ES2. rewrite !Z.ltb_antisym. destruct (l <=? i), (l <=? j); cbn [negb]; rewrite ?nconj_0; reflexivity. }
          intros i j [Hi Hj].
          destruct (whw_inverse n (TS PlasmaNonUnit S2) (inverse n (TS PlasmaNonUnit S2))) with (i := i) (j := j) as [G1 G2].
          { intros a b Ha Hb'. apply (inverse_r n (TS PlasmaNonUnit S2) HD' HLo); assumption. }
          { intros a b Ha Hb'. apply (inverse_l n (TS PlasmaNonUnit S2) HD' HLo); assumption. }
          { split; assumption. }
          split.
          -- rewrite <- G1. apply nsum_ext. intros l Hl. rewrite VP by assumption. reflexivity.
          -- rewrite <- G2. apply nsum_ext. intros l Hl. rewrite VP by assumption. reflexivity.
      + intros l Hl HN.
        destruct (stored_split (uplo =? PlasmaUpper) nb n pA lda l ltac:(lia)) as [(i & j & HI & E)|HI].
        * assert (NS : ~ selects uplo i j).
          { intros HX. apply HN. exists i, j. destruct HI as (Hi & Hj & _). repeat split; auto; lia. }
          rewrite (selects_view uplo i j Hu) in NS.
          rewrite E. change (ul M' pA lda i j = ul M pA lda i j).
          pose proof (ST (if uplo =? PlasmaLower then i else j) (if uplo =? PlasmaLower then j else i)) as ST'.
          pose proof (RV (if uplo =? PlasmaLower then i else j) (if uplo =? PlasmaLower then j else i)) as RV'.
          rewrite ESV in RV'. unfold uview in RV'. destruct (uplo =? PlasmaLower).
          -- apply ST' in HI. specialize (RV' HI). replace (j <=? i) with false in RV' by (symmetry; apply Z.leb_gt; lia). exact RV'.
          -- apply ST' in HI. specialize (RV' HI). replace (i <=? j) with false in RV' by (symmetry; apply Z.leb_gt; lia).
             rewrite <- (nconj_conj F (ul M' pA lda i j)), RV'. apply nconj_conj.
        * rewrite H7.
          -- rewrite Q1, R1 by assumption. apply H2. assumption.
          -- intros HO. destruct (OU l HO) as (i & j & HI' & E). apply (HI i j); assumption.
    - eapply tr_opnd_ok; [exact TA|lia].
    - assumption.
    - rewrite map_app. apply Forall_app. split; [apply plist_kgood; assumption|].
      apply (ilist_kgood rp nb n A (in_tri A) bA uplo Hu HQ DM DN HSA).
    - apply Forall_app. split; [apply plist_sound; assumption|]. apply (ilist_sound rp nb n A (in_tri A) bA uplo Hu HQ DM DN HSA).
    - intros env HE. rewrite map_app. apply Forall_app. split; [apply plist_kdecl; assumption|].
      apply (ilist_kdecl rp nb n A (in_tri A) bA uplo Hu HQ DM DN HSA). assumption.
    - intros k l Hk HW. apply in_app_or in Hk. destruct Hk as [Hk|Hk]; [eapply plist_writes; eauto|].
      eapply ilist_writes; eauto.
  Qed.
End Driver.

Lemma zpoinv_inverts : forall (F : fields) (R : roots F) (rp : F -> F) S nb uplo n pA lda bA M,
  (forall x, nconj x = x -> rp x = x) ->
  0 < nb -> valid_uplo uplo -> 0 <= n -> Z.max 1 n <= lda -> fst pA <> bA ->
  is_hermitian M uplo pA lda n S ->
  gdriver_ensures (zpoinv rp R nb uplo n pA lda bA) M (fun M' st =>
    (st = 0 -> (exists X, is_hermitian M' uplo pA lda n X /\ is_inverse n S X) /\
               (forall l, fst l <> bA -> ~ in_triangle uplo pA lda n l -> M' l = M l)) /\
    (forall l, fst l <> bA -> ~ in_user pA lda n n l -> M' l = M l)).
Proof.
  intros F R rp S nb uplo n pA lda bA M Hrp Hb Hu Hn LA HP HS.
  eapply gdriver_mono; [|apply (zpoinv_core R rp Hrp S); eassumption].
  intros M' st (L & _ & _ & H0 & H1). auto.
Qed.

Lemma zpoinv_status : forall (F : fields) (R : roots F) (rp : F -> F) (P : positivity F) S nb uplo n pA lda bA M,
  (forall x, nconj x = x -> rp x = x) -> has_roots P R ->
  0 < nb -> valid_uplo uplo -> 0 <= n -> Z.max 1 n <= lda -> fst pA <> bA ->
  is_hermitian M uplo pA lda n S ->
  gdriver_ensures (zpoinv rp R nb uplo n pA lda bA) M (fun M' st =>
    (st = 0 /\ pos_def P n S) \/
    (0 < st <= n /\ pos_def P (st - 1) S /\ ~ pos_def P st S)).
Proof.
  intros F R rp P S nb uplo n pA lda bA M Hrp HR Hb Hu Hn LA HP HS.
  eapply gdriver_mono; [|apply (zpoinv_core R rp Hrp S); eassumption].
  intros M' st (L & CE & ST & _). destruct HS as [_ HS2].
  assert (HH : forall i j, 0 <= i < n -> 0 <= j < n -> S j i = nconj (S i j)) by (intros; apply HS2; split; assumption).
  destruct (Z.eq_dec st 0) as [E|E].
  - left. split; [assumption|]. apply (good_pd R rp P Hrp n S L CE HH n); [lia|].
    intros j Hj. rewrite ST in E. apply (first_bad_zero _ 0 n E ltac:(lia) j Hj).
  - right. symmetry in ST. destruct (first_bad_pos _ 0 n st ltac:(lia) ST E) as (S1 & S2 & S3).
    split; [assumption|]. split.
    + apply (good_pd R rp P Hrp n S L CE HH); [lia|]. intros j Hj. apply S3. lia.
    + replace st with (st - 1 + 1) by lia. apply (bad_not_pd R rp P Hrp HR n S L CE HH); [lia| |assumption].
      intros j Hj. apply S3. lia.
Qed.
