(* plasma_zpotrf. *)
From Coq Require Import ZArith List Bool Lia Ring.
From Verif Require Import Base NumModel NumProofs FieldModel TaskModel TaskSpec TaskProofs DescModel DescSpec
  DescDriverModel DescProofs DescPackProofs DescProofs3 DescProofs4 MatModel MatSpec MatProofs RegionProofs
  GuardModel GuardSpec GuardProofs GuardProofs2
  LayoutModel LayoutProofs LayoutProofs2 DriverModel DriverSpec OpProofs SimProofs OperandProofs GOperandProofs
  GemmModel GemmProofs GemmDriverProofs RankModel RankProofs RankDriverProofs LasetModel LasetProofs
  TriModel TriSpec TriVecProofs TriProofs TrmmProofs TrmmDriverProofs PotrfModel PotrfSpec CholProofs HpdProofs PotrfProofs.
Import ListNotations.
Open Scope Z_scope.

Lemma gregion_mono : forall V (ks : list (cktask V)) M (Q Q' : mem V -> Z -> Prop),
  (forall M' st, Q M' st -> Q' M' st) -> gregion_ensures ks M Q -> gregion_ensures ks M Q'.
Proof.
  intros V ks M Q Q' H [H1 H2]. split; [assumption|]. intros ts s HF HS.
  destruct (H2 ts s HF HS) as [H3 H4]. split; auto.
Qed.

Lemma gdriver_mono : forall V (d : gdriver V) M (Q Q' : mem V -> Z -> Prop),
  (forall M' st, Q M' st -> Q' M' st) -> gdriver_ensures d M Q -> gdriver_ensures d M Q'.
Proof. intros V [c|ks] M Q Q' H; cbn; [apply H|]. apply gregion_mono. assumption. Qed.

Section Driver.
  Context {F : fields}.
  Add Ring num_ring_potrf : (nring F).
  Variable R : roots F.
  Variable rp : F -> F.
  Hypothesis Hrp : forall x, nconj x = x -> rp x = x.

  Lemma chol_eqs_ext : forall n S S' L, (forall i j, 0 <= j <= i -> i < n -> S i j = S' i j) ->
    chol_eqs R rp n S L -> chol_eqs R rp n S' L.
  Proof.
    intros n S S' L H E j Hj. destruct (E j Hj) as [D1 D2]. unfold piv, res in *. rewrite <- H by lia.
    split; [assumption|]. intros i Hi. rewrite <- H by lia. apply D2. assumption.
  Qed.

  (* one triangular operand *)
  Lemma tr_gregion : forall nb uplo n bA A pA lda (comp : list (cktask F)),
    valid_uplo uplo -> tri_ok A (uplo =? PlasmaUpper) nb n -> n <= lda -> fst pA <> bA ->
    Forall kgood (map ck_task comp) -> Forall cksound comp ->
    (forall env, In (bA, homeD A (in_tri A)) env -> Forall (kdecl (home_env env)) (map ck_task comp)) ->
    (forall k l, In k comp -> k_writes (ck_task k) l -> fst l = bA) ->
    (forall tail, ch None (comp ++ map sure tail)) ->
    forall M, gregion_ensures (map sure (pztr2desc pA lda bA A) ++ comp ++ map sure (pzdesc2tr bA A pA lda)) M
      (fun M' st => exists M3,
        (forall i j, in_stored_tile (uplo =? PlasmaUpper) nb n i j -> el M3 bA A i j = ul M pA lda i j) /\
        (forall l, fst l <> bA -> M3 l = M l) /\
        st = first_code (kcodes comp M3) /\
        (st = 0 ->
          (forall i j, in_stored_tile (uplo =? PlasmaUpper) nb n i j ->
             ul M' pA lda i j = el (krun (map ck_task comp) M3) bA A i j) /\
          (forall l, (forall i j, in_stored_tile (uplo =? PlasmaUpper) nb n i j -> l <> (fst pA, snd pA + i + j * lda)) ->
             M' l = krun (map ck_task comp) M3 l)) /\
        (forall l, fst l <> bA -> ~ in_user pA lda n n l -> M' l = M l)).
  Proof.
    intros nb uplo n bA A pA lda comp Hu HT HL HP CG CS CD CW CC M.
    pose proof (gops_region (V := F) nb [tr_opnd bA A pA lda] [tr_opnd bA A pA lda] [tr_opnd bA A pA lda]) as G.
    cbn [flat_map] in G. rewrite !app_nil_r, tr_opnd_in, tr_opnd_out in G.
    assert (EL : forall i j, in_stored_tile (uplo =? PlasmaUpper) nb n i j -> o_el (tr_opnd bA A pA lda) i j)
      by (intros; eapply tr_opnd_el; eauto).
    eapply gregion_mono; [|apply G with (M := M) (comp := comp)]; auto; clear G.
    - intros M' st (M3 & H1 & H2 & H3 & H4 & H5). exists M3. split; [|split; [|split; [|split]]]; auto.
      + intros i j Hij. apply (H1 (tr_opnd bA A pA lda)); [left; reflexivity|auto].
      + intros l Hl. apply H2. intros o [<-|[]]. assumption.
      + intros E0. destruct (H4 E0) as [H6 H7]. split.
        * intros i j Hij. apply (H6 (tr_opnd bA A pA lda)); [left; reflexivity|auto].
        * intros l Hl. apply H7. intros o [<-|[]] (i & j & (I1 & I2 & I3) & E). cbn in I1, I2, I3, E.
          rewrite (tk_m _ _ _ _ HT) in I1. rewrite (tk_n _ _ _ _ HT) in I2.
          apply (Hl i j); [|assumption]. eapply tri_stored_inv; eauto.
      + intros l Hl HN. apply H5; [cbn; intuition|]. intros o [<-|[]] (i & j & (I1 & I2 & I3) & E). cbn in I1, I2, E.
        rewrite (tk_m _ _ _ _ HT) in I1. rewrite (tk_n _ _ _ _ HT) in I2. apply HN. exists i, j. auto.
    - intros o [<-|[]]. eapply tr_opnd_ok; eauto.
    - apply incl_refl.
    - apply incl_refl.
    - constructor; [intros []|constructor].
    - intros o o' [<-|[]] [<-|[]]. assumption.
    - constructor; [intros []|constructor].
    - constructor; [intros []|constructor].
    - intros o o' [<-|[]] [<-|[]]. left; reflexivity.
    - intros env HE. apply CD. apply (HE (tr_opnd bA A pA lda)). left; reflexivity.
    - intros k l Hk Hl. left. symmetry. eapply CW; eauto.
  Qed.

  Lemma stored_split : forall upper nb n (p : loc) ld l, n <= ld ->
    (exists i j, in_stored_tile upper nb n i j /\ l = (fst p, snd p + i + j * ld)) \/
    (forall i j, in_stored_tile upper nb n i j -> l <> (fst p, snd p + i + j * ld)).
  Proof.
    intros upper nb n p ld l HL.
    destruct (reg_dec p ld n n (fun i j => if upper then i / nb <=? j / nb else j / nb <=? i / nb) l HL) as [H|H].
    - left. destruct H as (i & j & Hi & Hj & HP & E). exists i, j. split; [|assumption].
      split; [assumption|]. split; [assumption|]. destruct upper; apply Z.leb_le; assumption.
    - right. intros i j (Hi & Hj & HP) E. apply H. exists i, j. repeat split; auto; try lia.
      destruct upper; apply Z.leb_le; assumption.
  Qed.

  Lemma zpotrf_core : forall S nb uplo n pA lda bA M,
    0 < nb -> valid_uplo uplo -> 0 <= n -> Z.max 1 n <= lda -> fst pA <> bA ->
    is_hermitian M uplo pA lda n S ->
    gdriver_ensures (zpotrf R rp nb uplo n pA lda bA) M (fun M' st => exists L,
      chol_eqs R rp n S L /\
      st = first_bad (fun j => badp R (rp (piv L S j))) 0 n /\
      (st = 0 -> (forall i j, in_matrix n n i j -> j <= i ->
                   (if uplo =? PlasmaLower then ul M' pA lda i j else nconj (ul M' pA lda j i)) = L i j) /\
                 (forall l, fst l <> bA -> ~ in_triangle uplo pA lda n l -> M' l = M l)) /\
      (forall l, fst l <> bA -> ~ in_user pA lda n n l -> M' l = M l)).
  Proof.
    intros S nb uplo n pA lda bA M Hb Hu Hn HL HP [HS1 HS2]. unfold zpotrf.
    assert (E1 : (uplo =? PlasmaUpper) || (uplo =? PlasmaLower) = true) by (destruct Hu as [->| ->]; reflexivity).
    rewrite E1. cbn [negb].
    replace (n <? 0) with false by (symmetry; apply Z.ltb_ge; lia).
    replace (lda <? Z.max 1 n) with false by (symmetry; apply Z.ltb_ge; lia).
    remember (fun i j => if uplo =? PlasmaLower then ul M pA lda i j else nconj (ul M pA lda j i)) as SV eqn:ESV.
    assert (SE : forall i j, 0 <= j <= i -> i < n -> SV i j = S i j).
    { intros i j Hj Hi. rewrite ESV. destruct Hu as [->| ->].
      - cbn. rewrite (HS2 j i) by (split; lia). apply f_equal. symmetry.
        apply HS1; [split; lia|]. left. split; [reflexivity|lia].
      - cbn. symmetry. apply HS1; [split; lia|]. right. split; [reflexivity|lia]. }
    remember (fst (potf2 R rp n SV)) as L eqn:EL.
    assert (CE : chol_eqs R rp n SV L).
    { destruct (potf2_inv R rp SV n Hn) as (_ & I2 & _). rewrite EL. destruct (I2 n); [assumption|lia]. }
    assert (CS : chol_eqs R rp n S L) by (eapply chol_eqs_ext; eauto).
    assert (PV : forall j, 0 <= j < n -> piv L SV j = piv L S j).
    { intros j Hj. unfold piv. rewrite SE by lia. reflexivity. }
    assert (FB : first_bad (fun j => badp R (rp (piv L SV j))) 0 n = first_bad (fun j => badp R (rp (piv L S j))) 0 n).
    { apply first_bad_ext. intros j Hj. rewrite PV by assumption. reflexivity. }
    destruct (Z.eqb_spec (Z.max n 0) 0) as [E0|E0].
    - cbn. exists L. assert (n = 0) as -> by lia. split; [assumption|]. split; [symmetry; apply first_bad_nil; lia|].
      split; [|auto]. intros _. split; [|auto]. intros i j [Hi _]. lia.
    - destruct (tr_create_succeeds uplo nb n Hu Hb ltac:(lia)) as (A & sz & EA & A1 & A2). rewrite EA. cbn [with_gdesc].
      pose proof (tr_create_tri _ _ _ _ _ Hu EA) as TA. clear EA.
      replace (d_m A =? 0) with false by (symmetry; apply Z.eqb_neq; lia).
      rewrite (pzpotrf_eq nb n A bA uplo Hu TA R rp). fold (plist nb n A bA uplo R rp).
      assert (ST : forall i j, stored nb n i j <-> in_stored_tile (uplo =? PlasmaUpper) nb n
          (if uplo =? PlasmaLower then i else j) (if uplo =? PlasmaLower then j else i)).
      { intros i j. unfold stored, in_stored_tile. destruct Hu as [->| ->]; cbn; tauto. }
      assert (HSr : forall j, 0 <= j < n -> nconj (SV j j) = SV j j).
      { intros j Hj. rewrite SE by lia. symmetry. apply HS2. split; lia. }
      eapply gregion_mono; [|apply (tr_gregion nb uplo n bA A pA lda (plist nb n A bA uplo R rp)); auto; try lia].
      + intros M' st (M3 & H1 & H2 & H3 & H4 & H5). exists L. split; [assumption|].
        assert (RL : rel nb n A bA uplo M3 SV M3).
        { split; [reflexivity|]. intros i j Hij. apply ST in Hij. unfold VV, low. rewrite ESV.
          destruct (uplo =? PlasmaLower); [|apply f_equal]; apply H1; assumption. }
        destruct (plist_step nb n A bA uplo Hu TA M3 R rp Hrp SV L CE HSr M3 RL) as [[R1 R2] R3].
        split; [rewrite H3, R3, FB; reflexivity|]. split; [|assumption]. intros Z0. destruct (H4 Z0) as [H6 H7].
        assert (RV : forall i j, stored nb n i j ->
          (if uplo =? PlasmaLower then ul M' pA lda i j else nconj (ul M' pA lda j i)) = if i <? j then SV i j else L i j).
        { intros i j Hij. rewrite <- R2 by assumption. apply ST in Hij. unfold VV, low.
          destruct (uplo =? PlasmaLower); [|apply f_equal]; apply H6; assumption. }
        split.
        * intros i j [Hi Hj] Hji. rewrite RV.
          -- replace (i <? j) with false by (symmetry; apply Z.ltb_ge; lia). reflexivity.
          -- split; [assumption|]. split; [assumption|]. apply Z.div_le_mono; lia.
        * intros l Hl HN.
          destruct (stored_split (uplo =? PlasmaUpper) nb n pA lda l ltac:(lia)) as [(i & j & HI & E)|HI].
          -- assert (NS : ~ selects uplo i j).
             { intros HX. apply HN. exists i, j. destruct HI as (Hi & Hj & _). repeat split; auto; lia. }
             rewrite E. change (ul M' pA lda i j = ul M pA lda i j).
             pose proof (ST (if uplo =? PlasmaLower then i else j) (if uplo =? PlasmaLower then j else i)) as ST'.
             pose proof (RV (if uplo =? PlasmaLower then i else j) (if uplo =? PlasmaLower then j else i)) as RV'.
             destruct Hu as [->| ->]; cbn in ST', RV'.
             ++ apply ST' in HI. specialize (RV' HI). replace (j <? i) with true in RV'.
                2:{ symmetry. apply Z.ltb_lt. apply Znot_ge_lt. intros GE. apply NS. left. split; [reflexivity|lia]. }
                rewrite ESV in RV'. cbn in RV'.
                rewrite <- (nconj_conj F (ul M' pA lda i j)), RV'. apply nconj_conj.
             ++ apply ST' in HI. specialize (RV' HI). replace (i <? j) with true in RV'.
                2:{ symmetry. apply Z.ltb_lt. apply Znot_ge_lt. intros GE. apply NS. right. split; [reflexivity|lia]. }
                rewrite ESV in RV'. exact RV'.
          -- rewrite H7 by assumption. rewrite R1 by assumption. apply H2. assumption.
      + apply plist_kgood; assumption.
      + apply plist_sound; assumption.
      + intros env HE. apply plist_kdecl; assumption.
      + intros k l. apply plist_writes.
      + intros tail. apply plist_chain.
  Qed.
End Driver.

Section Main.
  Context {F : fields}.
  Add Ring num_ring_potrf2 : (nring F).

  Lemma zpotrf_factor : forall (R : roots F) (rp : F -> F) S nb uplo n pA lda bA M,
    (forall x, nconj x = x -> rp x = x) ->
    0 < nb -> valid_uplo uplo -> 0 <= n -> Z.max 1 n <= lda -> fst pA <> bA ->
    is_hermitian M uplo pA lda n S ->
    gdriver_ensures (zpotrf R rp nb uplo n pA lda bA) M (fun M' st =>
      (st = 0 -> exists T,
        is_triangle M' uplo PlasmaNonUnit pA lda n T /\
        (forall i, 0 <= i < n -> exists d, rt R d = Some (T i i)) /\
        (forall i j, in_matrix n n i j -> factor_product uplo n T i j = S i j) /\
        (forall l, fst l <> bA -> ~ in_triangle uplo pA lda n l -> M' l = M l)) /\
      (forall l, fst l <> bA -> ~ in_user pA lda n n l -> M' l = M l)).
  Proof.
    intros R rp S nb uplo n pA lda bA M Hrp Hb Hu Hn HL HP HS.
    eapply gdriver_mono; [|apply (zpotrf_core R rp Hrp S); eassumption].
    intros M' st (L & CE & ST & H0 & HF). split; [|assumption]. intros Z0. destruct (H0 Z0) as [H1 H2]. clear H0.
    destruct HS as [HS1 HS2].
    assert (HH : forall i j, 0 <= i < n -> 0 <= j < n -> S j i = nconj (S i j)) by (intros; apply HS2; split; assumption).
    assert (HG : good R rp S L n).
    { intros j Hj. rewrite ST in Z0. apply (first_bad_zero _ 0 n Z0 ltac:(lia) j Hj). }
    exists (fun i j => if uplo =? PlasmaLower then (if j <=? i then L i j else n0)
                       else (if i <=? j then nconj (L j i) else n0)).
    split; [|split; [|split]].
    - intros i j [Hi Hj]. destruct Hu as [->| ->]; cbn; (split; [|split]).
      + intros [[_ LE]|[E _]]; [|discriminate]. intros _. replace (i <=? j) with true by (symmetry; apply Z.leb_le; lia).
        rewrite <- H1 by (try split; lia). cbn. apply nconj_conj.
      + discriminate.
      + intros NS. replace (i <=? j) with false; [reflexivity|]. symmetry. apply Z.leb_gt.
        apply Znot_ge_lt. intros GE. apply NS. left. split; [reflexivity|lia].
      + intros [[E _]|[_ LE]]; [discriminate|]. intros _. replace (j <=? i) with true by (symmetry; apply Z.leb_le; lia).
        rewrite <- H1 by (try split; lia). reflexivity.
      + discriminate.
      + intros NS. replace (j <=? i) with false; [reflexivity|]. symmetry. apply Z.leb_gt.
        apply Znot_ge_lt. intros GE. apply NS. right. split; [reflexivity|lia].
    - intros i Hi. exists (rp (piv L S i)). rewrite Z.leb_refl. pose proof (HG i Hi) as B. unfold badp in B.
      pose proof (chol_diag_real R rp n S L CE i Hi) as RL. destruct (CE i Hi) as [D _]. unfold rtot in D.
      destruct (rt R (rp (piv L S i))) eqn:E; [|discriminate]. rewrite RL, D. destruct (uplo =? PlasmaLower); reflexivity.
    - intros i j [Hi Hj]. rewrite <- (gram_off R rp Hrp n S L CE HH n i j ltac:(lia) HG Hi Hj ltac:(lia)).
      unfold factor_product. destruct Hu as [->| ->]; cbn.
      + apply nsum_ext. intros l Hl. destruct (l <=? i), (l <=? j); rewrite ?nconj_conj, ?nconj_0; reflexivity.
      + reflexivity.
    - assumption.
  Qed.

  Lemma zpotrf_status : forall (R : roots F) (rp : F -> F) (P : positivity F) S nb uplo n pA lda bA M,
    (forall x, nconj x = x -> rp x = x) -> has_roots P R ->
    0 < nb -> valid_uplo uplo -> 0 <= n -> Z.max 1 n <= lda -> fst pA <> bA ->
    is_hermitian M uplo pA lda n S ->
    gdriver_ensures (zpotrf R rp nb uplo n pA lda bA) M (fun M' st =>
      (st = 0 /\ pos_def P n S) \/
      (0 < st <= n /\ pos_def P (st - 1) S /\ ~ pos_def P st S)).
  Proof.
    intros R rp P S nb uplo n pA lda bA M Hrp HR Hb Hu Hn HL HP HS.
    eapply gdriver_mono; [|apply (zpotrf_core R rp Hrp S); eassumption].
    intros M' st (L & CE & ST & _). destruct HS as [_ HS2].
    assert (HH : forall i j, 0 <= i < n -> 0 <= j < n -> S j i = nconj (S i j)) by (intros; apply HS2; split; assumption).
    destruct (Z.eq_dec st 0) as [E|E].
    - left. split; [assumption|]. apply (good_pd R rp P Hrp n S L CE HH n); [lia|].
      intros j Hj. rewrite ST in E. apply (first_bad_zero _ 0 n E ltac:(lia) j Hj).
    - right. symmetry in ST. destruct (first_bad_pos _ 0 n st ltac:(lia) ST E) as (S1 & S2 & S3).
      split; [assumption|]. split.
      + apply (good_pd R rp P Hrp n S L CE HH); [lia|]. intros j Hj. apply S3. lia.
      + replace st with (st - 1 + 1) by lia. apply (bad_not_pd R rp P Hrp HR n S L CE HH); [lia| |assumption].
        intros j Hj. apply S3. lia.
  Qed.
End Main.
