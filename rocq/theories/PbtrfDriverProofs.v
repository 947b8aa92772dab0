(* plasma_zpbtrf. *)
From Coq Require Import ZArith List Bool Lia Ring.
From Verif Require Import Base NumModel NumProofs FieldModel TaskModel TaskSpec TaskProofs DescModel DescSpec
  DescDriverModel DescProofs DescPackProofs DescProofs3 DescProofs4 MatModel MatSpec MatProofs RegionProofs
  GuardModel GuardSpec GuardProofs GuardProofs2 GuardAnyProofs
  LayoutModel LayoutProofs LayoutProofs2 DriverModel DriverSpec OpProofs SimProofs OperandProofs GOperandProofs GAnyProofs
  GemmModel GemmProofs GemmDriverProofs RankModel RankProofs RankDriverProofs LasetModel LasetProofs
  TriModel TriSpec TriVecProofs TriProofs TrmmProofs TrmmDriverProofs PotrfModel PotrfSpec CholProofs HpdProofs
  PotrfDriverProofs InvDriverProofs3 BandModel BandSpec BandProofs BandLayoutProofs BandRegionProofs PbtrfProofs.
Import ListNotations.
Open Scope Z_scope.

Section Region.
  Context {F : numbers}.
  Variables (A : desc) (uplo nb n kd : Z).
  Hypothesis HP : pb_ok A uplo nb n kd.
  Variables (b : Z) (p : loc) (ld : Z).
  Hypothesis HL : kd < ld.
  Hypothesis HB : fst p <> b.
  Variable comp : list (cktask F).
  Hypothesis CG : Forall kgood (map ck_task comp).
  Hypothesis CS : Forall cksound comp.
  Hypothesis CD : forall env, In (b, homeD A (in_tb A)) env -> Forall (kdecl (home_env env)) (map ck_task comp).
  Hypothesis CW : forall k l, In k comp -> k_writes (ck_task k) l -> fst l = b.

  (* a band matrix translated in and back, the tasks between need not fail in order *)
  Lemma pb_gregion_any : forall M,
    gregion_ensures (map sure (pzpb2desc p ld b A) ++ comp ++ map sure (pzdesc2pb b A p ld)) M
      (fun M' st => exists M3,
        (forall i j, in_matrix n n i j -> in_tb A (i / nb) (j / nb) ->
           el M3 b A i j = if in_band_dec uplo kd i j then bel M uplo kd p ld i j else n0) /\
        (forall l, fst l <> b -> M3 l = M l) /\
        (st <> 0 -> guilty comp M3 st) /\
        (st = 0 -> Forall (fun c => c = 0) (kcodes comp M3) /\
          (forall i j, in_matrix n n i j -> in_band uplo kd i j ->
             bel M' uplo kd p ld i j = el (krun (map ck_task comp) M3) b A i j)) /\
        (forall l, fst l <> b -> ~ in_user_band uplo kd p ld n l -> M' l = M l)).
  Proof.
    intros M. apply gregion_intro_any.
    - rewrite !map_app, !map_sure, !Forall_app. split; [|split; [assumption|]].
      + apply (pzpb2desc_kgood A uplo nb n kd HP); assumption.
      + apply (pzdesc2pb_kgood A uplo nb n kd HP); assumption.
    - rewrite !Forall_app. split; [apply cksound_sure|]. split; [assumption|apply cksound_sure].
    - rewrite !map_app, !map_sure. remember [(b, homeD A (in_tb A)); (fst p, homeB A uplo nb n kd p ld)] as env eqn:Ee.
      assert (I1 : In (b, homeD A (in_tb A)) env) by (rewrite Ee; left; reflexivity).
      assert (I2 : In (fst p, homeB A uplo nb n kd p ld) env) by (rewrite Ee; right; left; reflexivity).
      apply korders_klinked. apply (kdecl_korders F (home_env env)).
      + apply home_env_functional.
        * rewrite Ee. cbn. constructor; [intros [E|[]]; congruence|]. constructor; [intros []|constructor].
        * rewrite Ee. intros b' h [E|[E|[]]]; injection E as <- <-.
          -- apply homeD_functional. apply (tb_tiled A uplo nb n kd HP).
          -- apply homeB_functional; assumption.
      + rewrite !Forall_app. split; [|split].
        * apply (pzpb2desc_kdecl A uplo nb n kd HP); auto.
        * apply CD. assumption.
        * apply (pzdesc2pb_kdecl A uplo nb n kd HP); auto.
    - intros M' st E0 EN HF. exists (krun (pzpb2desc p ld b A) M).
      split; [intros; apply (pzpb2desc_spec A uplo nb n kd HP); assumption|].
      split; [intros; apply (pzpb2desc_frame A uplo nb n kd HP); assumption|].
      split; [|split].
      + intros NZ. eapply guilty_inner; eauto.
      + intros Z0. destruct (E0 Z0) as [K E1]. rewrite !map_app, !map_sure, !krun_app in E1.
        apply kcodes_all0 in K. destruct K as [_ K]. apply kcodes_all0 in K. destruct K as [K _]. rewrite map_sure in K.
        split; [assumption|]. intros i j HM HI.
        unfold bel at 1. rewrite E1. apply (pzdesc2pb_spec A uplo nb n kd HP); assumption.
      + intros l H1 H2. apply HF. intros k Hk W. rewrite !in_app_iff in Hk. destruct Hk as [Hk|[Hk|Hk]].
        * apply in_map_iff in Hk. destruct Hk as (x & <- & Hx). apply H1. eapply pzpb2desc_writes; eauto.
        * apply H1. eapply CW; eauto.
        * apply in_map_iff in Hk. destruct Hk as (x & <- & Hx). apply H2. eapply pzdesc2pb_writes; eauto.
  Qed.
End Region.

Lemma first_code_all0 : forall l, Forall (fun c => c = 0) l -> first_code l = 0.
Proof. intros l H. induction H as [|c l E H IH]; cbn; [reflexivity|]. rewrite E. cbn. assumption. Qed.

Lemma guilty_in : forall V (ks : list (cktask V)) M c, guilty ks M c -> In c (kcodes ks M).
Proof.
  intros V ks M c (l1 & k & l2 & -> & E & _). rewrite kcodes_app, in_app_iff. right. cbn [kcodes]. left. assumption.
Qed.

Section Driver.
  Context {F : fields}.
  Add Ring num_ring_pbtrf : (nring F).
  Variable R : roots F.
  Variable rp : F -> F.
  Hypothesis Hrp : forall x, nconj x = x -> rp x = x.

  (* the stored element of the band on row i and column j of the lower view *)
  Definition bview (M : mem F) (uplo kd : Z) (p : loc) (ld i j : Z) : F :=
    if uplo =? PlasmaLower then bel M uplo kd p ld i j else nconj (bel M uplo kd p ld j i).

  Lemma zpbtrf_core : forall S nb uplo n kd pA ld bA M,
    0 < nb -> valid_uplo uplo -> 0 <= n -> 0 <= kd -> (0 < n -> kd < n) -> kd < ld -> fst pA <> bA ->
    is_hermitian_band M uplo kd pA ld n S ->
    gdriver_ensures (zpbtrf R rp nb uplo n kd pA ld bA) M (fun M' st => exists L,
      chol_eqs R rp n S L /\
      (forall i j, 0 <= j -> kd < i - j -> i < n -> L i j = n0) /\
      (st = 0 -> first_bad (fun j => badp R (rp (piv L S j))) 0 n = 0 /\
         forall i j, in_matrix n n i j -> 0 <= i - j <= kd -> bview M' uplo kd pA ld i j = L i j) /\
      (st <> 0 -> exists k, 0 <= k /\ k * nb < n /\
         st = first_bad (fun j => badp R (rp (piv L S j))) (k * nb) (Z.min ((k + 1) * nb) n)) /\
      (0 < kd -> st = first_bad (fun j => badp R (rp (piv L S j))) 0 n) /\
      (forall l, fst l <> bA -> ~ in_user_band uplo kd pA ld n l -> M' l = M l)).
  Proof.
    intros S nb uplo n kd pA ld bA M Hb Hu Hn Hk Hkn HL HP (HS1 & HS2 & HS3). unfold zpbtrf.
    assert (E1 : (uplo =? PlasmaUpper) || (uplo =? PlasmaLower) = true) by (destruct Hu as [->| ->]; reflexivity).
    rewrite E1. cbn [negb].
    replace (n <? 0) with false by (symmetry; apply Z.ltb_ge; lia).
    replace (kd <? 0) with false by (symmetry; apply Z.ltb_ge; lia).
    replace (ld <? kd + 1) with false by (symmetry; apply Z.ltb_ge; lia).
    remember (fun i j => if (j <=? i) && (i - j <=? kd) then bview M uplo kd pA ld i j else n0) as SV eqn:ESV.
    assert (SE : forall i j, 0 <= j <= i -> i < n -> SV i j = S i j).
    { intros i j Hj Hi. rewrite ESV. replace (j <=? i) with true by (symmetry; apply Z.leb_le; lia). cbn [andb].
      destruct (Z.leb_spec (i - j) kd) as [LE|GT].
      - unfold bview. destruct Hu as [->| ->].
        + cbn. rewrite (HS3 j i) by (split; lia). apply f_equal. symmetry. apply HS1; [split; lia|]. left. split; [reflexivity|lia].
        + cbn. symmetry. apply HS1; [split; lia|]. right. split; [reflexivity|lia].
      - symmetry. apply HS2; [split; lia|lia]. }
    remember (fst (potf2 R rp n SV)) as L eqn:EL.
    assert (CE : chol_eqs R rp n SV L).
    { destruct (potf2_inv R rp SV n Hn) as (_ & I2 & _). rewrite EL. destruct (I2 n); [assumption|lia]. }
    assert (CS : chol_eqs R rp n S L) by (eapply chol_eqs_ext; eauto).
    assert (PV : forall j, 0 <= j < n -> piv L SV j = piv L S j).
    { intros j Hj. unfold piv. rewrite SE by lia. reflexivity. }
    assert (FB : forall a c, 0 <= a -> c <= n -> first_bad (fun j => badp R (rp (piv L SV j))) a c = first_bad (fun j => badp R (rp (piv L S j))) a c).
    { intros a c Ha Hc. apply first_bad_ext. intros j Hj. rewrite PV by lia. reflexivity. }
    destruct (Z.eqb_spec (Z.max n 0) 0) as [E0|E0].
    - cbn. exists L. assert (n = 0) as -> by lia. split; [assumption|]. split; [intros; lia|].
      split; [intros _; split; [apply first_bad_nil; lia|intros i j [Hi _]; lia]|].
      split; [intros H; exfalso; apply H; reflexivity|]. split; [intros _; symmetry; apply first_bad_nil; lia|auto].
    - destruct (pb_create_succeeds uplo nb n kd Hu Hb ltac:(lia)) as (A & sz & EA). rewrite EA. cbn [with_gdesc].
      pose proof (pb_create_pb _ _ _ _ _ _ Hk Hu EA) as TA. clear EA.
      pose proof (pk_m _ _ _ _ _ TA) as DM. pose proof (pk_n _ _ _ _ _ TA) as DN.
      replace (d_m A =? 0) with false by (symmetry; apply Z.eqb_neq; lia).
      replace (d_n A =? 0) with false by (symmetry; apply Z.eqb_neq; lia). cbn [orb].
      rewrite (pzpbtrf_eq nb n kd A bA uplo TA R rp). fold (plist nb n kd A bA uplo R rp).
      assert (HSr : forall j, 0 <= j < n -> nconj (SV j j) = SV j j).
      { intros j Hj. rewrite SE by lia. symmetry. apply HS3. split; lia. }
      assert (HZ : forall i j, 0 <= j -> kd < i - j -> i < n -> SV i j = n0).
      { intros i j Hj Hd Hi. rewrite ESV. replace (i - j <=? kd) with false by (symmetry; apply Z.leb_gt; lia).
        rewrite andb_false_r. reflexivity. }
      pose proof (L_zero nb n kd A uplo TA R rp SV L CE HZ) as LZ.
      eapply gregion_mono; [|apply (pb_gregion_any A uplo nb n kd TA bA pA ld HL HP (plist nb n kd A bA uplo R rp)); auto].
      + intros M' st (M3 & H1 & H2 & H3 & H4 & H5). exists L. split; [assumption|]. split; [assumption|].
        assert (ST : forall i j, stored nb n kd i j ->
          in_matrix n n (if uplo =? PlasmaLower then i else j) (if uplo =? PlasmaLower then j else i) /\
          in_tb A ((if uplo =? PlasmaLower then i else j) / nb) ((if uplo =? PlasmaLower then j else i) / nb)).
        { intros i j Hij. pose proof (stored_lt nb n kd A uplo TA i j Hij) as (T1 & T2 & T3). destruct Hij as (Hi & Hj & _).
          split; [destruct (uplo =? PlasmaLower); split; assumption|].
          apply (in_tb_spec A uplo nb n kd TA). destruct Hu as [->| ->]; cbn in *; lia. }
        assert (RL : rel nb n kd A bA uplo M3 SV M3).
        { split; [reflexivity|]. intros i j Hij. destruct (ST i j Hij) as [ST1 ST2]. unfold VV, low. rewrite ESV. unfold bview.
          destruct Hu as [->| ->].
          - change (PlasmaUpper =? PlasmaLower) with false in *. cbv iota in *. rewrite H1 by assumption.
            destruct (in_band_dec PlasmaUpper kd j i) as [B|B].
            + destruct B as [[_ B]|[B _]]; [|discriminate].
              replace (j <=? i) with true by (symmetry; apply Z.leb_le; lia).
              replace (i - j <=? kd) with true by (symmetry; apply Z.leb_le; lia). reflexivity.
            + rewrite nconj_0. destruct (Z.leb_spec j i), (Z.leb_spec (i - j) kd); cbn [andb]; try reflexivity.
              exfalso. apply B. left. split; [reflexivity|lia].
          - change (PlasmaLower =? PlasmaLower) with true in *. cbv iota in *. rewrite H1 by assumption.
            destruct (in_band_dec PlasmaLower kd i j) as [B|B].
            + destruct B as [[B _]|[_ B]]; [discriminate|].
              replace (j <=? i) with true by (symmetry; apply Z.leb_le; lia).
              replace (i - j <=? kd) with true by (symmetry; apply Z.leb_le; lia). reflexivity.
            + destruct (Z.leb_spec j i), (Z.leb_spec (i - j) kd); cbn [andb]; try reflexivity.
              exfalso. apply B. right. split; [reflexivity|lia]. }
        destruct (plist_step nb n kd A bA uplo TA M3 R rp Hrp SV L CE HSr HZ M3 RL) as [[R1 R2] R3].
        rewrite FB in R3 by lia.
        split; [|split; [|split; [|exact H5]]].
        * intros Z0. destruct (H4 Z0) as [K H6]. split; [rewrite <- R3; apply first_code_all0; assumption|].
          intros i j [Hi Hj] Hij.
          assert (SIJ : stored nb n kd i j).
          { pose proof (band_tb A uplo nb n kd TA (if uplo =? PlasmaLower then i else j) (if uplo =? PlasmaLower then j else i)) as BT.
            destruct Hu as [->| ->]; cbn in BT.
            - assert (BT' := BT ltac:(split; assumption) ltac:(left; split; [reflexivity|lia])).
              apply (in_tb_spec A _ nb n kd TA) in BT'. cbn in BT'. split; [assumption|]. split; [assumption|]. lia.
            - assert (BT' := BT ltac:(split; assumption) ltac:(right; split; [reflexivity|lia])).
              apply (in_tb_spec A _ nb n kd TA) in BT'. cbn in BT'. split; [assumption|]. split; [assumption|]. lia. }
          specialize (R2 i j SIJ). replace (i <? j) with false in R2 by (symmetry; apply Z.ltb_ge; lia).
          rewrite <- R2. unfold VV, low, bview. destruct Hu as [->| ->]; cbn.
          -- apply f_equal. apply H6; [split; assumption|]. left. split; [reflexivity|lia].
          -- apply H6; [split; assumption|]. right. split; [reflexivity|lia].
        * intros NZ. destruct (plist_code_in nb n kd A bA uplo TA M3 R rp Hrp SV L CE HSr HZ M3 st RL (guilty_in _ _ _ _ (H3 NZ)) NZ)
            as (k & Hk1 & Hk2).
          destruct (tb_tsz A uplo nb n kd TA k Hk1) as (T1 & _ & T2).
          exists k. split; [lia|]. split; [lia|]. rewrite Hk2, FB; [|nia|unfold tsz; lia].
          replace (k * nb + tsz nb n k) with (Z.min ((k + 1) * nb) n) by (unfold tsz; lia). reflexivity.
        * intros KP. rewrite <- R3. destruct (Z.eq_dec st 0) as [Z0|NZ].
          -- destruct (H4 Z0) as [K _]. rewrite (first_code_all0 _ K). assumption.
          -- symmetry. apply guilty_chain; auto.
             ++ apply plist_sound; assumption.
             ++ apply (ch_fail_chain _ None). rewrite <- (app_nil_r (plist nb n kd A bA uplo R rp)).
                apply (plist_chain nb n kd A bA uplo TA R rp) with (tail := []).
                pose proof (ktl_bounds A uplo nb n kd TA) as KB. nia.
      + apply plist_kgood; assumption.
      + apply plist_sound; assumption.
      + intros env HE. apply (plist_kdecl nb n kd A bA uplo TA R rp); assumption.
      + intros k l. apply plist_writes.
  Qed.
End Driver.
