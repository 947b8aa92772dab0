(* plasma_zpbsv *)
From Coq Require Import ZArith List Bool Lia Ring.
From Verif Require Import Base NumModel NumProofs FieldModel TaskModel TaskSpec TaskProofs DescModel DescSpec
  DescDriverModel DescProofs DescPackProofs DescProofs3 DescProofs4 MatModel MatSpec MatProofs RegionProofs
  GuardModel GuardSpec GuardProofs GuardProofs2 GuardAnyProofs
  LayoutModel LayoutProofs LayoutProofs2 DriverModel DriverSpec OpProofs SimProofs OperandProofs GOperandProofs GAnyProofs
  GemmModel GemmProofs GemmDriverProofs RankModel RankProofs RankDriverProofs LasetModel LasetProofs
  TriModel TriSpec TriVecProofs TriProofs TrmmProofs TrmmDriverProofs TrsmProofs TrsmDriverProofs PanelProofs
  PotrfModel PotrfSpec CholProofs HpdProofs PotrfDriverProofs InvDriverProofs2 InvDriverProofs3
  BandModel BandSpec BandProofs BandLayoutProofs BandRegionProofs PbtrfProofs PbtrfDriverProofs PbtrfMainProofs
  PbtrsModel PbtrsProofs PbtrsDriverProofs.
Import ListNotations.
Open Scope Z_scope.

Lemma ld_create : forall nb ldb n nrhs, 0 < nb -> 0 < n <= ldb -> 0 < nrhs ->
  exists B size, general_create PlasmaComplexDouble nb nb ldb nrhs 0 0 n nrhs = CrOk B size /\
    dn nb B /\ d_m B = n /\ d_n B = nrhs.
Proof.
  intros nb ldb n nrhs Hb Hn Hr.
  assert (H : general_create PlasmaComplexDouble nb nb ldb nrhs 0 0 n nrhs
              = CrOk (general_init PlasmaComplexDouble nb nb ldb nrhs 0 0 n nrhs) (ldb * nrhs))
    by (apply general_create_succeeds; try lia; reflexivity).
  eexists _, _. split; [exact H|].
  destruct (general_create_ok _ _ _ _ _ _ _ _ _ _ _ (Z.le_refl 0) (Z.le_refl 0) H) as (G & _ & _).
  split; [|split; reflexivity]. constructor; [apply dense_tiled; assumption|reflexivity|reflexivity].
Qed.

Section Driver.
  Context {F : fields}.
  Add Ring num_ring_pbsv : (nring F).
  Variable R : roots F.
  Variable rp : F -> F.
  Hypothesis Hrp : forall x, nconj x = x -> rp x = x.

  Definition fmat (uplo : Z) (L : Z -> Z -> F) (i j : Z) : F :=
    if uplo =? PlasmaLower then (if j <=? i then L i j else n0) else (if i <=? j then nconj (L j i) else n0).

  Lemma fmat_out : forall uplo n kd L, valid_uplo uplo ->
    (forall i j, 0 <= j -> kd < i - j -> i < n -> L i j = n0) ->
    forall i j, in_matrix n n i j -> ~ in_band uplo kd i j -> fmat uplo L i j = n0.
  Proof.
    intros uplo n kd L Hu LZ i j [Hi Hj] NB. unfold fmat. destruct Hu as [->| ->]; cbn.
    - destruct (Z.leb_spec i j) as [LE|GT]; [|reflexivity].
      rewrite LZ; [apply nconj_0|lia| |lia]. apply Znot_ge_lt. intros GE. apply NB. left. split; [reflexivity|lia].
    - destruct (Z.leb_spec j i) as [LE|GT]; [|reflexivity].
      apply LZ; [lia| |lia]. apply Znot_ge_lt. intros GE. apply NB. right. split; [reflexivity|lia].
  Qed.

  Lemma fmat_root : forall uplo n S L, chol_eqs R rp n S L ->
    first_bad (fun j => badp R (rp (piv L S j))) 0 n = 0 ->
    forall i, 0 <= i < n -> exists d, rt R d = Some (fmat uplo L i i).
  Proof.
    intros uplo n S L CE FB i Hi.
    assert (HG : good R rp S L n) by (intros j Hj; apply (first_bad_zero _ 0 n FB ltac:(lia) j Hj)).
    exists (rp (piv L S i)). unfold fmat. rewrite Z.leb_refl. pose proof (HG i Hi) as B. unfold badp in B.
    pose proof (chol_diag_real R rp n S L CE i Hi) as RL. destruct (CE i Hi) as [D _]. unfold rtot in D.
    destruct (rt R (rp (piv L S i))) eqn:E; [|discriminate]. rewrite RL, D. destruct (uplo =? PlasmaLower); reflexivity.
  Qed.

  Lemma fmat_product : forall uplo n S L, valid_uplo uplo -> chol_eqs R rp n S L ->
    first_bad (fun j => badp R (rp (piv L S j))) 0 n = 0 ->
    (forall i j, 0 <= i < n -> 0 <= j < n -> S j i = nconj (S i j)) ->
    forall i j, in_matrix n n i j -> factor_product uplo n (fmat uplo L) i j = S i j.
  Proof.
    intros uplo n S L Hu CE FB HH i j [Hi Hj].
    assert (HG : good R rp S L n) by (intros k Hk; apply (first_bad_zero _ 0 n FB ltac:(lia) k Hk)).
    rewrite <- (gram_off R rp Hrp n S L CE HH n i j ltac:(lia) HG Hi Hj ltac:(lia)).
    unfold factor_product, fmat. destruct Hu as [->| ->]; cbn.
    - apply nsum_ext. intros l Hl. destruct (l <=? i), (l <=? j); rewrite ?nconj_conj, ?nconj_0; reflexivity.
    - reflexivity.
  Qed.

  Lemma zpbsv_core : forall S nb uplo n kd nrhs pA ld pB ldb bA bB M,
    0 < nb -> valid_uplo uplo -> 0 <= kd < n -> 0 < nrhs -> kd < ld -> n <= ldb ->
    NoDup [bA; bB] -> (forall b, In b [fst pA; fst pB] -> ~ In b [bA; bB]) ->
    (forall l, in_user_band uplo kd pA ld n l -> ~ in_user pB ldb n nrhs l) ->
    is_hermitian_band M uplo kd pA ld n S ->
    gdriver_ensures (zpbsv R rp nb uplo n kd nrhs pA ld pB ldb bA bB) M (fun M' st => exists L,
      chol_eqs R rp n S L /\
      (forall i j, 0 <= j -> kd < i - j -> i < n -> L i j = n0) /\
      (st = 0 -> first_bad (fun j => badp R (rp (piv L S j))) 0 n = 0 /\
         (forall i j, in_matrix n n i j -> in_band uplo kd i j -> bel M' uplo kd pA ld i j = fmat uplo L i j) /\
         (forall i j, in_matrix n nrhs i j ->
            nsum (fun l => nmul (S i l) (ul M' pB ldb l j)) 0 n = ul M pB ldb i j)) /\
      (st <> 0 -> exists k, 0 <= k /\ k * nb < n /\
         st = first_bad (fun j => badp R (rp (piv L S j))) (k * nb) (Z.min ((k + 1) * nb) n)) /\
      (0 < kd -> st = first_bad (fun j => badp R (rp (piv L S j))) 0 n) /\
      (forall l, ~ In (fst l) [bA; bB] -> ~ in_user_band uplo kd pA ld n l -> ~ in_user pB ldb n nrhs l -> M' l = M l)).
  Proof.
    intros S nb uplo n kd nrhs pA ld pB ldb bA bB M Hb Hu Hk Hr HL LB ND HF AP (HS1 & HS2 & HS3). unfold zpbsv.
    assert (E1 : (uplo =? PlasmaUpper) || (uplo =? PlasmaLower) = true) by (destruct Hu as [->| ->]; reflexivity).
    rewrite E1. cbn [negb].
    replace (n <? 0) with false by (symmetry; apply Z.ltb_ge; lia).
    replace (kd <? 0) with false by (symmetry; apply Z.ltb_ge; lia).
    replace (nrhs <? 0) with false by (symmetry; apply Z.ltb_ge; lia).
    replace (ld <? kd + 1) with false by (symmetry; apply Z.ltb_ge; lia).
    replace (ldb <? Z.max 1 n) with false by (symmetry; apply Z.ltb_ge; lia).
    replace (Z.min n nrhs =? 0) with false by (symmetry; apply Z.eqb_neq; lia).
    remember (fun i j => if (j <=? i) && (i - j <=? kd) then bview M uplo kd pA ld i j else n0) as SV eqn:ESV.
    assert (SE : forall i j, 0 <= j <= i -> i < n -> SV i j = S i j).
    { intros i j Hj Hi. rewrite ESV. replace (j <=? i) with true by (symmetry; apply Z.leb_le; lia). cbn [andb].
      destruct (Z.leb_spec (i - j) kd) as [LE|GT].
      - unfold bview. destruct Hu as [->| ->].
        + cbn. rewrite (HS3 j i) by (split; lia). apply f_equal. symmetry. apply HS1; [split; lia|]. left. split; [reflexivity|lia].
        + cbn. symmetry. apply HS1; [split; lia|]. right. split; [reflexivity|lia].
      - symmetry. apply HS2; [split; lia|lia]. }
    remember (fst (potf2 R rp n SV)) as L eqn:EL.
    assert (CE : chol_eqs R rp n SV L).
    { destruct (potf2_inv R rp SV n ltac:(lia)) as (_ & I2 & _). rewrite EL. destruct (I2 n); [assumption|lia]. }
    assert (CS : chol_eqs R rp n S L) by (eapply chol_eqs_ext; eauto).
    assert (PV : forall j, 0 <= j < n -> piv L SV j = piv L S j).
    { intros j Hj. unfold piv. rewrite SE by lia. reflexivity. }
    assert (FB : forall a c, 0 <= a -> c <= n -> first_bad (fun j => badp R (rp (piv L SV j))) a c = first_bad (fun j => badp R (rp (piv L S j))) a c).
    { intros a c Ha Hc. apply first_bad_ext. intros j Hj. rewrite PV by lia. reflexivity. }
    destruct (pb_create_succeeds uplo nb n kd Hu Hb ltac:(lia)) as (A & sz & EA). rewrite EA. cbn [with_gdesc].
    pose proof (pb_create_pb _ _ _ _ _ _ (proj1 Hk) Hu EA) as TA. clear EA.
    destruct (ld_create nb ldb n nrhs Hb ltac:(lia) Hr) as (B & sz' & EB & DB & B1 & B2). rewrite EB. cbn [with_gdesc]. clear EB.
    pose proof (pk_m _ _ _ _ _ TA) as DM. pose proof (pk_n _ _ _ _ _ TA) as DN.
    replace (d_m A =? 0) with false by (symmetry; apply Z.eqb_neq; lia).
    replace (d_n A =? 0) with false by (symmetry; apply Z.eqb_neq; lia).
    replace (d_n B =? 0) with false by (symmetry; apply Z.eqb_neq; lia). cbn [orb].
    assert (N1 : bA <> bB) by (inversion_clear ND as [|? ? X Y]; cbn in X; intuition).
    rewrite (pzpbtrf_eq nb n kd A bA uplo TA R rp). fold (plist nb n kd A bA uplo R rp).
    fold (bb_in (F := F) A B bA pA ld bB pB ldb).
    assert (HSr : forall j, 0 <= j < n -> nconj (SV j j) = SV j j).
    { intros j Hj. rewrite SE by lia. symmetry. apply HS3. split; lia. }
    assert (HZ : forall i j, 0 <= j -> kd < i - j -> i < n -> SV i j = n0).
    { intros i j Hj Hd Hi. rewrite ESV. replace (i - j <=? kd) with false by (symmetry; apply Z.leb_gt; lia).
      rewrite andb_false_r. reflexivity. }
    pose proof (L_zero nb n kd A uplo TA R rp SV L CE HZ) as LZ.
    assert (LB' : d_m B <= ldb) by lia.
    assert (AP' : forall l, in_user_band uplo kd pA ld n l -> ~ in_user pB ldb (d_m B) (d_n B) l) by (rewrite B1, B2; exact AP).
    assert (KG : Forall (@kgood F) (map ck_task (plist nb n kd A bA uplo R rp ++ map sure (two_band_solves uplo bA A bB B)))).
    { rewrite map_app, map_sure. apply Forall_app. split; [apply plist_kgood; assumption|].
      apply (two_band_kgood nb n kd A B); assumption. }
    assert (KS : Forall cksound (plist nb n kd A bA uplo R rp ++ map sure (two_band_solves uplo bA A bB B))).
    { apply Forall_app. split; [apply plist_sound; assumption|apply cksound_sure]. }
    destruct (bb_in_spec A uplo nb n kd TA B DB bA pA ld bB pB ldb LB' N1 HF M) as (I1 & I2 & I3).
    eapply gregion_mono; [|apply (bb_gregion A uplo nb n kd TA B DB bA pA ld bB pB ldb HL LB' N1 HF AP'
      (plist nb n kd A bA uplo R rp ++ map sure (two_band_solves uplo bA A bB B))); auto].
    - intros M' st (H3 & H4 & H5). rewrite B1, B2 in I2, H4, H5.
      remember (krun (bb_in A B bA pA ld bB pB ldb) M) as M3 eqn:EM3.
      exists L. split; [assumption|]. split; [assumption|].
      assert (ST : forall i j, stored nb n kd i j ->
        in_matrix n n (if uplo =? PlasmaLower then i else j) (if uplo =? PlasmaLower then j else i) /\
        in_tb A ((if uplo =? PlasmaLower then i else j) / nb) ((if uplo =? PlasmaLower then j else i) / nb)).
      { intros i j Hij. pose proof (stored_lt nb n kd A uplo TA i j Hij) as (T1 & T2 & T3). destruct Hij as (Hi & Hj & _).
        split; [destruct (uplo =? PlasmaLower); split; assumption|].
        apply (in_tb_spec A uplo nb n kd TA). destruct Hu as [->| ->]; cbn in *; lia. }
      assert (RL : rel nb n kd A bA uplo M3 SV M3).
      { split; [reflexivity|]. intros i j Hij. destruct (ST i j Hij) as [ST1 ST2]. unfold VV, low. rewrite ESV. unfold bview.
        destruct Hu as [->| ->].
        - change (PlasmaUpper =? PlasmaLower) with false in *. cbv iota in *. rewrite I1 by assumption.
          destruct (in_band_dec PlasmaUpper kd j i) as [Q|Q].
          + destruct Q as [[_ Q]|[Q _]]; [|discriminate].
            replace (j <=? i) with true by (symmetry; apply Z.leb_le; lia).
            replace (i - j <=? kd) with true by (symmetry; apply Z.leb_le; lia). reflexivity.
          + rewrite nconj_0. destruct (Z.leb_spec j i), (Z.leb_spec (i - j) kd); cbn [andb]; try reflexivity.
            exfalso. apply Q. left. split; [reflexivity|lia].
        - change (PlasmaLower =? PlasmaLower) with true in *. cbv iota in *. rewrite I1 by assumption.
          destruct (in_band_dec PlasmaLower kd i j) as [Q|Q].
          + destruct Q as [[Q _]|[_ Q]]; [discriminate|].
            replace (j <=? i) with true by (symmetry; apply Z.leb_le; lia).
            replace (i - j <=? kd) with true by (symmetry; apply Z.leb_le; lia). reflexivity.
          + destruct (Z.leb_spec j i), (Z.leb_spec (i - j) kd); cbn [andb]; try reflexivity.
            exfalso. apply Q. right. split; [reflexivity|lia]. }
      destruct (plist_step nb n kd A bA uplo TA M3 R rp Hrp SV L CE HSr HZ M3 RL) as [[R1 R2] R3].
      rewrite FB in R3 by lia.
      split; [|split; [|split; [|exact H5]]].
      + intros Z0. destruct (H4 Z0) as (K & H6 & H7). clear H3 H4.
        rewrite kcodes_app in K. apply Forall_app in K. destruct K as [K _].
        assert (BAD0 : first_bad (fun j => badp R (rp (piv L S j))) 0 n = 0) by (rewrite <- R3; apply first_code_all0; assumption).
        split; [assumption|].
        rewrite map_app, map_sure, krun_app in H6, H7.
        remember (krun (map ck_task (plist nb n kd A bA uplo R rp)) M3) as M4 eqn:EM4.
        assert (HO : holds nb n A bA uplo (fmat uplo L) M4).
        { intros i j [Hi Hj] HI HS.
          assert (SIJ : stored nb n kd (if uplo =? PlasmaLower then i else j) (if uplo =? PlasmaLower then j else i)).
          { apply (in_tb_spec A uplo nb n kd TA) in HI. destruct Hu as [->| ->]; cbn in HI |- *;
              (split; [assumption|]; split; [assumption|]; lia). }
          pose proof (R2 _ _ SIJ) as V. unfold VV, low in V. unfold fmat.
          destruct Hu as [->| ->]; cbn in V, HS |- *; apply Z.leb_le in HS.
          - replace (j <? i) with false in V by (symmetry; apply Z.ltb_ge; lia).
            replace (i <=? j) with true by (symmetry; apply Z.leb_le; lia). rewrite <- V. symmetry. apply nconj_conj.
          - replace (i <? j) with false in V by (symmetry; apply Z.ltb_ge; lia).
            replace (j <=? i) with true by (symmetry; apply Z.leb_le; lia). exact V. }
        destruct (two_band_at nb n kd A B bA bB uplo TA DB B1 N1 (fmat uplo L)) with (M := M4) as [X V].
        * apply (fmat_out uplo n kd L Hu LZ).
        * intros i Hi. destruct (fmat_root uplo n S L CS BAD0 i Hi) as [d Hd]. apply (rt_nz F R d _ Hd).
        * lia.
        * assumption.
        * rewrite B2 in V. split.
          -- intros i j HM HI. rewrite H6 by assumption. unfold el. rewrite X by exact N1.
             apply HO; [assumption|apply (band_tb A uplo nb n kd TA); assumption|].
             destruct HI as [[-> HI]|[-> HI]]; cbn; apply Z.leb_le; lia.
          -- intros i j [Hi Hj]. transitivity (el M4 bB B i j).
             ++ rewrite <- V by assumption. apply nsum_ext. intros l Hl. rewrite H7 by assumption.
                rewrite (fmat_product uplo n S L Hu CS BAD0); [reflexivity| |split; assumption].
                intros; apply HS3; split; assumption.
             ++ rewrite <- I2 by assumption. unfold el. apply R1. cbn. congruence.
      + intros NZ. pose proof (guilty_in _ _ _ _ (H3 NZ)) as GI. rewrite kcodes_app in GI. apply in_app_or in GI.
        destruct GI as [GI|GI].
        2:{ exfalso. apply NZ. exact (kcodes_sure0 _ _ _ _ GI). }
        destruct (plist_code_in nb n kd A bA uplo TA M3 R rp Hrp SV L CE HSr HZ M3 st RL GI NZ) as (k & Hk1 & Hk2).
        destruct (tb_tsz A uplo nb n kd TA k Hk1) as (T1 & _ & T2).
        exists k. split; [lia|]. split; [lia|]. rewrite Hk2, FB; [|nia|unfold tsz; lia].
        replace (k * nb + tsz nb n k) with (Z.min ((k + 1) * nb) n) by (unfold tsz; lia). reflexivity.
      + intros KP. rewrite <- R3.
        assert (EC : first_code (kcodes (plist nb n kd A bA uplo R rp ++ map sure (two_band_solves uplo bA A bB B)) M3)
                   = first_code (kcodes (plist nb n kd A bA uplo R rp) M3)).
        { rewrite kcodes_app, first_code_app, kcodes_sure.
          destruct (Z.eqb_spec (first_code (kcodes (plist nb n kd A bA uplo R rp) M3)) 0) as [Q|Q]; [|reflexivity].
          rewrite Q. reflexivity. }
        rewrite <- EC. destruct (Z.eq_dec st 0) as [Z0|NZ].
        * destruct (H4 Z0) as [K _]. rewrite (first_code_all0 _ K). assumption.
        * symmetry. apply guilty_chain; auto.
          apply (ch_fail_chain _ None). apply (plist_chain nb n kd A bA uplo TA R rp).
          pose proof (ktl_bounds A uplo nb n kd TA) as KB. nia.
    - intros env HE1 HE2. rewrite map_app, map_sure. apply Forall_app. split.
      + apply (plist_kdecl nb n kd A bA uplo TA R rp); assumption.
      + apply (two_band_kdecl nb n kd A B); assumption.
    - intros k l Hk' HW. apply in_app_or in Hk'. destruct Hk' as [Hk'|Hk'].
      + left. symmetry. eapply plist_writes; eauto.
      + right. left. symmetry. apply in_map_iff in Hk'. destruct Hk' as (x & <- & Hx).
        eapply (two_band_writes nb n kd A B); eauto.
  Qed.
End Driver.
