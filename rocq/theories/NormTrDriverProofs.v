(* plasma_zlantr. *)
From Coq Require Import ZArith List Bool Lia Ring.
From Verif Require Import Base NumModel NumProofs FieldModel TaskModel TaskSpec TaskProofs DescModel DescSpec
  DescProofs DescProofs4 DescDriverModel MatModel MatSpec MatProofs RegionProofs
  LayoutModel LayoutProofs LayoutProofs2 DriverModel DriverSpec SimProofs OpProofs OperandProofs GemmProofs
  EwProofs NormModel NormTriModel NormSpec FillProofs NormProofs NormDriverProofs NormPhaseProofs NormZlangeProofs
  NormTriProofs NormTriProofs2 NormTriPhaseProofs NormTriExtProofs NormSyProofs NormTrProofs.
Import ListNotations.
Open Scope Z_scope.

Section TrDriver.
  Context {N : normed}.
  Add Ring num_ring_trd : (nring N).

  Lemma zlantr_max_kgood : forall uplo diag m n A lda value, kgood (@omp_zlantr_max N uplo diag m n A lda value).
  Proof.
    intros. apply (fill_kgood N _ value 1 (fun M _ => lantr_max uplo diag m n (rd M A lda))); [apply finite_reg|].
    intros. apply lantr_max_ext, agree_reg. assumption.
  Qed.
  Lemma calloc_kgood : forall bW size, kgood (@calloc_work N bW size).
  Proof.
    intros. apply (fill_kgood N _ (bW, 0) size (fun M _ => n0)); [apply finite_none|]. reflexivity.
  Qed.

  Lemma lantr_phases : forall lassq nsqrt (s : Z -> Z -> N) nb norm uplo diag m n A pA lda bA bW (value : loc) (M : mem N),
    (forall i j, nabs (s i j) = gt uplo diag (ul M pA lda) i j) ->
    0 < nb -> valid_norm norm -> valid_uplo uplo -> valid_diag diag -> 0 < m -> 0 < n -> m <= lda ->
    dn nb A -> d_m A = m -> d_n A = n ->
    fst pA <> bA -> fst pA <> bW -> bA <> bW -> fst value <> bA -> fst value <> bW ->
    lassq_ok lassq ->
    (norm <> PlasmaMaxNorm -> forall k, 0 <= k < zlantr_work norm A -> M (bW, k) = n0) ->
    phases_ensures (norm_phases pA lda bA A (pzlantr lassq nsqrt norm uplo diag bA A (bW, 0) value)) M
      (fun M' => is_norm nsqrt norm m n s (M' value) /\
                   (forall l, fst l <> bA -> fst l <> bW -> l <> value -> M' l = M l)).
  Proof.
    intros lassq nsqrt s nb norm uplo diag m n A pA lda bA bW value M HS Hb HV HU HD Hm Hn HL HA Em En B1 B2 B3 B4 B5 HQ HZ.
      assert (Emt : d_mt A = ntl nb m) by (rewrite (dn_mt nb A HA), Em; reflexivity).
      assert (Ent : d_nt A = ntl nb n) by (rewrite (dn_nt nb A HA), En; reflexivity).
      pose proof (ntl_pos nb m Hb Hm) as RP. pose proof (ntl_pos nb n Hb Hn) as CP.
      assert (GA : forall i c, isabs (gt uplo diag (ul M pA lda) i c)) by (intros; apply gt_abs).
      destruct HV as [->|[->|[->| ->]]]; unfold pzlantr, norm_phases; cbn [Z.eqb PlasmaMaxNorm PlasmaOneNorm PlasmaInfNorm PlasmaFrobeniusNorm Pos.eqb orb];
        cbn [phases_ensures].
      + eapply region_mono; [|apply (tr_max_phase nb bA A pA lda bW m n); assumption].
        intros M1 (E1 & E2). rewrite Emt, Ent.
        apply (value_region _ value (fun M => lantr_max uplo PlasmaNonUnit (ntl nb m) (ntl nb n) (rd M (bW, 0) (ntl nb m))));
          [apply zlantr_max_kgood|reflexivity|].
        intros M2 G1 G2. split.
        * left. split; [reflexivity|]. rewrite G1.
          eapply largest_ext; [|apply (tiles_largest nb m n (gt uplo diag (ul M pA lda))
            (gt uplo PlasmaNonUnit (fun i j => M1 (bW, ntl nb m * j + i))))]; try assumption.
          -- intros p _. symmetry. apply HS.
          -- intros i j Hi Hj. destruct (stored uplo i j) eqn:HS'.
             ++ pose proof (E1 i j Hi Hj HS') as K.
                assert (KA : isabs (M1 (bW, ntl nb m * j + i))) by (eapply largest_abs; [|exact K]; intros; apply GA).
                assert (EV : gt uplo PlasmaNonUnit (fun i j => M1 (bW, ntl nb m * j + i)) i j = M1 (bW, ntl nb m * j + i)).
                { unfold gt. rewrite HS'. destruct (i =? j); exact KA. }
                rewrite EV. exact K.
             ++ assert (NE : i <> j) by (intros ->; rewrite stored_refl in HS'; discriminate).
                assert (EV : gt uplo PlasmaNonUnit (fun i j => M1 (bW, ntl nb m * j + i)) i j = n0).
                { unfold gt. replace (i =? j) with false by lia. rewrite HS'. reflexivity. }
                rewrite EV.
                assert (Z0 : forall r c, in_matrix (Z.min nb (m - i * nb)) (Z.min nb (n - j * nb)) r c ->
                  gt uplo diag (ul M pA lda) (i * nb + r) (j * nb + c) = n0).
                { intros r c [Hr Hc]. rewrite (gt_off uplo diag nb) by lia. rewrite HS'. reflexivity. }
                pose proof (ntl_lt nb m i Hb Hm Hi) as Hi'. pose proof (ntl_lt nb n j Hb Hn Hj) as Hj'.
                split.
                ** intros [r c] Hrc. cbn [fst snd] in *. rewrite Z0 by assumption.
                   pose proof (nltb_0 N n0) as K. rewrite nabs_0 in K. exact K.
                ** left. exists (0, 0). split; [split; cbn; lia|]. symmetry. apply Z0. split; cbn; lia.
          -- eapply largest_ext; [|apply (lantr_max_largest uplo PlasmaNonUnit (ntl nb m) (ntl nb n) (rd M1 (bW, 0) (ntl nb m))); [right; reflexivity|lia..]].
             intros [i j] _. cbn [fst snd]. unfold gt, rd, at_. cbn [fst snd].
             replace (0 + i + j * ntl nb m) with (ntl nb m * j + i) by lia. reflexivity.
        * intros l L1 L2 L3. rewrite G2, E2 by assumption. reflexivity.
      + eapply region_mono; [|apply (tr_one_phase nb bA A pA lda bW m n); try assumption].
        * intros M1 (E1 & E2). rewrite Emt, En in *.
          pose proof (rowsum_final nb n m bW value (fun c i => gt uplo diag (ul M pA lda) i c) M1 Hb Hm Hn B5
            (fun i c => GA c i)) as F. cbn [phases_ensures] in F.
          eapply region_mono; [|apply F; exact E1].
          intros M2 [G1 G2]. split.
          -- right; left. split; [reflexivity|]. eapply largest_ext; [|exact G1]. intros j _. cbn beta. apply nsum_ext. intros i _. symmetry. apply HS.
          -- intros l L1 L2 L3. rewrite G2, E2 by assumption. reflexivity.
        * intros k c Hk Hc. apply HZ; [discriminate|]. unfold zlantr_work.
          cbn [Z.eqb PlasmaMaxNorm PlasmaOneNorm PlasmaInfNorm PlasmaFrobeniusNorm Pos.eqb]. rewrite Emt, En. nia.
      + eapply region_mono; [|apply (tr_inf_phase nb bA A pA lda bW m n); try assumption].
        * intros M1 (E1 & E2). rewrite Ent, Em in *.
          pose proof (rowsum_final nb m n bW value (fun c i => gt uplo diag (ul M pA lda) c i) M1 Hb Hn Hm B5
            (fun i c => GA i c)) as F. cbn [phases_ensures] in F.
          eapply region_mono; [|apply F; exact E1].
          intros M2 [G1 G2]. split.
          -- right; right; left. split; [reflexivity|]. eapply largest_ext; [|exact G1]. intros j _. cbn beta. apply nsum_ext. intros i _. symmetry. apply HS.
          -- intros l L1 L2 L3. rewrite G2, E2 by assumption. reflexivity.
        * intros k c Hk Hc. apply HZ; [discriminate|]. unfold zlantr_work.
          cbn [Z.eqb PlasmaMaxNorm PlasmaOneNorm PlasmaInfNorm PlasmaFrobeniusNorm Pos.eqb]. rewrite Ent, Em. nia.
      + eapply region_mono; [|apply (tr_fro_phase nb bA A pA lda bW m n) with (lassq := lassq); try assumption].
        * intros M1 (E1 & E2). rewrite Emt, Ent.
          pose proof (fro_final nsqrt (ntl nb m) (ntl nb n) bW value
            (fun i j => nsum (fun y => nsum (fun x => nmul (gt uplo diag (ul M pA lda) x y) (gt uplo diag (ul M pA lda) x y))
              (i * nb) (Z.min ((i + 1) * nb) m)) (j * nb) (Z.min ((j + 1) * nb) n)) M1 ltac:(lia) ltac:(lia) B5) as F.
          cbn [phases_ensures] in F. eapply region_mono; [|apply F; exact E1].
          intros M2 [(sc & q & G1 & G1' & G1'' & G3) G2]. split.
          -- right; right; right. split; [reflexivity|]. exists sc, q. split; [assumption|]. split; [assumption|].
             split; [assumption|]. rewrite G3.
             rewrite (sum_tiles_2d (fun x y => nmul (gt uplo diag (ul M pA lda) x y) (gt uplo diag (ul M pA lda) x y))) by lia.
             apply nsum_ext. intros j _. apply nsum_ext. intros i _. rewrite HS. reflexivity.
          -- intros l L1 L2 L3. rewrite G2, E2 by assumption. reflexivity.
        * intros k Hk. apply HZ; [discriminate|]. unfold zlantr_work.
          cbn [Z.eqb PlasmaMaxNorm PlasmaOneNorm PlasmaInfNorm PlasmaFrobeniusNorm Pos.eqb]. rewrite Emt, Ent. assumption.
  Qed.

  Lemma tri_gt : forall uplo diag (a : Z -> Z -> N) i j, nabs (tri uplo diag a i j) = gt uplo diag a i j.
  Proof.
    intros uplo diag a i j. unfold gt, tri. change (in_triangle uplo i j) with (stored uplo i j).
    destruct (i =? j); [destruct (diag =? PlasmaUnit); [apply nabs_1|reflexivity]|].
    destruct (stored uplo i j); [reflexivity|apply nabs_0].
  Qed.

  Lemma zlantr_norm : forall lassq nsqrt nb norm uplo diag m n pA lda bA bW (value : loc) (M : mem N),
    0 < nb -> valid_norm norm -> valid_uplo uplo -> valid_diag diag -> 0 <= m -> 0 <= n -> Z.max 1 m <= lda ->
    fst pA <> bA -> fst pA <> bW -> bA <> bW -> fst value <> bA -> fst value <> bW ->
    lassq_ok lassq ->
    valued_ensures (zlantr lassq nsqrt nb norm uplo diag m n pA lda bA bW value) M
      (fun v M' => is_norm nsqrt norm m n (tri uplo diag (ul M pA lda)) v /\
                   (forall l, fst l <> bA -> fst l <> bW -> l <> value -> M' l = M l)).
  Proof.
    intros lassq nsqrt nb norm uplo diag m n pA lda bA bW value M Hb HV HU HD Hm Hn HL B1 B2 B3 B4 B5 HQ.
    unfold zlantr.
    replace (norm_ok norm) with true.
    2: { destruct HV as [->|[->|[->| ->]]]; reflexivity. }
    cbn [negb].
    replace ((uplo =? PlasmaUpper) || (uplo =? PlasmaLower)) with true.
    2: { destruct HU as [-> | ->]; reflexivity. }
    replace ((diag =? PlasmaUnit) || (diag =? PlasmaNonUnit)) with true.
    2: { destruct HD as [-> | ->]; reflexivity. }
    cbn [negb].
    replace (m <? 0) with false by (symmetry; apply Z.ltb_ge; lia).
    replace (n <? 0) with false by (symmetry; apply Z.ltb_ge; lia).
    replace (lda <? Z.max 1 m) with false by (symmetry; apply Z.ltb_ge; lia).
    destruct (Z.eqb_spec (Z.min n m) 0) as [E0|E0].
    - cbn [valued_ensures]. split; [reflexivity|]. split; [|reflexivity]. apply is_norm_empty; assumption.
    - destruct (ge_create_succeeds nb m n) as (A & EA & _); [lia..|].
      rewrite EA. cbn [with_vdesc valued_ensures].
      destruct (ge_create_dn nb m n A _ EA) as (HA & Em & En & _).
      destruct (Z.eqb_spec norm PlasmaMaxNorm) as [EM|EM].
      + cbn [app]. apply (lantr_phases lassq nsqrt _ nb norm uplo diag m n); try assumption; try lia.
        intros i j. apply tri_gt.
      + cbn [app phases_ensures]. apply single_region; [apply calloc_kgood|]. intros M1 E. cbn [k_fun calloc_work] in E.
        assert (E1 : forall l, fst l <> bW -> M1 l = M l).
        { intros l Hl. rewrite E. apply fill_out. intros (r & _ & ->). apply Hl. reflexivity. }
        eapply phases_mono; [|apply (lantr_phases lassq nsqrt (tri uplo diag (ul M pA lda)) nb norm uplo diag m n); try assumption; try lia].
        * intros M2 [G1 G2]. split; [exact G1|]. intros l L1 L2 L3. rewrite G2, E1 by assumption. reflexivity.
        * intros i j. rewrite tri_gt. unfold gt, ul, rd. rewrite E1 by (cbn; assumption). reflexivity.
        * intros _ k Hk. rewrite E. replace (bW, k) with (fst (bW, 0), snd (bW, 0) + k) by (cbn; f_equal; lia).
          apply (fill_in N (bW, 0) _ (fun _ => n0)). assumption.
  Qed.
End TrDriver.
