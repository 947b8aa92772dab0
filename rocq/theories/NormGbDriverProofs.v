(* plasma_zlangb. *)
From Coq Require Import ZArith List Bool Lia Ring.
From Verif Require Import Base NumModel NumProofs FieldModel TaskModel TaskSpec TaskProofs DescModel DescSpec
  DescDriverModel DescProofs DescPackProofs DescProofs3 DescProofs4 MatModel MatSpec MatProofs RegionProofs
  LayoutModel LayoutProofs LayoutProofs2 DriverModel DriverSpec OpProofs OperandProofs GemmProofs
  BandModel BandSpec BandProofs BandLayoutProofs BandGbProofs EwProofs SwpModel NormModel NormTriModel NormSpec FillProofs
  NormProofs NormDriverProofs NormPhaseProofs NormZlangeProofs NormTriExtProofs NormTrDriverProofs
  NormBandModel NormBandSpec NormGbLayoutProofs NormGbRegionProofs NormGbProofs NormGbPhaseProofs.
Import ListNotations.
Open Scope Z_scope.

Section GbDriver.
  Context {N : normed}.
  Add Ring num_ring_gbd : (nring N).

  Lemma langb_phases : forall lassq nsqrt nb norm m n kl ku A p ld bA bW (value : loc) (M : mem N) (a : Z -> Z -> N),
    gd_ok A nb m n kl ku -> (n <= m \/ m mod nb = 0) -> valid_norm norm ->
    fst p <> bA -> fst p <> bW -> bA <> bW -> fst value <> bA -> fst value <> bW ->
    lassq_ok lassq ->
    (forall i j, in_matrix m n i j -> gd_read nb kl ku i j -> gd_src kl ku p ld M i j = a i j) ->
    (forall i j, in_matrix m n i j -> ~ (- ku <= i - j <= kl) -> a i j = n0) ->
    (norm <> PlasmaMaxNorm -> forall k, 0 <= k < zlangb_work norm nb kl ku A -> M (bW, k) = n0) ->
    phases_ensures (match pzlangb lassq nsqrt norm bA A (bW, 0) value with
                    | nil => [pzpb2desc p ld bA A]
                    | first :: rest => (pzpb2desc p ld bA A ++ first) :: rest
                    end) M
      (fun M' => is_norm nsqrt norm m n a (M' value) /\
                   (forall l, fst l <> bA -> fst l <> bW -> l <> value -> M' l = M l)).
  Proof.
    intros lassq nsqrt nb norm m n kl ku A p ld bA bW value M a HA SQ HV B1 B2 B3 B4 B5 HQ HR HB HZ.
    pose proof (gd_pos _ _ _ _ _ _ HA) as Hb. pose proof (gd_kl0 _ _ _ _ _ _ HA) as Hkl. pose proof (gd_ku0 _ _ _ _ _ _ HA) as Hku.
    assert (Hm : 0 < m) by (clear -Hkl; lia). assert (Hn : 0 < n) by (clear -Hku; lia).
    pose proof (ntl_pos nb m Hb Hm) as RP. pose proof (ntl_pos nb n Hb Hn) as CP.
    pose proof (gd_mt _ _ _ _ _ _ HA) as MT. pose proof (gd_nt _ _ _ _ _ _ HA) as NT.
    pose proof (sq_mb nb A _ (gd_sq _ _ _ _ _ _ HA)) as MB. pose proof (gd_n _ _ _ _ _ _ HA) as DN.
    assert (N1 : 0 <= ntl nb ku) by (apply Z.div_pos; clear -Hku Hb; lia).
    assert (N2 : 0 <= ntl nb kl) by (apply Z.div_pos; clear -Hkl Hb; lia).
    assert (N3 : ntl nb ku <= ntl nb (ku + kl)) by (apply Z.div_le_mono; clear -Hkl Hb; lia).
    pose proof (lb_width A nb m n kl ku HA) as LW.
    assert (Q1 : Z.quot (ku + kl + nb - 1) nb = ntl nb (ku + kl)) by (apply Z.quot_div_nonneg; clear -Hkl Hku Hb; lia).
    assert (Q2 : Z.quot (kl + nb - 1) nb = ntl nb kl) by (apply Z.quot_div_nonneg; clear -Hkl Hb; lia).
    assert (ZO : forall i j x y, 0 <= i < ntl nb m -> 0 <= j < ntl nb n -> ~ (lb_start A j <= i <= lb_end A j) ->
      0 <= x < Z.min nb (m - i * nb) -> 0 <= y < Z.min nb (n - j * nb) -> a (i * nb + x) (j * nb + y) = n0).
    { intros i j x y Hi Hj HO Hx Hy. apply HB.
      - clear -Hi Hj Hx Hy Hb. split; nia.
      - apply (lb_out A nb m n kl ku HA); try assumption; clear -Hi Hj Hx Hy; lia. }
    unfold zlangb_work in HZ.
    destruct HV as [->|[->|[->| ->]]]; unfold pzlangb;
      cbn [Z.eqb PlasmaMaxNorm PlasmaOneNorm PlasmaInfNorm PlasmaFrobeniusNorm Pos.eqb] in *; cbn [phases_ensures].
    - eapply region_mono; [|apply (gb_max_phase A nb m n kl ku bA p ld bW HA SQ B1 B2 B3 M a HR HB)].
      intros M1 (E1 & E2).
      remember (combine (zrange 0 (Z.of_nat (length (lb_tiles A)))) (lb_tiles A)) as L eqn:EL.
      apply (value_region _ value (fun M => lange_max 1 (Z.of_nat (length (lb_tiles A))) (rd M (bW, 0) 1)));
        [apply zlange_max_kgood|reflexivity|].
      intros M2 G1 G2. split.
      2: { intros l L1 L2 L3. rewrite G2, E2 by assumption. reflexivity. }
      left. split; [reflexivity|]. rewrite G1. clear G1 G2 E2.
      pose proof (lange_max_largest 1 (Z.of_nat (length (lb_tiles A))) (rd M1 (bW, 0) 1)) as LV.
      remember (lange_max 1 (Z.of_nat (length (lb_tiles A))) (rd M1 (bW, 0) 1)) as v eqn:Ev. clear Ev.
      assert (AV : isabs v) by (eapply largest_abs; [|exact LV]; intros; apply isabs_abs).
      assert (TL : forall k i j, In (k, (i, j)) L ->
        largest (fun q => in_matrix (tsz nb m i) (tsz nb n j) (fst q) (snd q)) (fun q : Z * Z => nabs (a (i * nb + fst q) (j * nb + snd q))) (M1 (bW, k))).
      { intros k i j H. rewrite (E1 k i j H). apply lange_max_largest. }
      assert (TV : forall k i j, In (k, (i, j)) L -> In (i, j) (lb_tiles A)).
      { intros k i j H. rewrite EL in H. apply (numbered_range _ 0) in H. apply H. }
      apply (largest_add _ _ (fun q => exists i j x y, In (i, j) (lb_tiles A) /\ in_matrix (tsz nb m i) (tsz nb n j) x y /\ q = (i * nb + x, j * nb + y))).
      + intros q (i & j & x & y & Hij & [Hx Hy] & ->). cbn [fst snd].
        destruct (gview A nb m n kl ku HA _ Hij) as (X1 & X2 & _). cbn [fst snd] in *. unfold tsz in *.
        clear -X1 X2 Hx Hy Hb. split; nia.
      + intros [x y] [Hx Hy]. cbn [fst snd] in *.
        destruct (row_tile A nb m n kl ku HA x Hx) as (P1 & P2 & P3). destruct (col_tile A nb m n kl ku HA y Hy) as (P4 & P5 & P6).
        destruct (in_dec zz_dec (x / nb, y / nb) (lb_tiles A)) as [HI|HO].
        * left. exists (x / nb), (y / nb), (x mod nb), (y mod nb). split; [assumption|]. split; [split; assumption|]. rewrite <- P3, <- P6. reflexivity.
        * right. rewrite P3, P6, ZO; try assumption; [apply nabs_0|]. intros K. apply HO. apply (lb_in A nb m n kl ku HA). auto.
      + exists (0, 0). split; cbn; assumption || (clear -Hm Hn; lia).
      + intros; apply isabs_abs.
      + eapply (largest_nested (Z * Z) (Z * (Z * Z)) (fun z => In z L)
          (fun z q => exists x y, in_matrix (tsz nb m (fst (snd z))) (tsz nb n (snd (snd z))) x y /\ q = (fst (snd z) * nb + x, snd (snd z) * nb + y))
          _ _ (fun z => M1 (bW, fst z))).
        * intros; apply isabs_abs.
        * intros [k [i j]] H. cbn [fst snd]. exists (i * nb + 0, j * nb + 0), 0, 0. split; [|reflexivity].
          destruct (gview A nb m n kl ku HA _ (TV _ _ _ H)) as (_ & _ & _ & X1 & X2 & _). cbn [fst snd] in *. clear -X1 X2. split; lia.
        * intros q. split.
          -- intros (i & j & x & y & Hij & Hxy & ->). destruct (numbered_elem _ 0 _ Hij) as [k K].
             exists (k, (i, j)). cbn [fst snd]. split; [rewrite EL; exact K|]. exists x, y. auto.
          -- intros ([k [i j]] & H & x & y & Hxy & ->). cbn [fst snd] in *. exists i, j, x, y. split; [eapply TV; exact H|]. auto.
        * intros [k [i j]] H. cbn [fst snd]. apply (largest_reindex _ _ _ _ _ _ _) with (3 := TL k i j H).
          -- intros q (x & y & Hxy & ->). exists (x, y). split; [exact Hxy|reflexivity].
          -- intros [x y] Hxy. cbn [fst snd] in *. exists (i * nb + x, j * nb + y). split; [exists x, y; auto|reflexivity].
        * apply (largest_reindex _ _ _ _ _ _ _) with (3 := LV).
          -- intros [k [i j]] H. cbn [fst snd]. exists (0, k). cbn [fst snd]. split.
             ++ split; [clear; lia|]. rewrite EL in H. apply (numbered_range _ 0) in H. clear -H. lia.
             ++ unfold rd, at_. cbn [fst snd]. replace (0 + 0 + k * 1) with k by (clear; lia).
                apply (largest_abs _ _ _ _ (fun _ _ => isabs_abs _) (TL k i j H)).
          -- intros [z k] [Hz Hk]. cbn [fst snd] in *. destruct (numbered_pos (lb_tiles A) 0 k ltac:(clear -Hk; lia)) as [[i j] K].
             assert (K' : In (k, (i, j)) L) by (rewrite EL; exact K).
             exists (k, (i, j)). split; [exact K'|]. cbn [fst snd]. unfold rd, at_. cbn [fst snd].
             replace (0 + z + k * 1) with k by (clear -Hz; lia). symmetry.
             apply (largest_abs _ _ _ _ (fun _ _ => isabs_abs _) (TL k i j K')).
        * exact AV.
    - eapply region_mono; [|apply (gb_one_phase A nb m n kl ku bA p ld bW HA SQ B1 B2 B3 M a HR HB)].
      + intros M1 (E1 & E2). rewrite DN in *.
        eapply region_mono; [|apply (table_final n (lb_ldwork A) bW value (fun c k => if k + lb_start A (c / nb) <=? lb_end A (c / nb)
                    then nsum (fun i => nabs (a i c)) ((k + lb_start A (c / nb)) * nb) (Z.min ((k + lb_start A (c / nb) + 1) * nb) m)
                    else n0)); [assumption| |exact E1]].
        * intros M2 (G1 & G2). split.
          -- right; left. split; [reflexivity|]. eapply largest_ext; [|exact G1]. intros c Hc. cbn beta.
             destruct (col_tile A nb m n kl ku HA c Hc) as (P1 & P2 & P3).
             rewrite <- (all_tiles (fun i => nabs (a i c)) nb m) by assumption.
             apply (shifted_sum (fun t => nsum (fun i => nabs (a i c)) (t * nb) (Z.min ((t + 1) * nb) m))).
             ++ apply (lb_start_pos A nb m n kl ku HA).
             ++ apply (lb_end_mt A nb m n kl ku HA). apply P1.
             ++ clear -LW N1 N2. lia.
             ++ apply (lb_span A nb m n kl ku HA). apply P1.
             ++ intros i Hi HO. rewrite <- tile_sum. apply nsum_0. intros r Hr. rewrite P3. rewrite ZO; try assumption. apply nabs_0.
          -- intros l L1 L2 L3. rewrite G2, E2 by assumption. reflexivity.
        * intros c k. cbn beta. destruct (k + lb_start A (c / nb) <=? lb_end A (c / nb)); [|apply isabs_0].
          apply isabs_sum. intros; apply isabs_abs.
      + intros k c Hk Hc. apply HZ; [discriminate|]. rewrite DN, Q1, Q2. rewrite LW in Hk. clear -Hk Hc N1 N2 N3. nia.
    - eapply region_mono; [|apply (gb_inf_phase A nb m n kl ku bA p ld bW HA SQ B1 B2 B3 M a HR HB (nb * ntl nb m) eq_refl)].
      + intros M1 (E1 & E2). rewrite MB, MT, NT in *.
        eapply region_mono; [|apply (table_final (nb * ntl nb m) (ntl nb n) bW value
          (fun i k => if i <? m then nsum (fun j => nabs (a i j)) (k * nb) (Z.min ((k + 1) * nb) n) else n0)); [assumption| |exact E1]].
        * intros M2 (G1 & G2). split.
          -- right; right; left. split; [reflexivity|]. pose proof (ntl_top nb m Hb ltac:(clear -Hm; lia)) as TP.
             apply (largest_ext Z (fun i => 0 <= i < m) (fun i => nsum (fun k => if i <? m then nsum (fun j => nabs (a i j)) (k * nb) (Z.min ((k + 1) * nb) n) else n0) 0 (ntl nb n))).
             ++ intros i Hi. cbn beta. replace (i <? m) with true by (clear -Hi; lia). apply all_tiles; assumption.
             ++ eapply largest_drop; [| | | |exact G1].
                ** intros i Hi. rewrite Z.mul_comm in TP. cbn beta. clear -Hi TP. lia.
                ** intros i Hi. cbn beta in Hi. cbn beta. destruct (Z.ltb_spec i m) as [L|G]; [left; clear -Hi L; lia|right]. apply nsum_0. reflexivity.
                ** exists 0. clear -Hm. lia.
                ** intros i _. apply isabs_sum. intros k _. destruct (i <? m); [|apply isabs_0]. apply isabs_sum. intros; apply isabs_abs.
          -- intros l L1 L2 L3. rewrite G2, E2 by assumption. reflexivity.
        * intros i k. cbn beta. destruct (i <? m); [|apply isabs_0]. apply isabs_sum. intros; apply isabs_abs.
      + intros k i Hk Hi. apply HZ; [discriminate|]. rewrite MB, MT, NT. remember (ntl nb m) as x. remember (ntl nb n) as y.
        remember (nb * x) as u eqn:EU. assert (U0 : 0 < u) by (clear -EU Hb RP; nia).
        replace (y * x * nb) with (u * y) by (clear -EU; nia). clear -Hk Hi U0. nia.
    - eapply region_mono; [|apply (gb_fro_phase A nb m n kl ku bA p ld bW HA SQ B1 B2 B3 M a HR HB lassq HQ)].
      + intros M1 (E1 & E2). rewrite NT in *.
        pose proof (fro_final nsqrt (lb_ldwork A) (ntl nb n) bW value _ M1 ltac:(clear -LW N1 N2; lia) ltac:(clear -CP; lia) B5 E1) as F.
        cbn [phases_ensures] in F. eapply region_mono; [|exact F].
        intros M2 [(sc & q & G1 & G1' & G1'' & G3) G2]. split.
        * right; right; right. split; [reflexivity|]. exists sc, q. split; [assumption|]. split; [assumption|].
          split; [assumption|]. rewrite G3.
          rewrite <- (sum_tiles_2d (fun x y => nmul (nabs (a x y)) (nabs (a x y))) nb m n) by assumption.
          apply nsum_ext. intros j Hj.
          apply (shifted_sum (fun t => nsum (fun y => nsum (fun x => nmul (nabs (a x y)) (nabs (a x y)))
                 (t * nb) (Z.min ((t + 1) * nb) m)) (j * nb) (Z.min ((j + 1) * nb) n))).
          -- apply (lb_start_pos A nb m n kl ku HA).
          -- apply (lb_end_mt A nb m n kl ku HA). apply Hj.
          -- clear -LW N1 N2. lia.
          -- apply (lb_span A nb m n kl ku HA). apply Hj.
          -- intros i Hi HO. rewrite <- (tile_sum (fun y => nsum (fun x => nmul (nabs (a x y)) (nabs (a x y))) _ _)).
             apply nsum_0. intros y Hy. rewrite <- (tile_sum (fun x => nmul (nabs (a x (j * nb + y))) (nabs (a x (j * nb + y))))).
             apply nsum_0. intros x Hx. rewrite ZO by assumption. rewrite nabs_0. ring.
        * intros l L1 L2 L3. rewrite G2, E2 by assumption. reflexivity.
      + intros k Hk. apply HZ; [discriminate|]. rewrite NT, Q1, Q2. rewrite LW in Hk. clear -Hk N3 CP. nia.
  Qed.

  Lemma zlangb_norm : forall lassq nsqrt nb norm m n kl ku p ld bA bW (value : loc) (M : mem N),
    0 < nb -> valid_norm norm -> 0 <= kl < m -> 0 <= ku < n -> 1 + kl + ku <= ld -> (n <= m \/ m mod nb = 0) ->
    fst p <> bA -> fst p <> bW -> bA <> bW -> fst value <> bA -> fst value <> bW ->
    lassq_ok lassq -> gb_zeros M nb m n kl ku p ld ->
    valued_ensures (zlangb lassq nsqrt nb norm m n kl ku p ld bA bW value) M
      (fun v M' => is_norm nsqrt norm m n (gb_fill_el M kl ku p ld) v /\
                   (forall l, fst l <> bA -> fst l <> bW -> l <> value -> M' l = M l)).
  Proof.
    intros lassq nsqrt nb norm m n kl ku p ld bA bW value M Hb HV Hkl Hku HL SQ B1 B2 B3 B4 B5 HQ HZ.
    unfold zlangb.
    replace (norm_ok norm) with true by (destruct HV as [->|[->|[->| ->]]]; reflexivity). cbn [negb].
    replace (m <? 0) with false by (clear -Hkl; lia). replace (n <? 0) with false by (clear -Hku; lia).
    replace (kl <? 0) with false by (clear -Hkl; lia). replace (ku <? 0) with false by (clear -Hku; lia).
    replace (ld <? Z.max 1 (1 + kl + ku)) with false by (clear -HL Hkl Hku; lia).
    replace (Z.min n m =? 0) with false by (clear -Hkl Hku; lia).
    destruct (gb_create_succeeds nb m n kl ku Hb Hkl Hku) as (A & sz & EA). rewrite EA. cbn [with_vdesc valued_ensures].
    pose proof (gb_create_gd nb m n kl ku A sz (proj1 Hkl) (proj1 Hku) EA) as HA.
    assert (C1 : forall M', (forall l, fst l <> bW -> M' l = M l) -> forall i j, in_matrix m n i j -> gd_read nb kl ku i j ->
      gd_src kl ku p ld M' i j = gb_fill_el M kl ku p ld i j).
    { intros M' E i j HM HG. unfold gd_src. rewrite E by assumption. unfold gb_fill_el.
      destruct (Z.leb_spec (j - ku) i) as [G1|G1]; destruct (Z.leb_spec i (j + kl)) as [G2|G2]; cbn [andb]; try reflexivity;
      apply (HZ i j HM HG); clear -G1 G2 Hkl Hku; lia. }
    assert (C2 : forall i j, in_matrix m n i j -> ~ (- ku <= i - j <= kl) -> gb_fill_el M kl ku p ld i j = n0).
    { intros i j _ HO. unfold gb_fill_el.
      destruct (Z.leb_spec (j - ku) i) as [G1|G1]; destruct (Z.leb_spec i (j + kl)) as [G2|G2]; cbn [andb]; try reflexivity.
      exfalso. apply HO. clear -G1 G2. lia. }
    destruct (Z.eqb_spec norm PlasmaMaxNorm) as [EM|EM].
    - cbn [app]. apply (langb_phases lassq nsqrt nb norm m n kl ku A); try assumption.
      + apply C1. reflexivity.
      + intros NM. destruct (NM EM).
    - cbn [app phases_ensures]. apply single_region; [apply calloc_kgood|]. intros M1 E. cbn [k_fun calloc_work] in E.
      assert (E1 : forall l, fst l <> bW -> M1 l = M l).
      { intros l Hl. rewrite E. apply fill_out. intros (r & _ & ->). apply Hl. reflexivity. }
      eapply phases_mono; [|apply (langb_phases lassq nsqrt nb norm m n kl ku A p ld bA bW value M1 (gb_fill_el M kl ku p ld)); try assumption].
      + intros M2 [G1 G2]. split; [exact G1|]. intros l L1 L2 L3. rewrite G2, E1 by assumption. reflexivity.
      + apply C1. exact E1.
      + intros _ k Hk. rewrite E. replace (bW, k) with (fst (bW, 0), snd (bW, 0) + k) by (cbn; f_equal; lia).
        apply (fill_in N (bW, 0) _ (fun _ => n0)). assumption.
  Qed.

  Lemma zlangb_tests : forall lassq nsqrt nb norm m n kl ku p ld bA bW (value : loc) (M : mem N),
    0 < nb -> valid_norm norm -> 0 <= kl < m -> 0 <= ku < n -> (n <= m \/ m mod nb = 0) ->
    ld = ((ku + kl + nb - 1) / nb + (kl + nb - 1) / nb + 1) * nb -> zero_padded M n kl ku p ld ->
    fst p <> bA -> fst p <> bW -> bA <> bW -> fst value <> bA -> fst value <> bW ->
    lassq_ok lassq ->
    valued_ensures (zlangb lassq nsqrt nb norm m n kl ku p ld bA bW value) M
      (fun v M' => is_norm nsqrt norm m n (gb_fill_el M kl ku p ld) v /\
                   (forall l, fst l <> bA -> fst l <> bW -> l <> value -> M' l = M l)).
  Proof.
    intros lassq nsqrt nb norm m n kl ku p ld bA bW value M Hb HV Hkl Hku SQ EL HZ B1 B2 B3 B4 B5 HQ.
    apply zlangb_norm; try assumption.
    - destruct (div_mod_pos (kl + nb - 1) nb Hb) as [K1 K2]. destruct (div_mod_pos (ku + kl + nb - 1) nb Hb) as [U1 U2].
      rewrite EL. clear -K1 K2 U1 U2 Hkl Hku Hb. lia.
    - apply zero_padded_zeros; try assumption; lia.
  Qed.

  Lemma zlangb_empty : forall lassq nsqrt nb norm m n kl ku p ld bA bW (value : loc) (M : mem N),
    valid_norm norm -> 0 <= m -> 0 <= n -> Z.min m n = 0 -> 0 <= kl -> 0 <= ku -> 1 + kl + ku <= ld ->
    valued_ensures (zlangb lassq nsqrt nb norm m n kl ku p ld bA bW value) M
      (fun v M' => is_norm nsqrt norm m n (gb_fill_el M kl ku p ld) v /\ M' = M).
  Proof.
    intros lassq nsqrt nb norm m n kl ku p ld bA bW value M HV Hm Hn H0 Hkl Hku Hld. unfold zlangb.
    replace (negb (norm_ok norm)) with false
      by (destruct HV as [->|[->|[->| ->]]]; reflexivity).
    replace (m <? 0) with false by (symmetry; apply Z.ltb_ge; lia). replace (n <? 0) with false by (symmetry; apply Z.ltb_ge; lia).
    replace (kl <? 0) with false by (symmetry; apply Z.ltb_ge; lia). replace (ku <? 0) with false by (symmetry; apply Z.ltb_ge; lia).
    replace (ld <? Z.max 1 (1 + kl + ku)) with false by (symmetry; apply Z.ltb_ge; lia).
    replace (Z.min n m =? 0) with true by (symmetry; apply Z.eqb_eq; lia).
    split; [reflexivity|]. split; [|reflexivity]. apply is_norm_empty; assumption || lia.
  Qed.
End GbDriver.
