From Coq Require Import ZArith Lia List Bool.
From Verif Require Import Base DescModel DescSpec DescDriverModel DescProofs DescPackProofs DescProofs3.
Open Scope Z_scope.

Lemma triangular_nonsquare_refuted : exists mb nb lm ln A size,
  triangular_create PlasmaComplexDouble PlasmaLower mb nb lm ln 0 0 lm ln = CrOk A size /\
  exists i j, in_matrix lm ln i j /\ j / nb <= i / mb /\ size <= elem_off A i j.
Proof.
  exists 1, 1, 4, 2. do 2 eexists. split; [reflexivity|].
  exists 3, 1. split; [unfold in_matrix; lia|]. split; cbv; discriminate.
Qed.

Lemma negative_corner_refuted : exists A,
  desc_check A = PlasmaSuccess /\ d_i A < 0 /\ elem_off A 0 0 < 0.
Proof.
  exists (general_init PlasmaComplexDouble 2 2 4 4 (-2) 0 2 2).
  repeat split; reflexivity.
Qed.

Lemma create_passes_check_main : forall prec mb nb lm ln i j m n,
  valid_precision prec = true -> 0 < mb -> 0 < nb ->
  0 <= i -> 0 <= j -> 0 <= m -> 0 <= n ->
  i + m <= lm -> j + n <= ln -> (0 < i -> i < lm) -> (0 < j -> j < ln) ->
  i mod mb = 0 -> j mod nb = 0 ->
  exists A, general_create prec mb nb lm ln i j m n = CrOk A (lm * ln) /\
    desc_check A = PlasmaSuccess /\
    d_mb A = mb /\ d_nb A = nb /\ d_gm A = lm /\ d_gn A = ln /\
    d_i A = i /\ d_j A = j /\ d_m A = m /\ d_n A = n.
Proof.
  intros. assert (Q := general_create_succeeds prec mb nb lm ln i j m n).
  eexists. split; [apply Q; assumption|]. split; [|repeat split; reflexivity].
  specialize (Q ltac:(assumption) ltac:(assumption) ltac:(assumption) ltac:(assumption) ltac:(assumption)
    ltac:(assumption) ltac:(assumption) ltac:(assumption) ltac:(assumption) ltac:(assumption)
    ltac:(assumption) ltac:(assumption) ltac:(assumption)).
  unfold general_create in Q. cbv zeta in Q. destruct (desc_check _ =? PlasmaSuccess) eqn:E; [|discriminate].
  apply Z.eqb_eq in E. exact E.
Qed.

Lemma partition_view_main : forall prec mb nb lm ln A0 size i j m n A,
  general_create prec mb nb lm ln 0 0 lm ln = CrOk A0 size ->
  0 <= i -> 0 <= j -> 0 <= m -> 0 <= n -> i mod mb = 0 -> j mod nb = 0 ->
  desc_view_opt A0 i j m n = Some A ->
  (forall k, 0 <= k < d_mt A -> 1 <= tile_mview A k <= tile_mmain A k /\ tile_mmain A k <= mb) /\
  (forall k, 0 <= k < d_nt A -> 1 <= tile_nview A k <= tile_nmain A k /\ tile_nmain A k <= nb) /\
  zsum (tile_mview A) (d_mt A) = m /\ zsum (tile_nview A) (d_nt A) = n /\
  (forall r, 0 <= r < m -> exists! t, 0 <= t < d_mt A /\ t * mb <= r < t * mb + tile_mview A t) /\
  (forall c, 0 <= c < n -> exists! t, 0 <= t < d_nt A /\ t * nb <= c < t * nb + tile_nview A t).
Proof.
  intros prec mb nb lm ln A0 size i j m n A H Hi Hj Hm Hn Ai Aj HV.
  apply general_create_ok in H; [|lia|lia]. destruct H as (G0 & EA & _).
  apply view_ok in HV; auto; try (rewrite EA; assumption).
  destruct HV as (G & Em & En & Emb & Enb & _).
  rewrite EA in Emb, Enb. cbn in Emb, Enb.
  pose proof (gk_shape A G) as S. assert (S2 := S). destruct S2.
  split; [|split; [|split; [|split; [|split]]]].
  - intros k Hk. destruct (mview_spec A k S Hk).
    assert (Q := mmain_ge_mview A k S). rewrite (gk_type A G) in Q.
    specialize (Q ltac:(discriminate) Hk). lia.
  - intros k Hk. destruct (nview_spec A k S Hk).
    assert (Q := nmain_ge_nview A k S Hk). lia.
  - rewrite mview_sum by assumption. assumption.
  - rewrite nview_sum by assumption. assumption.
  - intros r Hr. rewrite <- Em in Hr. destruct (row_tile A r S Hr) as [R1 R2].
    rewrite Emb in *. destruct (div_mod_pos r mb go_mb) as [E R].
    exists (r / mb). split.
    + split; lia.
    + intros t [Ht1 Ht2]. destruct (mview_spec A t S Ht1) as [V1 V2]. rewrite Emb in *. nia.
  - intros c Hc. rewrite <- En in Hc. destruct (col_tile A c S Hc) as [R1 R2].
    rewrite Enb in *. destruct (div_mod_pos c nb go_nb) as [E R].
    exists (c / nb). split.
    + split; lia.
    + intros t [Ht1 Ht2]. destruct (nview_spec A t S Ht1) as [V1 V2]. rewrite Enb in *. nia.
Qed.

Lemma band_check_refuted : forall uplo,
  uplo = PlasmaGeneral \/ uplo = PlasmaUpper \/ uplo = PlasmaLower ->
  exists nb lm n kl ku A size,
    general_band_create PlasmaComplexDouble uplo nb nb lm n 0 0 n n kl ku = CrOk A size /\
    desc_check A = PlasmaSuccess /\
    exists i j, in_matrix n n i j /\ - ku <= i - j <= kl /\
      (uplo = PlasmaUpper -> i <= j) /\ (uplo = PlasmaLower -> j <= i) /\
      ~ (0 <= band_elem_off A i j < size).
Proof.
  intros uplo [-> | [-> | ->]].
  - exists 4, 4, 8, 1, 0. do 2 eexists. split; [reflexivity|]. split; [reflexivity|].
    exists 4, 3. unfold in_matrix. repeat split; try lia; try discriminate.
    intros [_ H]. revert H. cbv. discriminate.
  - exists 4, 4, 8, 0, 1. do 2 eexists. split; [reflexivity|]. split; [reflexivity|].
    exists 4, 4. unfold in_matrix. repeat split; try lia; try discriminate.
    intros [_ H]. revert H. cbv. discriminate.
  - exists 4, 4, 8, 1, 0. do 2 eexists. split; [reflexivity|]. split; [reflexivity|].
    exists 4, 3. unfold in_matrix. repeat split; try lia; try discriminate.
    intros [_ H]. revert H. cbv. discriminate.
Qed.

Lemma band_check_rows : forall A, d_type A = PlasmaGeneralBand ->
  desc_check A = PlasmaSuccess ->
  (d_uplo A = PlasmaGeneral -> 2 * d_kl A + d_ku A + 1 <= d_gm A) /\
  (d_uplo A = PlasmaUpper -> d_ku A + 1 <= d_gm A) /\
  d_kl A < d_m A /\ d_ku A < d_n A.
Proof.
  intros A T E. apply band_check_ok in E; [|exact T].
  destruct E as (_&Hmb&E2&E3&E4&E5&E6&E7&E8&E9&E10&E11&E12).
  split; [|split; [|lia]]; intro HU.
  - specialize (E6 HU). destruct (div_mod_pos (2 * d_kl A + d_ku A + d_mb A) (d_mb A) Hmb). nia.
  - specialize (E7 HU). destruct (div_mod_pos (d_ku A + d_mb A) (d_mb A) Hmb). nia.
Qed.

Lemma band_check_lower_refuted : exists A,
  d_type A = PlasmaGeneralBand /\ d_uplo A = PlasmaLower /\
  desc_check A = PlasmaSuccess /\ d_gm A < d_kl A + 1.
Proof.
  exists (general_band_init PlasmaComplexDouble PlasmaLower 4 4 4 16 0 0 16 16 9 9).
  repeat split; reflexivity.
Qed.

Lemma ge_create_succeeds : forall nb m n, 0 < nb -> 0 <= m -> 0 <= n ->
  exists A, ge_create nb m n = CrOk A (m * n) /\ d_m A = m /\ d_n A = n.
Proof.
  intros nb m n Hb Hm Hn. unfold ge_create.
  rewrite general_create_succeeds; try lia; try reflexivity.
  eexists. repeat split; reflexivity.
Qed.

Lemma tr_create_succeeds : forall uplo nb n,
  uplo = PlasmaUpper \/ uplo = PlasmaLower -> 0 < nb -> 0 <= n ->
  exists A size, tr_create uplo nb n = CrOk A size /\ d_m A = n /\ d_n A = n.
Proof.
  intros uplo nb n Hu Hb Hn. unfold tr_create, triangular_create. cbv zeta.
  replace (desc_check _) with PlasmaSuccess.
  - do 2 eexists. repeat split; reflexivity.
  - unfold desc_check. cbn [d_type triangular_init].
    replace ((uplo =? PlasmaGeneral) || (uplo =? PlasmaUpper) || (uplo =? PlasmaLower)) with true
      by (destruct Hu as [-> | ->]; reflexivity).
    unfold general_check. cbn.
    replace ((nb <=? 0) || (nb <=? 0)) with false
      by (symmetry; rewrite orb_false_iff, !Z.leb_gt; lia).
    replace ((n <? 0) || (n <? 0)) with false
      by (symmetry; rewrite orb_false_iff, !Z.ltb_ge; lia).
    replace ((n <? n) || (n <? n)) with false
      by (symmetry; rewrite orb_false_iff, !Z.ltb_ge; lia).
    rewrite Z.add_0_l.
    replace ((n <? n) || (n <? n)) with false
      by (symmetry; rewrite orb_false_iff, !Z.ltb_ge; lia).
    reflexivity.
Qed.

Lemma gb_create_succeeds : forall nb m n kl ku, 0 < nb ->
  0 <= kl < m -> 0 <= ku < n ->
  exists A size, gb_create nb m n kl ku = CrOk A size.
Proof.
  intros nb m n kl ku Hb Hl Hu. unfold gb_create, general_band_create. cbv zeta.
  replace (desc_check _) with PlasmaSuccess.
  - do 2 eexists. reflexivity.
  - unfold desc_check, general_band_check. cbn.
    destruct (div_mod_pos (2 * kl + ku + nb) nb Hb) as [D1 D2].
    destruct (div_mod_pos (ku + kl + nb - 1) nb Hb) as [D3 D4].
    destruct (div_mod_pos (kl + nb - 1) nb Hb) as [D5 D6].
    set (x := (2 * kl + ku + nb) / nb) in *. set (y := (ku + kl + nb - 1) / nb) in *.
    set (z := (kl + nb - 1) / nb) in *.
    assert (x <= y + z + 1) by nia.
    replace ((nb <=? 0) || (nb <=? 0)) with false
      by (symmetry; rewrite orb_false_iff, !Z.leb_gt; lia).
    replace ((m <? 0) || (n <? 0)) with false
      by (symmetry; rewrite orb_false_iff, !Z.ltb_ge; lia).
    replace (n <? n) with false by (symmetry; rewrite Z.ltb_ge; lia).
    replace ((y + z + 1) * nb <? nb * x) with false by (symmetry; rewrite Z.ltb_ge; nia).
    cbn. rewrite Z.add_0_l.
    replace (n <? n) with false by (symmetry; rewrite Z.ltb_ge; lia).
    replace ((m <? kl + 1) || (n <? ku + 1)) with false
      by (symmetry; rewrite orb_false_iff, !Z.ltb_ge; lia).
    reflexivity.
Qed.

Lemma gb_create_wide_refuted : exists nb m n kl ku, 0 < nb /\ 0 < m /\ 0 < n /\
  0 <= kl /\ 0 <= ku /\ gb_create nb m n kl ku = CrError PlasmaErrorIllegalValue.
Proof. exists 4, 3, 3, 3, 0. repeat split; lia. Qed.

Lemma hetrf_small_refuted : exists nb n ldt, 0 < nb /\ 0 < n /\ n <= ldt /\
  hetrf_T_create nb n ldt = CrError PlasmaErrorIllegalValue.
Proof. exists 256, 100, 1024. repeat split; lia. Qed.
