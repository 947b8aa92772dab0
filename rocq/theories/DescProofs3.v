From Coq Require Import ZArith Lia List Bool.
From Verif Require Import Base DescModel DescSpec DescDriverModel DescProofs DescPackProofs.
Open Scope Z_scope.

Lemma general_storage_main : forall prec mb nb lm ln A size,
  general_create prec mb nb lm ln 0 0 lm ln = CrOk A size ->
  stored_within (elem_off A) (in_matrix lm ln) size /\
  stored_apart (elem_off A) (in_matrix lm ln) /\
  stored_onto (elem_off A) (in_matrix lm ln) size.
Proof.
  intros prec mb nb lm ln A size H.
  apply general_create_ok in H; [|lia|lia]. destruct H as (G & EA & ES).
  assert (E : forall i j, elem_off A i j = gaddr mb nb lm ln i j).
  { intros. rewrite elem_off_gaddr by assumption. rewrite EA. reflexivity. }
  pose proof (gk_shape A G) as S. rewrite EA in S. destruct S. cbn in *.
  repeat split.
  - destruct H. rewrite E. apply gaddr_bound; lia.
  - destruct H. rewrite E, ES. apply gaddr_bound; lia.
  - destruct H, H0. rewrite !E in H1. apply gaddr_inj in H1; try lia.
  - destruct H, H0. rewrite !E in H1. apply gaddr_inj in H1; try lia.
  - intros a Ha. destruct (gaddr_surj mb nb lm ln) with (a := a) as (I & J & HI & HJ & HE); try lia.
    exists I, J. rewrite E. unfold in_matrix. auto.
Qed.

Lemma general_storage_sub : forall prec mb nb lm ln i j m n A size,
  0 <= i -> 0 <= j ->
  general_create prec mb nb lm ln i j m n = CrOk A size ->
  stored_within (elem_off A) (in_matrix m n) size /\
  stored_apart (elem_off A) (in_matrix m n).
Proof.
  intros prec mb nb lm ln i j m n A size Hi Hj H.
  apply general_create_ok in H; [|lia|lia]. destruct H as (G & EA & ES).
  assert (Em : d_m A = m) by (rewrite EA; reflexivity).
  assert (En : d_n A = n) by (rewrite EA; reflexivity).
  assert (Eg : d_gm A * d_gn A = lm * ln) by (rewrite EA; reflexivity).
  split.
  - intros a b [Ha Hb]. rewrite ES, <- Eg. apply gen_ok_bound; auto; lia.
  - intros a b a' b' [Ha Hb] [Ha' Hb'] E. apply gen_ok_inj in E; auto; lia.
Qed.

Lemma triangular_storage_main : forall upper nb n A size,
  tr_create (if upper : bool then PlasmaUpper else PlasmaLower) nb n = CrOk A size ->
  stored_within (elem_off A) (in_stored_tile upper nb n) size /\
  stored_apart (elem_off A) (in_stored_tile upper nb n).
Proof.
  intros upper nb n A size H. unfold tr_create in H.
  apply triangular_create_ok in H. destruct H as [H ES].
  pose proof (tk_shape _ _ _ _ H) as S.
  assert (0 < nb) by (rewrite <- (tk_mb _ _ _ _ H); destruct S; assumption).
  assert (0 <= n) by (rewrite <- (tk_gm _ _ _ _ H); destruct S; assumption).
  split.
  - intros i j Hij. rewrite (tri_elem_off A upper nb n) by assumption. rewrite ES.
    apply taddr_bound; auto.
  - intros i j i' j' P1 P2 E. rewrite !(tri_elem_off A upper nb n) in E by assumption.
    eapply taddr_inj; [ | | exact P1 | exact P2 | exact E ]; assumption.
Qed.

Lemma gb_create_ok : forall nb m n kl ku A size, 0 <= kl -> 0 <= ku ->
  gb_create nb m n kl ku = CrOk A size ->
  band_ok A /\ d_m A = m /\ d_n A = n /\ d_mb A = nb /\ d_nb A = nb /\
  d_klt A = 1 + (kl + nb - 1) / nb /\ d_kut A = 1 + (ku + kl + nb - 1) / nb /\
  size = d_gm A * d_gn A /\ 0 < nb /\ kl < m /\ ku < n.
Proof.
  intros nb m n kl ku A size Hkl Hku. unfold gb_create, general_band_create. cbv zeta.
  destruct (desc_check _ =? PlasmaSuccess) eqn:E; [|discriminate].
  apply Z.eqb_eq in E. apply band_check_ok in E; [|reflexivity].
  intros H. injection H as HA HS.
  destruct E as (_&E1&E2&E3&E4&E5&_&_&E8&E9&E10&E11&E12). cbn in E1,E2,E3,E4,E5,E8,E9,E10,E11,E12.
  assert (0 <= (kl + nb - 1) / nb) by (apply div_range; lia).
  assert (0 <= (ku + kl + nb - 1) / nb) by (apply div_range; lia).
  assert (K1 : d_klt A = 1 + (kl + nb - 1) / nb).
  { rewrite <- HA. cbn. rewrite Z.add_0_l, Z.div_0_l by lia. lia. }
  assert (K2 : d_kut A = 1 + (ku + kl + nb - 1) / nb).
  { rewrite <- HA. cbn. rewrite Z.add_0_l, Z.div_0_l by lia. lia. }
  split.
  - constructor; rewrite ?K1, ?K2; rewrite <- ?HA; cbn; auto; try lia.
  - repeat split; try lia; try (rewrite <- HA; reflexivity). rewrite <- HS, <- HA. reflexivity.
Qed.

Lemma gb_storage_main : forall nb m n kl ku A size,
  0 <= kl -> 0 <= ku ->
  gb_create nb m n kl ku = CrOk A size ->
  stored_within (band_elem_off A) (in_tile_band A) size /\
  stored_apart (band_elem_off A) (in_tile_band A) /\
  (forall i j, in_matrix m n i j -> - (kl + ku) <= i - j <= kl -> in_tile_band A i j).
Proof.
  intros nb m n kl ku A size Hkl Hku H.
  apply gb_create_ok in H; auto.
  destruct H as (B&Em&En&Emb&Enb&K1&K2&ES&Hnb&_&_).
  split; [|split].
  - intros i j Hij. rewrite ES. apply band_bound; auto.
  - intros i j i' j' H1 H2 E. eapply band_inj; eauto.
  - intros i j [Hi Hj] Hb. unfold in_tile_band. rewrite Em, En, Emb, Enb, K1, K2.
    split; [lia|]. split; [lia|].
    assert (Q1 := ceil_tile_band nb kl i j Hnb). assert (Q2 := ceil_tile_band nb (ku + kl) j i Hnb).
    lia.
Qed.

Lemma pb_create_ok : forall uplo nb n kd A size, 0 <= kd ->
  uplo = PlasmaUpper \/ uplo = PlasmaLower ->
  pb_create uplo nb n kd = CrOk A size ->
  band_ok A /\ d_m A = n /\ d_n A = n /\ d_mb A = nb /\ d_nb A = nb /\
  d_klt A = (if uplo =? PlasmaUpper then 1 else 1 + (kd + nb - 1) / nb) /\
  d_kut A = (if uplo =? PlasmaUpper then 1 + (kd + nb - 1) / nb else 1) /\
  size = d_gm A * d_gn A /\ 0 < nb.
Proof.
  intros uplo nb n kd A size Hkd Hu. unfold pb_create, general_band_create. cbv zeta.
  destruct (desc_check _ =? PlasmaSuccess) eqn:E; [|discriminate].
  apply Z.eqb_eq in E. apply band_check_ok in E; [|reflexivity].
  intros H. injection H as HA HS.
  destruct E as (_&E1&E2&E3&E4&E5&_&_&E8&E9&E10&E11&E12). cbn in E1,E2,E3,E4,E5,E8,E9,E10,E11,E12.
  assert (0 <= (kd + nb - 1) / nb) by (apply div_range; lia).
  assert (K1 : d_klt A = (if uplo =? PlasmaUpper then 1 else 1 + (kd + nb - 1) / nb)).
  { rewrite <- HA. cbn. rewrite Z.add_0_l, Z.div_0_l by lia.
    destruct Hu as [-> | ->]; cbn; lia. }
  assert (K2 : d_kut A = (if uplo =? PlasmaUpper then 1 + (kd + nb - 1) / nb else 1)).
  { rewrite <- HA. cbn. rewrite Z.add_0_l, Z.div_0_l by lia.
    destruct Hu as [-> | ->]; cbn; lia. }
  split.
  - constructor; rewrite ?K1, ?K2; rewrite <- ?HA; cbn; auto; try lia;
    destruct Hu as [-> | ->]; cbn; lia.
  - repeat split; try lia; try (rewrite <- HA; reflexivity). rewrite <- HS, <- HA. reflexivity.
Qed.

Lemma pb_storage_main : forall uplo nb n kd A size,
  uplo = PlasmaUpper \/ uplo = PlasmaLower -> 0 <= kd ->
  pb_create uplo nb n kd = CrOk A size ->
  stored_within (band_elem_off A) (in_tile_band A) size /\
  stored_apart (band_elem_off A) (in_tile_band A) /\
  (forall i j, in_matrix n n i j ->
     (if uplo =? PlasmaUpper then 0 <= j - i <= kd else 0 <= i - j <= kd) ->
     in_tile_band A i j).
Proof.
  intros uplo nb n kd A size Hu Hkd H.
  apply pb_create_ok in H; auto.
  destruct H as (B&Em&En&Emb&Enb&K1&K2&ES&Hnb).
  split; [|split].
  - intros i j Hij. rewrite ES. apply band_bound; auto.
  - intros i j i' j' H1 H2 E. eapply band_inj; eauto.
  - intros i j [Hi Hj] Hb. unfold in_tile_band. rewrite Em, En, Emb, Enb, K1, K2.
    split; [lia|]. split; [lia|].
    assert (Q1 := ceil_tile_band nb kd i j Hnb). assert (Q2 := ceil_tile_band nb kd j i Hnb).
    assert (D1 : i <= j -> i / nb <= j / nb) by (intro; apply Z.div_le_mono; lia).
    assert (D2 : j <= i -> j / nb <= i / nb) by (intro; apply Z.div_le_mono; lia).
    destruct (uplo =? PlasmaUpper); lia.
Qed.

(* ---- checks ---- *)

Lemma general_create_succeeds : forall prec mb nb lm ln i j m n,
  valid_precision prec = true -> 0 < mb -> 0 < nb ->
  0 <= i -> 0 <= j -> 0 <= m -> 0 <= n ->
  i + m <= lm -> j + n <= ln -> (0 < i -> i < lm) -> (0 < j -> j < ln) ->
  i mod mb = 0 -> j mod nb = 0 ->
  general_create prec mb nb lm ln i j m n
  = CrOk (general_init prec mb nb lm ln i j m n) (lm * ln).
Proof.
  intros prec mb nb lm ln i j m n Hp Hmb Hnb Hi Hj Hm Hn Him Hjn Hi2 Hj2 Ai Aj.
  unfold general_create. cbv zeta.
  replace (desc_check (general_init prec mb nb lm ln i j m n)) with PlasmaSuccess.
  - reflexivity.
  - unfold desc_check, general_check. cbn. rewrite Hp. cbn [negb].
    replace ((mb <=? 0) || (nb <=? 0)) with false
      by (symmetry; rewrite orb_false_iff, !Z.leb_gt; lia).
    replace ((m <? 0) || (n <? 0)) with false
      by (symmetry; rewrite orb_false_iff, !Z.ltb_ge; lia).
    replace ((lm <? m) || (ln <? n)) with false
      by (symmetry; rewrite orb_false_iff, !Z.ltb_ge; lia).
    replace (((0 <? i) && (lm <=? i)) || ((0 <? j) && (ln <=? j))) with false
      by (symmetry; rewrite orb_false_iff, !andb_false_iff, !Z.leb_gt, !Z.ltb_ge; lia).
    replace ((lm <? i + m) || (ln <? j + n)) with false
      by (symmetry; rewrite orb_false_iff, !Z.ltb_ge; lia).
    rewrite Ai, Aj. reflexivity.
Qed.

Lemma checked_inside : forall A, d_type A = PlasmaGeneral \/ d_type A = PlasmaUpper \/ d_type A = PlasmaLower ->
  desc_check A = PlasmaSuccess ->
  0 < d_mb A /\ 0 < d_nb A /\ 0 <= d_m A /\ 0 <= d_n A /\
  d_i A + d_m A <= d_gm A /\ d_j A + d_n A <= d_gn A /\
  d_i A mod d_mb A = 0 /\ d_j A mod d_nb A = 0.
Proof.
  intros A Ht E. apply nonband_check_ok in E; [|exact Ht]. intuition.
Qed.

Lemma view_main : forall prec mb nb lm ln A size i j m n,
  general_create prec mb nb lm ln 0 0 lm ln = CrOk A size ->
  0 <= i -> 0 <= j -> 0 <= m -> 0 <= n -> i mod mb = 0 -> j mod nb = 0 ->
  i + m <= lm -> j + n <= ln -> (0 < i -> i < lm) -> (0 < j -> j < ln) ->
  exists B, desc_view_opt A i j m n = Some B /\ desc_check B = PlasmaSuccess /\
    d_m B = m /\ d_n B = n /\
    (forall r c, in_matrix m n r c -> elem_off B r c = elem_off A (i + r) (j + c)).
Proof.
  intros prec mb nb lm ln A size i j m n H Hi Hj Hm Hn Ai Aj Bi Bj Ci Cj.
  assert (Hc := H). apply general_create_ok in H; [|lia|lia]. destruct H as (G & EA & ES).
  assert (Emb : d_mb A = mb) by (rewrite EA; reflexivity).
  assert (Enb : d_nb A = nb) by (rewrite EA; reflexivity).
  assert (Ep : valid_precision prec = true).
  { unfold general_create in Hc. destruct (desc_check _ =? PlasmaSuccess) eqn:E; [|discriminate].
    apply Z.eqb_eq in E. apply general_check_ok in E; [|reflexivity]. apply E. }
  destruct (desc_view_opt A i j m n) as [B|] eqn:EB.
  2:{ unfold desc_view_opt in EB. rewrite EA in EB. cbn in EB.
      destruct (Z.ltb_spec lm (0 + i + m)); [lia|]. destruct (Z.ltb_spec ln (0 + j + n)); [lia|].
      discriminate. }
  exists B. split; [reflexivity|].
  destruct (view_ok A i j m n B) as (GB & M1 & M2 & M3 & M4 & M5 & M6 & M7 & M8); auto;
    try (rewrite ?Emb, ?Enb; assumption).
  split; [|split; [exact M1|split; [exact M2|intros; apply M8]]].
  pose proof (gk_shape B GB) as S. pose proof (gk_type B GB) as T. destruct S.
  assert (Bi' : d_i B = i).
  { unfold desc_view_opt in EB. destruct (_ <? _); [discriminate|]. destruct (_ <? _); [discriminate|].
    injection EB as EB. rewrite <- EB. cbn. rewrite EA. cbn. lia. }
  assert (Bj' : d_j B = j).
  { unfold desc_view_opt in EB. destruct (_ <? _); [discriminate|]. destruct (_ <? _); [discriminate|].
    injection EB as EB. rewrite <- EB. cbn. rewrite EA. cbn. lia. }
  unfold desc_check, general_check. rewrite T. cbn [orb Z.eqb PlasmaGeneral Pos.eqb].
  rewrite M7. rewrite EA at 1. cbn [d_prec general_init]. rewrite Ep. cbn [negb].
  assert (Egm : d_gm B = lm) by (rewrite M5, EA; reflexivity).
  assert (Egn : d_gn B = ln) by (rewrite M6, EA; reflexivity).
  rewrite Bi', Bj', M1, M2, Egm, Egn in *.
  replace ((d_mb B <=? 0) || (d_nb B <=? 0)) with false
    by (symmetry; rewrite orb_false_iff, !Z.leb_gt; lia).
  replace ((m <? 0) || (n <? 0)) with false
    by (symmetry; rewrite orb_false_iff, !Z.ltb_ge; lia).
  replace ((lm <? m) || (ln <? n)) with false
    by (symmetry; rewrite orb_false_iff, !Z.ltb_ge; lia).
  replace (((0 <? i) && (lm <=? i)) || ((0 <? j) && (ln <=? j))) with false
    by (symmetry; rewrite orb_false_iff, !andb_false_iff, !Z.leb_gt, !Z.ltb_ge; lia).
  replace ((lm <? i + m) || (ln <? j + n)) with false
    by (symmetry; rewrite orb_false_iff, !Z.ltb_ge; lia).
  rewrite go_ia, go_ja. reflexivity.
Qed.

Lemma partition_main : forall prec mb nb lm ln i j m n A size, 0 <= i -> 0 <= j ->
  general_create prec mb nb lm ln i j m n = CrOk A size ->
  (forall k, 0 <= k < d_mt A -> 1 <= tile_mview A k <= tile_mmain A k /\ tile_mmain A k <= mb) /\
  (forall k, 0 <= k < d_nt A -> 1 <= tile_nview A k <= tile_nmain A k /\ tile_nmain A k <= nb) /\
  zsum (tile_mview A) (d_mt A) = m /\ zsum (tile_nview A) (d_nt A) = n /\
  (forall r, 0 <= r < m -> exists! t, 0 <= t < d_mt A /\ t * mb <= r < t * mb + tile_mview A t) /\
  (forall c, 0 <= c < n -> exists! t, 0 <= t < d_nt A /\ t * nb <= c < t * nb + tile_nview A t).
Proof.
  intros prec mb nb lm ln i j m n A size Hi Hj H.
  apply general_create_ok in H; auto. destruct H as (G & EA & ES).
  pose proof (gk_shape A G) as S.
  assert (Emb : d_mb A = mb) by (rewrite EA; reflexivity).
  assert (Enb : d_nb A = nb) by (rewrite EA; reflexivity).
  assert (Em : d_m A = m) by (rewrite EA; reflexivity).
  assert (En : d_n A = n) by (rewrite EA; reflexivity).
  split; [|split; [|split; [|split; [|split]]]].
  - intros k Hk. destruct (mview_spec A k S Hk). 
    assert (Q := mmain_ge_mview A k S). rewrite (gk_type A G) in Q.
    specialize (Q ltac:(discriminate) Hk). lia.
  - intros k Hk. destruct (nview_spec A k S Hk). 
    assert (Q := nmain_ge_nview A k S Hk). lia.
  - rewrite mview_sum by assumption. assumption.
  - rewrite nview_sum by assumption. assumption.
  - intros r Hr. rewrite <- Em in Hr. destruct (row_tile A r S Hr) as [R1 R2].
    rewrite Emb in *. destruct S. rewrite Emb in *.
    destruct (div_mod_pos r mb go_mb) as [E R].
    exists (r / mb). split.
    + split; lia.
    + intros t [Ht1 Ht2]. assert (SA := gk_shape A G).
      destruct (mview_spec A t SA Ht1) as [V1 V2]. rewrite Emb in *. nia.
  - intros c Hc. rewrite <- En in Hc. destruct (col_tile A c S Hc) as [R1 R2].
    rewrite Enb in *. destruct S. rewrite Enb in *.
    destruct (div_mod_pos c nb go_nb) as [E R].
    exists (c / nb). split.
    + split; lia.
    + intros t [Ht1 Ht2]. assert (SA := gk_shape A G).
      destruct (nview_spec A t SA Ht1) as [V1 V2]. rewrite Enb in *. nia.
Qed.

Lemma hetrf_fails : forall nb n ldt, 0 < nb -> n <= nb ->
  hetrf_T_create nb n ldt = CrError PlasmaErrorIllegalValue.
Proof.
  intros nb n ldt Hnb Hn. unfold hetrf_T_create, general_band_create. cbv zeta.
  destruct (desc_check _ =? PlasmaSuccess) eqn:E; [|reflexivity].
  apply Z.eqb_eq in E. apply band_check_ok in E; [|reflexivity]. cbn in E. lia.
Qed.
