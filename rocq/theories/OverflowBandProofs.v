(* Band storage arithmetic in 32-bit int and 64-bit size_t. *)
From Coq Require Import ZArith List Bool Lia.
From Verif Require Import Base DescModel DescDriverModel OverflowModel OverflowBandModel OverflowProofs.
Open Scope Z_scope.

Lemma general_init_fits : forall prec mb nb lm ln m n, 0 < mb -> 0 < nb ->
  0 <= lm < 2 ^ 31 -> 0 <= ln < 2 ^ 31 -> 0 <= m < 2 ^ 31 -> 0 <= n < 2 ^ 31 ->
  general_init32 checked prec mb nb lm ln 0 0 m n = Some (general_init prec mb nb lm ln 0 0 m n).
Proof.
  intros prec mb nb lm ln m n Hmb Hnb Hlm Hln Hm Hn.
  destruct (div_mod_facts lm mb Hmb Hlm) as (M1 & M2 & M3 & M4).
  destruct (div_mod_facts ln nb Hnb Hln) as (N1 & N2 & N3 & N4).
  assert (LL : lm * ln < 2 ^ 31 * 2 ^ 31) by (apply Z.mul_lt_mono_nonneg; lia).
  unfold general_init32. ck. ck.
  rewrite (gt_int lm mb), (gt_int ln nb) by lia. cbn [obind].
  rewrite (tiles_int 0 m mb m), (tiles_int 0 n nb n) by lia. cbn [obind]. ck. ck.
  unfold general_init. cbv zeta.
  remember (lm mod mb) as rm. remember (ln mod nb) as rn.
  assert (P1 : 0 <= (lm - rm) * (ln - rn)) by (apply Z.mul_nonneg_nonneg; lia).
  assert (P2 : 0 <= rm * (ln - rn)) by (apply Z.mul_nonneg_nonneg; lia).
  assert (P3 : 0 <= (lm - rm) * rn) by (apply Z.mul_nonneg_nonneg; lia).
  assert (P4 : 0 <= rm * rn) by (apply Z.mul_nonneg_nonneg; lia).
  assert (PS : (lm - rm) * (ln - rn) + rm * (ln - rn) + (lm - rm) * rn + rm * rn = lm * ln) by ring.
  rewrite !(csize_id (lm - rm)), !(csize_id (ln - rn)), !(csize_id rm), !(csize_id rn) by lia.
  rewrite !(csize_id ((lm - rm) * (ln - rn))), !(csize_id (rm * (ln - rn))), !(csize_id ((lm - rm) * rn)) by lia.
  rewrite !(csize_id (rm * (ln - rn) + (lm - rm) * (ln - rn))) by lia.
  rewrite csize_id by lia. reflexivity.
Qed.

Lemma band_tiles_fits : forall b k, 0 < b -> 0 <= k -> k + b < 2 ^ 31 ->
  band_tiles32 checked b 0 k = Some (1 + (k + b - 1) / b - 0 / b).
Proof.
  intros b k Hb Hk H. unfold band_tiles32. ck. ck.
  destruct (div_mod_facts (k + b - 1) b Hb ltac:(lia)) as (_ & _ & D & _).
  rewrite Z.div_0_l by lia. ck. apply checked_in. lia.
Qed.

Lemma band_rows_fits : forall b k, 0 < b -> 0 <= k -> k + b < 2 ^ 31 ->
  band_rows32 checked b k = Some (b * ((k + b) / b)).
Proof.
  intros b k Hb Hk H. unfold band_rows32. ck.
  destruct (div_mod_facts (k + b) b Hb ltac:(lia)) as (_ & _ & _ & D). apply checked_in. lia.
Qed.

Lemma band_init_fits : forall prec uplo mb nb lm ln m n kl ku, 0 < mb -> 0 < nb ->
  0 <= lm < 2 ^ 31 -> 0 <= ln < 2 ^ 31 -> 0 <= m < 2 ^ 31 -> 0 <= n < 2 ^ 31 ->
  0 <= kl -> 0 <= ku -> kl + ku + Z.max mb nb < 2 ^ 31 ->
  general_band_init32 checked prec uplo mb nb lm ln 0 0 m n kl ku
  = Some (general_band_init prec uplo mb nb lm ln 0 0 m n kl ku).
Proof.
  intros prec uplo mb nb lm ln m n kl ku Hmb Hnb Hlm Hln Hm Hn Hkl Hku H.
  unfold general_band_init32. rewrite general_init_fits by assumption. cbn [obind].
  unfold general_band_init. cbv zeta.
  destruct (uplo =? PlasmaGeneral).
  - ck. rewrite band_tiles_fits by lia. cbn [obind]. ck. ck. rewrite band_tiles_fits by lia. reflexivity.
  - destruct (uplo =? PlasmaUpper); cbn [obind].
    + ck. rewrite band_tiles_fits by lia. reflexivity.
    + ck. rewrite band_tiles_fits by lia. reflexivity.
Qed.

Lemma band_check_fits : forall A, 0 < d_mb A -> 0 <= d_kl A -> 0 <= d_ku A ->
  2 * d_kl A + d_ku A + d_mb A < 2 ^ 31 -> 0 <= d_j A + d_n A < 2 ^ 31 ->
  general_band_check32 checked A = Some (general_band_check A).
Proof.
  intros A Hmb Hkl Hku H Hj. unfold general_band_check32, general_band_check.
  destruct (negb (valid_precision (d_prec A))); [reflexivity|].
  destruct ((d_mb A <=? 0) || (d_nb A <=? 0)); [reflexivity|].
  destruct ((d_m A <? 0) || (d_n A <? 0)); [reflexivity|].
  destruct (d_gn A <? d_n A); [reflexivity|].
  assert (S : band_short32 checked A = Some
    (((d_uplo A =? PlasmaGeneral) && (d_gm A <? d_mb A * ((2 * d_kl A + d_ku A + d_mb A) / d_mb A)))
     || ((d_uplo A =? PlasmaUpper) && (d_gm A <? d_mb A * ((d_ku A + d_mb A) / d_mb A)))
     || ((d_uplo A =? PlasmaUpper) && (d_gm A <? d_mb A * ((d_kl A + d_mb A) / d_mb A))))).
  { unfold band_short32. destruct (Z.eqb_spec (d_uplo A) PlasmaGeneral) as [E|_].
    - ck. ck. rewrite band_rows_fits by lia. cbn [obind]. rewrite E. cbn [andb].
      destruct (d_gm A <? d_mb A * ((2 * d_kl A + d_ku A + d_mb A) / d_mb A)); reflexivity.
    - cbn [obind andb orb]. destruct (d_uplo A =? PlasmaUpper); [|reflexivity].
      rewrite band_rows_fits by lia. cbn [obind andb].
      destruct (d_gm A <? d_mb A * ((d_ku A + d_mb A) / d_mb A)); [reflexivity|].
      rewrite band_rows_fits by lia. reflexivity. }
  rewrite S. cbn [obind]. clear S.
  match goal with |- (if ?b then _ else _) = _ => destruct b; [reflexivity|] end.
  match goal with |- (if ?b then _ else _) = _ => destruct b; [reflexivity|] end.
  ck. destruct (d_gn A <? d_j A + d_n A); [reflexivity|].
  match goal with |- (if ?b then _ else _) = _ => destruct b; [reflexivity|] end.
  ck. destruct (d_m A <? d_kl A + 1); [reflexivity|]. ck. cbn [orb].
  destruct (d_n A <? d_ku A + 1); reflexivity.
Qed.

Lemma tile_bound : forall mb nb lm ln mm nn p q, 0 < mb -> 0 < nb -> 0 <= mm < p -> 0 <= nn < q ->
  0 <= mb * p <= lm -> 0 <= nb * q <= ln -> mb * nb * (mm + p * nn) < lm * ln.
Proof.
  intros mb nb lm ln mm nn p q Hmb Hnb Hm Hn Hp Hq.
  assert (mm + p * nn < p * q) by nia.
  assert (0 < mb * nb) by (apply Z.mul_pos_pos; assumption).
  assert (mb * nb * (mm + p * nn) < mb * nb * (p * q)) by (apply Z.mul_lt_mono_pos_l; assumption).
  assert ((mb * p) * (nb * q) <= lm * ln) by (apply Z.mul_le_mono_nonneg; lia).
  replace (mb * nb * (p * q)) with ((mb * p) * (nb * q)) in * by ring. lia.
Qed.

Lemma column_bound : forall mb lm ln mm p rm rn, 0 < mb -> 0 <= mm < p -> lm = mb * p + rm -> 0 <= rm ->
  0 < rn -> rn <= ln -> rm * (ln - rn) + (lm - rm) * (ln - rn) + mb * rn * mm < lm * ln.
Proof.
  intros mb lm ln mm p rm rn Hmb Hm E Hr Hn Hl.
  assert (mb * mm < mb * p) by (apply Z.mul_lt_mono_pos_l; lia).
  assert (rn * (mb * mm) < rn * lm) by (apply Z.mul_lt_mono_pos_l; lia).
  replace (rm * (ln - rn) + (lm - rm) * (ln - rn) + mb * rn * mm) with (lm * ln - rn * lm + rn * (mb * mm)) by ring.
  lia.
Qed.

Lemma band_addr_fits : forall mb nb lm ln mm nn e, 0 < mb -> 0 < nb -> mb * nb < 2 ^ 31 ->
  0 <= lm < 2 ^ 31 -> 0 <= ln < 2 ^ 31 -> 4 <= e <= 16 -> lm * ln * e < 2 ^ 64 ->
  0 <= mm < lm / mb -> 0 <= nn -> nn * nb < ln ->
  forall A, d_mb A = mb -> d_nb A = nb -> d_gm A = lm -> d_gn A = ln -> d_i A = 0 -> d_j A = 0 ->
  element_size (d_prec A) = e -> d_A12 A = (lm mod mb) * (ln - ln mod nb) + (lm - lm mod mb) * (ln - ln mod nb) ->
  tile_addr_general32 checked A mm nn = Some (tile_addr_general A mm nn * e).
Proof.
  intros mb nb lm ln mm nn e Hmb Hnb Hb Hlm Hln He HS Hm Hn Hn' A E1 E2 E3 E4 E5 E6 E7 E8.
  destruct (div_mod_facts lm mb Hmb Hlm) as (M1 & M2 & M3 & M4).
  destruct (div_mod_facts ln nb Hnb Hln) as (N1 & N2 & N3 & N4).
  destruct (sides_int lm mb nb Hmb Hnb Hb Hlm) as (Q1 & Q2 & Q3 & Q4).
  destruct (sides_int ln nb mb Hnb Hmb ltac:(lia) Hln) as (Q5 & Q6 & Q7 & Q8).
  assert (nn * 1 <= nn * nb) by (apply Z.mul_le_mono_nonneg_l; lia).
  unfold tile_addr_general32, tile_addr_general. cbv zeta. rewrite E1, E2, E3, E4, E5, E6, E7, E8.
  rewrite !Z.div_0_l, !Z.add_0_r by lia. ck. ck.
  replace (mm <? lm / mb) with true by (symmetry; apply Z.ltb_lt; lia).
  destruct (Z.ltb_spec nn (ln / nb)) as [L|L].
  - assert (0 < mb * nb) by (apply Z.mul_pos_pos; assumption). rewrite (checked_in (mb * nb)) by lia. cbn [obind].
    f_equal. apply addr_main with (S := lm * ln); try assumption; try lia.
    apply tile_bound with (q := ln / nb); assumption || lia.
  - cbn [obind]. f_equal. apply addr_side with (S := lm * ln); try assumption; try lia.
    apply column_bound with (p := lm / mb); try lia. destruct (Z.eq_dec (ln mod nb) 0) as [Z0|]; [|lia].
    exfalso. assert (nb * (ln / nb) <= nb * nn) by (apply Z.mul_le_mono_nonneg_l; lia). lia.
Qed.

Lemma band_check_ok : forall A, general_band_check A = PlasmaSuccess ->
  0 < d_mb A /\ 0 < d_nb A /\ 0 <= d_m A /\ 0 <= d_n A /\ d_n A <= d_gn A.
Proof.
  intros A. unfold general_band_check.
  destruct (negb (valid_precision (d_prec A))); [discriminate|].
  destruct (Z.leb_spec (d_mb A) 0); [discriminate|]. destruct (Z.leb_spec (d_nb A) 0); [discriminate|].
  destruct (Z.ltb_spec (d_m A) 0); [discriminate|]. destruct (Z.ltb_spec (d_n A) 0); [discriminate|].
  cbn [orb]. destruct (Z.ltb_spec (d_gn A) (d_n A)); [discriminate|]. intros _. lia.
Qed.

Lemma up_le : forall k b, 0 <= k -> 0 < b -> (k + b - 1) / b <= k.
Proof. intros k b Hk Hb. assert ((k + b - 1) / b < k + 1) by (apply Z.div_lt_upper_bound; nia). lia. Qed.

Lemma band_fits : forall prec uplo mb nb lm ln m n kl ku A size,
  0 <= kl -> 0 <= ku -> general_band_create prec uplo mb nb lm ln 0 0 m n kl ku = CrOk A size ->
  (d_klt A + d_kut A - 1) * mb <= lm ->
  lm < 2 ^ 31 -> ln < 2 ^ 31 -> kl + ku + m < 2 ^ 31 -> mb * nb < 2 ^ 31 -> 2 * kl + ku + Z.max mb nb < 2 ^ 31 ->
  size * element_size prec < 2 ^ 64 ->
  general_band_init32 checked prec uplo mb nb lm ln 0 0 m n kl ku = Some A /\
  general_band_check32 checked A = Some PlasmaSuccess /\
  general_size32 A = size * element_size prec /\
  forall tm tn, 0 <= tm < d_mt A -> 0 <= tn < d_nt A -> tn - tm < d_kut A -> tm - tn < d_klt A ->
    tile_addr_general_band32 checked A tm tn = Some (tile_addr A tm tn * element_size prec).
Proof.
  intros prec uplo mb nb lm ln m n kl ku A size Hkl Hku HC Hr Hlm Hln Hm Hb Hk Hsz.
  unfold general_band_create in HC. cbv zeta in HC.
  destruct (Z.eqb_spec (desc_check (general_band_init prec uplo mb nb lm ln 0 0 m n kl ku)) PlasmaSuccess) as [CK|]; [|discriminate].
  injection HC as EA ES. cbn [d_gm d_gn general_band_init general_init] in ES. rewrite EA in CK.
  assert (ET : d_type A = PlasmaGeneralBand) by (rewrite <- EA; reflexivity).
  assert (CK' : general_band_check A = PlasmaSuccess).
  { unfold desc_check in CK. rewrite ET in CK. exact CK. }
  assert (EP : d_prec A = prec) by (rewrite <- EA; reflexivity).
  assert (E1 : d_mb A = mb) by (rewrite <- EA; reflexivity). assert (E2 : d_nb A = nb) by (rewrite <- EA; reflexivity).
  assert (E3 : d_gm A = lm) by (rewrite <- EA; reflexivity). assert (E4 : d_gn A = ln) by (rewrite <- EA; reflexivity).
  assert (E5 : d_i A = 0) by (rewrite <- EA; reflexivity). assert (E6 : d_j A = 0) by (rewrite <- EA; reflexivity).
  assert (E7 : d_m A = m) by (rewrite <- EA; reflexivity). assert (E8 : d_n A = n) by (rewrite <- EA; reflexivity).
  assert (E9 : d_kl A = kl) by (rewrite <- EA; reflexivity). assert (E10 : d_ku A = ku) by (rewrite <- EA; reflexivity).
  assert (E11 : d_A12 A = (lm mod mb) * (ln - ln mod nb) + (lm - lm mod mb) * (ln - ln mod nb)) by (rewrite <- EA; reflexivity).
  assert (E12 : d_nt A = if n =? 0 then 0 else (0 + n - 1) / nb - 0 / nb + 1) by (rewrite <- EA; reflexivity).
  destruct (band_check_ok A CK') as (C1 & C2 & C3 & C4 & C5). rewrite E1 in C1. rewrite E2 in C2. rewrite E7 in C3. rewrite E8 in C4. rewrite E8, E4 in C5.
  assert (KT : 1 <= d_klt A /\ 1 <= d_kut A <= 1 + kl + ku).
  { pose proof (div_mod_facts (kl + mb - 1) mb C1 ltac:(lia)). pose proof (div_mod_facts (ku + kl + nb - 1) nb C2 ltac:(lia)).
    pose proof (div_mod_facts (ku + nb - 1) nb C2 ltac:(lia)).
    pose proof (up_le (ku + kl) nb ltac:(lia) C2). pose proof (up_le ku nb ltac:(lia) C2).
    rewrite <- EA. cbn [d_klt d_kut general_band_init]. rewrite !Z.div_0_l, !Z.add_0_l by lia.
    destruct (uplo =? PlasmaGeneral); [lia|]. destruct (uplo =? PlasmaUpper); lia. }
  assert (L0 : 0 <= lm).
  { assert (0 <= (d_klt A + d_kut A - 1) * mb) by (apply Z.mul_nonneg_nonneg; lia). lia. }
  pose proof (elt_pos prec) as HE.
  split; [|split; [|split]].
  - rewrite <- EA. apply band_init_fits; lia.
  - rewrite <- CK'. apply band_check_fits; rewrite ?E1, ?E6, ?E8, ?E9, ?E10; lia.
  - unfold general_size32. rewrite E3, E4, EP. rewrite <- ES in Hsz |- *.
    assert (0 <= lm * ln) by (apply Z.mul_nonneg_nonneg; lia).
    assert (lm * ln < 2 ^ 31 * 2 ^ 31) by (apply Z.mul_lt_mono_nonneg; lia).
    rewrite (csize_id lm), (csize_id ln) by lia.
    rewrite (csize_id (lm * ln)) by lia. apply csize_id. split; [apply Z.mul_nonneg_nonneg; lia|exact Hsz].
  - intros tm tn Htm Htn Hu Hl. unfold tile_addr_general_band32.
    assert (MT : d_mt A <= m).
    { rewrite <- EA. cbn [d_mt general_band_init general_init]. destruct (Z.eqb_spec m 0); [lia|].
      pose proof (div_mod_facts (0 + m - 1) mb C1 ltac:(lia)). rewrite Z.div_0_l by lia. lia. }
    rewrite E12 in Htn. destruct (tile_origin 0 n nb tn C2 ltac:(lia) ltac:(apply Z.mod_0_l; lia) (proj1 Htn) (proj2 Htn)) as [On Tn].
    assert (R : d_kut A - 1 + tm - tn + 1 <= lm / mb).
    { apply Z.div_le_lower_bound; [exact C1|]. eapply Z.le_trans; [|exact Hr]. rewrite (Z.mul_comm _ mb). apply Z.mul_le_mono_nonneg_l; lia. }
    ck.
    assert (X : tile_addr A tm tn = tile_addr_general A (d_kut A - 1 + tm - tn) tn).
    { unfold tile_addr, tile_addr_opt. rewrite ET. reflexivity. }
    rewrite X. clear X.
    ck. ck. rewrite <- ES in Hsz.
    rewrite (band_addr_fits mb nb lm ln (d_kut A - 1 + tm - tn) tn (element_size prec)); try assumption; try lia.
    + reflexivity.
    + rewrite EP. reflexivity.
Qed.

Lemma up_mul : forall k b, 0 <= k -> 0 < b -> 0 <= (k + b - 1) / b * b <= k + b - 1.
Proof.
  intros k b Hk Hb. pose proof (Z.mul_div_le (k + b - 1) b Hb). pose proof (Z.div_pos (k + b - 1) b ltac:(lia) Hb). nia.
Qed.

Lemma gb_nb_pos : forall prec uplo nb lm ln m n kl ku A size,
  general_band_create prec uplo nb nb lm ln 0 0 m n kl ku = CrOk A size ->
  0 < nb /\ 0 <= m /\ 0 <= n /\ A = general_band_init prec uplo nb nb lm ln 0 0 m n kl ku.
Proof.
  intros prec uplo nb lm ln m n kl ku A size HC. unfold general_band_create in HC. cbv zeta in HC.
  destruct (Z.eqb_spec (desc_check (general_band_init prec uplo nb nb lm ln 0 0 m n kl ku)) PlasmaSuccess) as [CK|]; [|discriminate].
  injection HC as EA ES. destruct (band_check_ok (general_band_init prec uplo nb nb lm ln 0 0 m n kl ku)) as (C1 & C2 & C3 & C4 & C5).
  { exact CK. }
  cbn [d_mb d_m d_n general_band_init general_init] in C1, C3, C4. repeat split; try assumption. symmetry. exact EA.
Qed.

Lemma gb_fits : forall nb m n kl ku A size,
  0 <= kl -> 0 <= ku -> gb_create nb m n kl ku = CrOk A size ->
  n < 2 ^ 31 -> kl + ku + m < 2 ^ 31 -> nb * nb < 2 ^ 31 -> 2 * kl + ku + 3 * nb < 2 ^ 31 -> size * 16 < 2 ^ 64 ->
  exists lm, gb_rows32 checked nb kl ku = Some lm /\
  general_band_init32 checked PlasmaComplexDouble PlasmaGeneral nb nb lm n 0 0 m n kl ku = Some A /\
  general_band_check32 checked A = Some PlasmaSuccess /\
  general_size32 A = size * 16 /\
  forall tm tn, 0 <= tm < d_mt A -> 0 <= tn < d_nt A -> tn - tm < d_kut A -> tm - tn < d_klt A ->
    tile_addr_general_band32 checked A tm tn = Some (tile_addr A tm tn * 16).
Proof.
  intros nb m n kl ku A size Hkl Hku HC Hn Hm Hb Hk Hsz. unfold gb_create in HC. cbv zeta in HC.
  destruct (gb_nb_pos _ _ _ _ _ _ _ _ _ _ _ HC) as (Hnb & Hm0 & Hn0 & EA).
  pose proof (up_mul (ku + kl) nb ltac:(lia) Hnb) as U1. pose proof (up_mul kl nb ltac:(lia) Hnb) as U2.
  pose proof (up_le (ku + kl) nb ltac:(lia) Hnb) as U3. pose proof (up_le kl nb ltac:(lia) Hnb) as U4.
  pose proof (Z.div_pos (ku + kl + nb - 1) nb ltac:(lia) Hnb) as U5. pose proof (Z.div_pos (kl + nb - 1) nb ltac:(lia) Hnb) as U6.
  exists (((ku + kl + nb - 1) / nb + (kl + nb - 1) / nb + 1) * nb). split.
  - unfold gb_rows32. ck. ck. ck. ck. ck. ck. ck. apply checked_in. lia.
  - change 16 with (element_size PlasmaComplexDouble).
    apply band_fits; try assumption; try lia.
    rewrite EA. cbn [d_klt d_kut general_band_init]. rewrite Z.eqb_refl, Z.div_0_l, !Z.add_0_l by lia.
    apply Z.mul_le_mono_nonneg_r; lia.
Qed.

Lemma pb_fits : forall (upper : bool) nb n kd A size,
  let uplo := if upper then PlasmaUpper else PlasmaLower in
  0 <= kd -> pb_create uplo nb n kd = CrOk A size ->
  2 * kd + n < 2 ^ 31 -> nb * nb < 2 ^ 31 -> 3 * kd + 2 * nb < 2 ^ 31 -> size * 16 < 2 ^ 64 ->
  exists lm, pb_rows32 checked nb kd = Some lm /\
  general_band_init32 checked PlasmaComplexDouble uplo nb nb lm n 0 0 n n kd kd = Some A /\
  general_band_check32 checked A = Some PlasmaSuccess /\
  general_size32 A = size * 16 /\
  forall tm tn, 0 <= tm < d_mt A -> 0 <= tn < d_nt A -> tn - tm < d_kut A -> tm - tn < d_klt A ->
    tile_addr_general_band32 checked A tm tn = Some (tile_addr A tm tn * 16).
Proof.
  intros upper nb n kd A size uplo Hkd HC Hn Hb Hk Hsz. unfold pb_create in HC. cbv zeta in HC.
  destruct (gb_nb_pos _ _ _ _ _ _ _ _ _ _ _ HC) as (Hnb & Hm0 & Hn0 & EA).
  pose proof (up_mul kd nb ltac:(lia) Hnb) as U2. pose proof (up_le kd nb ltac:(lia) Hnb) as U4.
  pose proof (Z.div_pos (kd + nb - 1) nb ltac:(lia) Hnb) as U6.
  exists (nb * (1 + (kd + nb - 1) / nb)). split.
  - unfold pb_rows32. ck. ck. ck. apply checked_in. lia.
  - change 16 with (element_size PlasmaComplexDouble).
    apply band_fits; try assumption; try lia.
    rewrite EA. cbn [d_klt d_kut general_band_init]. rewrite Z.div_0_l, !Z.add_0_l by lia. rewrite (Z.mul_comm nb).
    apply Z.mul_le_mono_nonneg_r; [lia|]. unfold uplo. destruct upper; cbn; lia.
Qed.
