(* The workspace of the mixed precision drivers. *)
From Coq Require Import ZArith List Bool Lia.
From Verif Require Import Base NumModel FieldModel TaskModel TaskSpec DescModel DescSpec
  DescProofs DescDriverModel MatModel MatSpec MatProofs GemmProofs
  SwpModel NormModel NormTriModel NormBandModel NormSpec NormWorkProofs BandModel BandGbProofs NormGbLayoutProofs
  NormGbWorkProofs OverflowModel MixedWorkModel.
Import ListNotations.
Open Scope Z_scope.

Lemma cint_small : forall z, 0 <= z < 2 ^ 31 -> cint (csize z) = z.
Proof.
  intros z H. unfold cint, csize. rewrite (Z.mod_small z) by lia. rewrite Z.mod_small by lia. lia.
Qed.

Lemma lwork_small : forall a b, 0 <= a < 2 ^ 31 -> 0 <= b < 2 ^ 31 -> csize (imax_sizes a b) = Z.max a b.
Proof.
  intros a b Ha Hb. unfold imax_sizes. rewrite !cint_small by assumption. unfold csize. apply Z.mod_small. lia.
Qed.

Lemma within_mono : forall (N : normed) b s s' (k : ktask N), s <= s' -> within b s k -> within b s' k.
Proof. intros N b s s' k H HW l Hl HX. specialize (HW l Hl HX). lia. Qed.

Lemma amax_within : forall (N : normed) nb bX X bW o v (k : ktask N) ks, dn nb X -> 0 < nb -> in_tiles X 0 0 ->
  0 <= o -> bX <> bW -> fst v <> bW ->
  In ks (pdzamax PlasmaColumnwise bX X (bW, o) v) -> In k ks -> within bW (o + d_mt X * d_n X) k.
Proof.
  intros N nb bX X bW o v k ks HX Hb H0 Ho B1 B2 Hks Hk.
  destruct (sizes nb X HX H0) as (S1 & S2 & S3 & S4).
  unfold pdzamax in Hks. rewrite Z.eqb_refl in Hks. destruct Hks as [<-|[<-|[]]].
  - apply in_tiles_list in Hk. destruct Hk as (m & n & HI & ->). destruct (off_one nb X HX Hb m n HI) as [O1 O2].
    apply (tile_within bX bW B1 _ _ (tptr bX X m n) (tile_mmain X m) (tile_mview X m) (tile_nview X n)
      (o + (d_n X * m + n * d_nb X)) (tile_nview X n)); cbn [omp_amax_col k_reads k_writes]; [reflexivity|auto|auto|lia|lia].
  - destruct Hk as [<-|[]]. intros l Hl [HY|HY].
    + revert HY. apply reg_work; nia.
    + exfalso. apply (seg_other _ _ _ _ B2 Hl HY).
Qed.

Lemma columns_within : forall (N : normed) nb n nrhs X sX R sR bX bR bW xv rv (k : ktask N) ks, 0 < nb -> 0 < n -> 0 < nrhs ->
  ge_create nb n nrhs = CrOk X sX -> ge_create nb n nrhs = CrOk R sR ->
  bX <> bW -> bR <> bW -> fst xv <> bW -> fst rv <> bW ->
  In ks (column_norms bX X bR R bW xv rv) -> In k ks -> within bW (d_mt X * d_n X + d_mt R * d_n R) k.
Proof.
  intros N nb n nrhs X sX R sR bX bR bW xv rv k ks Hb Hn Hr EX ER B1 B2 B3 B4 Hks Hk.
  destruct (first_tile nb n nrhs X sX Hb Hn Hr EX) as (DX & _ & _ & TX).
  destruct (first_tile nb n nrhs R sR Hb Hn Hr ER) as (DR & _ & _ & TR).
  destruct (sizes nb X DX TX) as (? & ? & ? & ?). destruct (sizes nb R DR TR) as (? & ? & ? & ?).
  unfold column_norms in Hks. apply in_app_or in Hks. destruct Hks as [Hks|Hks].
  - pose proof (amax_within N nb bX X bW 0 xv k ks DX Hb TX ltac:(lia) B1 B3 Hks Hk) as W.
    revert W. apply within_mono. nia.
  - apply (amax_within N nb bR R bW (d_mt X * d_n X) rv k ks DR Hb TR ltac:(nia) B2 B4 Hks Hk).
Qed.

Section Sizes.
  Variables (nb n nrhs : Z).
  Hypothesis Hb : 0 < nb.
  Hypothesis Hn : 0 < n.
  Hypothesis Hr : 0 < nrhs.

  Lemma tiles_eq : forall m c A sA, 0 < m -> 0 < c -> ge_create nb m c = CrOk A sA ->
    d_mt A = (m + nb - 1) / nb /\ d_nt A = (c + nb - 1) / nb /\ d_m A = m /\ d_n A = c.
  Proof.
    intros m c A sA Hm Hc E. destruct (first_tile nb m c A sA Hb Hm Hc E) as (DA & Em & En & TA).
    rewrite (dn_mt nb A DA), (dn_nt nb A DA) by lia. rewrite Em, En. unfold ntl. auto.
  Qed.
End Sizes.

Lemma zcgesv_workspace : forall (N : normed) lassq nsqrt nb n nrhs A sA X sX R sR bA bX bR bW anorm xnorm rnorm,
  0 < nb -> 0 < n -> 0 < nrhs ->
  ge_create nb n n = CrOk A sA -> ge_create nb n nrhs = CrOk X sX -> ge_create nb n nrhs = CrOk R sR ->
  bA <> bW -> bX <> bW -> bR <> bW -> fst anorm <> bW -> fst xnorm <> bW -> fst rnorm <> bW ->
  (n + nb - 1) / nb * n + n < 2 ^ 31 -> 2 * ((n + nb - 1) / nb * nrhs) < 2 ^ 31 ->
  forall ks, In ks (@zcgesv_norms N lassq nsqrt bA A bX X bR R bW anorm xnorm rnorm) ->
  forall k, In k ks -> within bW (zcgesv_lwork A X R) k.
Proof.
  intros N lassq nsqrt nb n nrhs A sA X sX R sR bA bX bR bW anorm xnorm rnorm Hb Hn Hr EA EX ER B1 B2 B3 B4 B5 B6 L1 L2 ks Hks k Hk.
  destruct (tiles_eq nb Hb n n A sA Hn Hn EA) as (A1 & A2 & A3 & A4).
  destruct (tiles_eq nb Hb n nrhs X sX Hn Hr EX) as (X1 & X2 & X3 & X4).
  destruct (tiles_eq nb Hb n nrhs R sR Hn Hr ER) as (R1 & R2 & R3 & R4).
  assert (T : 0 <= (n + nb - 1) / nb) by (apply Z.div_pos; lia).
  unfold zcgesv_lwork. rewrite lwork_small.
  2:{ rewrite A2, A4. nia. }
  2:{ rewrite X1, X4, R1, R4. nia. }
  unfold zcgesv_norms in Hks. apply in_app_or in Hks. destruct Hks as [Hks|Hks].
  - destruct (first_tile nb n n A sA Hb Hn Hn EA) as (DA & _ & _ & TA).
    pose proof (zlange_within nb bA A bW anorm DA Hb B1 B4 lassq nsqrt PlasmaInfNorm k ks TA Hks Hk) as W.
    revert W. apply within_mono. change (zlange_work PlasmaInfNorm A) with (d_nt A * d_m A + d_m A).
    rewrite A3, A4. apply Z.le_max_l.
  - pose proof (columns_within N nb n nrhs X sX R sR bX bR bW xnorm rnorm k ks Hb Hn Hr EX ER B2 B3 B5 B6 Hks Hk) as W.
    revert W. apply within_mono. apply Z.le_max_r.
Qed.

Lemma zcposv_workspace : forall (N : normed) lassq nsqrt dg uplo nb n nrhs A sA X sX R sR bA bX bR bW anorm xnorm rnorm,
  0 < nb -> 0 < n -> 0 < nrhs ->
  ge_create nb n n = CrOk A sA -> ge_create nb n nrhs = CrOk X sX -> ge_create nb n nrhs = CrOk R sR ->
  bA <> bW -> bX <> bW -> bR <> bW -> fst anorm <> bW -> fst xnorm <> bW -> fst rnorm <> bW ->
  (n + nb - 1) / nb * n + n < 2 ^ 31 -> 2 * ((n + nb - 1) / nb * nrhs) < 2 ^ 31 ->
  forall ks, In ks (@zcposv_norms N lassq nsqrt dg uplo bA A bX X bR R bW anorm xnorm rnorm) ->
  forall k, In k ks -> within bW (zcgesv_lwork A X R) k.
Proof.
  intros N lassq nsqrt dg uplo nb n nrhs A sA X sX R sR bA bX bR bW anorm xnorm rnorm Hb Hn Hr EA EX ER B1 B2 B3 B4 B5 B6 L1 L2 ks Hks k Hk.
  destruct (tiles_eq nb Hb n n A sA Hn Hn EA) as (A1 & A2 & A3 & A4).
  destruct (tiles_eq nb Hb n nrhs X sX Hn Hr EX) as (X1 & X2 & X3 & X4).
  destruct (tiles_eq nb Hb n nrhs R sR Hn Hr ER) as (R1 & R2 & R3 & R4).
  assert (T : 0 <= (n + nb - 1) / nb) by (apply Z.div_pos; lia).
  unfold zcgesv_lwork. rewrite lwork_small.
  2:{ rewrite A2, A4. nia. }
  2:{ rewrite X1, X4, R1, R4. nia. }
  unfold zcposv_norms in Hks. apply in_app_or in Hks. destruct Hks as [Hks|Hks].
  - destruct (first_tile nb n n A sA Hb Hn Hn EA) as (DA & _ & _ & TA).
    pose proof (pzlansy_within nb bA A bW anorm DA Hb B1 B4 lassq nsqrt dg PlasmaInfNorm uplo k ks TA
      ltac:(congruence) ltac:(congruence) Hks Hk) as W.
    revert W. apply within_mono. change (zlansy_work PlasmaInfNorm A) with (d_mt A * d_n A + d_n A).
    rewrite A1, A2. apply Z.le_max_l.
  - pose proof (columns_within N nb n nrhs X sX R sR bX bR bW xnorm rnorm k ks Hb Hn Hr EX ER B2 B3 B5 B6 Hks Hk) as W.
    revert W. apply within_mono. apply Z.le_max_r.
Qed.

Lemma zcgbsv_workspace : forall (N : normed) lassq nsqrt nb n nrhs kl ku A sA X sX R sR bA bX bR bW anorm xnorm rnorm,
  0 < nb -> 0 < n -> 0 < nrhs -> 0 <= kl -> 0 <= ku ->
  gb_create nb n n kl ku = CrOk A sA -> ge_create nb n nrhs = CrOk X sX -> ge_create nb n nrhs = CrOk R sR ->
  bA <> bW -> bX <> bW -> bR <> bW -> fst anorm <> bW -> fst xnorm <> bW -> fst rnorm <> bW ->
  (n + nb - 1) / nb * ((n + nb - 1) / nb) * nb + nb * ((n + nb - 1) / nb) < 2 ^ 31 -> 2 * ((n + nb - 1) / nb * nrhs) < 2 ^ 31 ->
  forall ks, In ks (@zcgbsv_norms N lassq nsqrt bA A bX X bR R bW anorm xnorm rnorm) ->
  forall k, In k ks -> within bW (zcgbsv_lwork A X R) k.
Proof.
  intros N lassq nsqrt nb n nrhs kl ku A sA X sX R sR bA bX bR bW anorm xnorm rnorm Hb Hn Hr Hkl Hku EA EX ER B1 B2 B3 B4 B5 B6 L1 L2 ks Hks k Hk.
  pose proof (gb_create_gd nb n n kl ku A sA Hkl Hku EA) as GA.
  destruct (tiles_eq nb Hb n nrhs X sX Hn Hr EX) as (X1 & X2 & X3 & X4).
  destruct (tiles_eq nb Hb n nrhs R sR Hn Hr ER) as (R1 & R2 & R3 & R4).
  assert (T : 0 <= (n + nb - 1) / nb) by (apply Z.div_pos; lia).
  unfold zcgbsv_lwork. rewrite lwork_small.
  2:{ rewrite (gd_mt _ _ _ _ _ _ GA), (gd_nt _ _ _ _ _ _ GA), (OpProofs.sq_mb _ _ _ (gd_sq _ _ _ _ _ _ GA)). unfold ntl. nia. }
  2:{ rewrite X1, X4, R1, R4. nia. }
  unfold zcgbsv_norms in Hks. apply in_app_or in Hks. destruct Hks as [Hks|Hks].
  - pose proof (pzlangb_within A nb n n kl ku bA bW anorm GA B1 B4 lassq nsqrt PlasmaInfNorm k ks Hks Hk) as W.
    revert W. apply within_mono. apply Z.le_max_l.
  - pose proof (columns_within N nb n nrhs X sX R sR bX bR bW xnorm rnorm k ks Hb Hn Hr EX ER B2 B3 B5 B6 Hks Hk) as W.
    revert W. apply within_mono. apply Z.le_max_r.
Qed.

(* work is too small: a task of the first phase writes past its end *)
Lemma zcgesv_overflow : exists nb n nrhs A sA X sX R sR, 0 < nb /\ 0 < n < 2 ^ 31 /\ 0 < nrhs /\
  ge_create nb n n = CrOk A sA /\ ge_create nb n nrhs = CrOk X sX /\ ge_create nb n nrhs = CrOk R sR /\
  forall (N : normed) lassq nsqrt bA bX bR bW anorm xnorm rnorm,
  exists ks k l, In ks (@zcgesv_norms N lassq nsqrt bA A bX X bR R bW anorm xnorm rnorm) /\ In k ks /\
    fst l = bW /\ k_writes k l /\ zcgesv_lwork A X R <= snd l.
Proof.
  exists 1, 46341, 1. do 6 eexists. split; [lia|]. split; [lia|]. split; [lia|].
  split; [lazy; reflexivity|]. split; [lazy; reflexivity|]. split; [lazy; reflexivity|].
  intros N lassq nsqrt bA bX bR bW anorm xnorm rnorm.
  eexists. eexists. exists (bW, 46341 * 46340). split.
  - unfold zcgesv_norms. apply in_or_app. left. unfold pzlange. cbn [Z.eqb PlasmaInfNorm PlasmaMaxNorm PlasmaOneNorm Pos.eqb]. left. reflexivity.
  - split.
    + unfold lange_inf_tiles. apply in_flat_map. exists 0. split; [apply in_zrange; cbn [d_mt]; lia|].
      apply in_map_iff. exists 46340. split; [reflexivity|apply in_zrange; cbn [d_nt]; lia].
    + split; [reflexivity|]. split.
      * cbn [omp_zlange_aux_inf k_writes]. exists 0. split; [split; [lia|lazy; reflexivity]|]. lazy. reflexivity.
      * lazy. discriminate.
Qed.

Lemma zcposv_overflow : exists nb n nrhs A sA X sX R sR, 0 < nb /\ 0 < n < 2 ^ 31 /\ 0 < nrhs /\
  ge_create nb n n = CrOk A sA /\ ge_create nb n nrhs = CrOk X sX /\ ge_create nb n nrhs = CrOk R sR /\
  forall (N : normed) lassq nsqrt dg uplo bA bX bR bW anorm xnorm rnorm,
  exists ks k l, In ks (@zcposv_norms N lassq nsqrt dg uplo bA A bX X bR R bW anorm xnorm rnorm) /\ In k ks /\
    fst l = bW /\ k_writes k l /\ zcgesv_lwork A X R <= snd l.
Proof.
  exists 1, 46341, 1. do 6 eexists. split; [lia|]. split; [lia|]. split; [lia|].
  split; [lazy; reflexivity|]. split; [lazy; reflexivity|]. split; [lazy; reflexivity|].
  intros N lassq nsqrt dg uplo bA bX bR bW anorm xnorm rnorm.
  eexists. eexists. exists (bW, 46341 * 46340 + 46340). split.
  - unfold zcposv_norms. apply in_or_app. left. unfold pzlansy. cbn [Z.eqb PlasmaInfNorm PlasmaMaxNorm PlasmaOneNorm Pos.eqb orb]. left. reflexivity.
  - split.
    + unfold tri_tiles. apply in_flat_map. exists 46340. split; [apply in_zrange; cbn [d_mt]; lia|].
      apply in_or_app. right. left. reflexivity.
    + split; [reflexivity|]. split.
      * cbn [omp_zlansy_aux k_writes]. exists 0. split; [split; [lia|lazy; reflexivity]|]. lazy. reflexivity.
      * lazy. discriminate.
Qed.

Lemma zcgbsv_overflow : exists nb n nrhs kl ku A sA X sX R sR, nb = 256 /\ 0 < n < 2 ^ 20 /\ nrhs = 1 /\ kl = 1 /\ ku = 1 /\
  gb_create nb n n kl ku = CrOk A sA /\ ge_create nb n nrhs = CrOk X sX /\ ge_create nb n nrhs = CrOk R sR /\
  forall (N : normed) lassq nsqrt bA bX bR bW anorm xnorm rnorm,
  exists ks k l, In ks (@zcgbsv_norms N lassq nsqrt bA A bX X bR R bW anorm xnorm rnorm) /\ In k ks /\
    fst l = bW /\ k_writes k l /\ zcgbsv_lwork A X R <= snd l.
Proof.
  exists 256, 741376, 1, 1, 1. do 6 eexists. split; [lia|]. split; [lia|]. split; [lia|]. split; [lia|]. split; [lia|].
  split; [lazy; reflexivity|]. split; [lazy; reflexivity|]. split; [lazy; reflexivity|].
  intros N lassq nsqrt bA bX bR bW anorm xnorm rnorm.
  eexists. eexists. exists (bW, 2895 * 256 + 2895 * (256 * 2896)). split.
  - unfold zcgbsv_norms. apply in_or_app. left. unfold pzlangb. cbn [Z.eqb PlasmaInfNorm PlasmaMaxNorm PlasmaOneNorm Pos.eqb]. left. reflexivity.
  - split.
    + apply in_map_iff. exists (2895, 2895). split; [reflexivity|]. unfold lb_tiles. apply in_flat_map. exists 2895.
      split; [apply in_zrange; cbn [d_nt]; lia|]. apply in_map_iff. exists 2895. split; [reflexivity|].
      apply in_zrange. split; lazy; [discriminate|reflexivity].
    + split; [reflexivity|]. split.
      * cbn [omp_zlange_aux_inf k_writes fst snd]. exists 0. split; [split; [lia|lazy; reflexivity]|]. lazy. reflexivity.
      * lazy. discriminate.
Qed.
