(* The workspace of plasma_zlangb is large enough. *)
From Coq Require Import ZArith List Bool Lia.
From Verif Require Import Base NumModel FieldModel TaskModel TaskSpec DescModel DescSpec
  DescDriverModel DescProofs DescProofs3 DescProofs4 MatModel MatSpec MatProofs
  LayoutModel LayoutProofs OpProofs OperandProofs GemmProofs
  BandModel BandSpec BandProofs BandLayoutProofs BandGbProofs NormModel NormTriModel NormSpec FillProofs
  NormProofs NormDriverProofs NormPhaseProofs NormWorkProofs
  NormBandModel NormGbLayoutProofs NormGbRegionProofs NormGbProofs NormGbPhaseProofs.
Import ListNotations.
Open Scope Z_scope.

Lemma flat_map_length_le : forall (X Y : Type) (f : X -> list Y) c l,
  (forall x, In x l -> Z.of_nat (length (f x)) <= c) -> Z.of_nat (length (flat_map f l)) <= c * Z.of_nat (length l).
Proof.
  intros X Y f c l. induction l as [|x l IH]; intros H; [cbn; lia|].
  cbn [flat_map length]. rewrite app_length. specialize (IH (fun y Hy => H y (or_intror Hy))).
  pose proof (H x (or_introl eq_refl)). nia.
Qed.

Section Work.
  Context {N : normed}.
  Variables (A : desc) (nb m n kl ku bA bW : Z) (p : loc) (ld : Z) (value : loc).
  Hypothesis HA : gd_ok A nb m n kl ku.
  Hypothesis H2 : fst p <> bW.
  Hypothesis H3 : bA <> bW.
  Hypothesis H4 : fst value <> bW.

  Lemma lb_count : Z.of_nat (length (lb_tiles A)) <= lb_ldwork A * ntl nb n.
  Proof using HA.
    clear H2 H3 H4. pose proof (gd_pos _ _ _ _ _ _ HA) as Hb. pose proof (gd_ku0 _ _ _ _ _ _ HA) as Hku.
    pose proof (ntl_pos nb n Hb ltac:(lia)) as CP. unfold lb_tiles.
    etransitivity; [apply (flat_map_length_le _ _ _ (lb_ldwork A))|].
    - intros j Hj. apply in_zrange in Hj. rewrite map_length, zrange_length.
      pose proof (lb_span A nb m n kl ku HA j ltac:(lia)).
      assert (0 <= lb_ldwork A).
      { rewrite (lb_width A nb m n kl ku HA). pose proof (gd_kl0 _ _ _ _ _ _ HA).
        assert (0 <= ntl nb ku) by (apply Z.div_pos; lia). assert (0 <= ntl nb kl) by (apply Z.div_pos; lia). lia. }
      lia.
    - rewrite zrange_length, (gd_nt _ _ _ _ _ _ HA). lia.
  Qed.

  Lemma band_copy_within : forall size k, In k (pzpb2desc p ld bA A) -> within bW size (k : ktask N).
  Proof using HA H2 H3.
    intros size k Hk l Hl HX. exfalso. rewrite gd_copy_eq in Hk. apply in_flat_map in Hk. destruct Hk as ([j i] & _ & [<-|[]]).
    cbn [fst snd] in HX. rewrite (gd_in_eq A nb m n kl ku bA p ld HA) in HX. cbn in HX. destruct HX as [HX|HX].
    - destruct HX as (r & c & _ & _ & ->). apply H2. exact Hl.
    - apply reg_other with (bW := bW) in HX; auto.
  Qed.

  Ltac t1 oo ll := eapply (tile_within bA bW) with (o := oo) (len := ll); [exact H3|..];
    cbn [omp_zlange_max omp_zlange_aux_one omp_zlange_aux_inf k_reads k_writes pplus fst snd]; [|eauto|rewrite ?Z.add_0_l; auto|..]; [reflexivity|..].

  Lemma pzlangb_within : forall lassq nsqrt norm (k : ktask N) ks, 
    In ks (pzlangb lassq nsqrt norm bA A (bW, 0) value) -> In k ks -> within bW (zlangb_work norm nb kl ku A) k.
  Proof.
    intros lassq nsqrt norm k ks Hks Hk.
    pose proof (gd_pos _ _ _ _ _ _ HA) as Hb. pose proof (gd_kl0 _ _ _ _ _ _ HA) as Hkl. pose proof (gd_ku0 _ _ _ _ _ _ HA) as Hku.
    assert (Hm : 0 < m) by (clear -Hkl; lia). assert (Hn : 0 < n) by (clear -Hku; lia).
    pose proof (ntl_pos nb m Hb Hm) as RP. pose proof (ntl_pos nb n Hb Hn) as CP.
    pose proof (gd_mt _ _ _ _ _ _ HA) as MT. pose proof (gd_nt _ _ _ _ _ _ HA) as NT.
    pose proof (sq_mb nb A _ (gd_sq _ _ _ _ _ _ HA)) as MB. pose proof (sq_nb nb A _ (gd_sq _ _ _ _ _ _ HA)) as NB.
    pose proof (gd_n _ _ _ _ _ _ HA) as DN.
    assert (N1 : 0 <= ntl nb ku) by (apply Z.div_pos; clear -Hku Hb; lia).
    assert (N2 : 0 <= ntl nb kl) by (apply Z.div_pos; clear -Hkl Hb; lia).
    assert (N3 : ntl nb ku <= ntl nb (ku + kl)) by (apply Z.div_le_mono; clear -Hkl Hb; lia).
    pose proof (lb_width A nb m n kl ku HA) as LW. pose proof lb_count as LC.
    assert (Q1 : Z.quot (ku + kl + nb - 1) nb = ntl nb (ku + kl)) by (apply Z.quot_div_nonneg; clear -Hkl Hku Hb; lia).
    assert (Q2 : Z.quot (kl + nb - 1) nb = ntl nb kl) by (apply Z.quot_div_nonneg; clear -Hkl Hb; lia).
    assert (LR : lb_ldwork A <= ntl nb (ku + kl) + ntl nb kl + 1) by (clear -LW N3; lia).
    assert (LP : 0 < lb_ldwork A) by (clear -LW N1 N2; lia).
    unfold pzlangb in Hks. unfold zlangb_work. cbv zeta. rewrite Q1, Q2, (gd_klt _ _ _ _ _ _ HA), (gd_kut _ _ _ _ _ _ HA), DN, NT, MT, MB.
    remember (lb_ldwork A) as R eqn:ER. remember (ntl nb (ku + kl) + ntl nb kl + 1) as T eqn:ET.
    remember (ntl nb n) as C eqn:EC. remember (ntl nb m) as D eqn:ED.
    assert (RC : R * C <= T * C) by (clear -LR CP; nia).
    destruct (norm =? PlasmaMaxNorm); [|destruct (norm =? PlasmaOneNorm); [|destruct (norm =? PlasmaInfNorm);
      [|destruct (norm =? PlasmaFrobeniusNorm)]]]; [| | | |destruct Hks]; destruct Hks as [<-|[<-|[]]].
    - apply in_map_iff in Hk. destruct Hk as ([z t] & <- & Hz). apply (numbered_range _ 0) in Hz. destruct Hz as [Hz _].
      cbn [fst snd]. t1 z 1; replace (1 + ntl nb kl + (1 + ntl nb (ku + kl)) - 1) with T by (clear -ET; lia); clear -Hz LC RC; lia.
    - destruct Hk as [<-|[]]. eapply (final_within bW value H4 _ _ _ _ _ 0 0); cbn [omp_zlange_max k_reads k_writes]; [eauto|auto|..];
        replace (1 + ntl nb kl + (1 + ntl nb (ku + kl)) - 1) with T by (clear -ET; lia); clear -LC RC LP CP; nia.
    - apply in_map_iff in Hk. destruct Hk as ([i j] & <- & Hx).
      destruct (gview A nb m n kl ku HA _ Hx) as (X1 & X2 & X3 & X4 & X5 & X6 & X7 & _). cbn [fst snd] in *.
      rewrite DN, NB, X7. rewrite <- ER in X3. rewrite <- EC in X2.
      t1 ((i - lb_start A j) * n + j * nb) (tsz nb n j); [clear -X3 X2 Hb Hn; nia|].
      assert (j * nb + tsz nb n j <= n) by (unfold tsz; clear; lia).
      assert ((i - lb_start A j + 1) * n <= T * n) by (clear -X3 LR Hn; nia). clear -H H0 Hn ET. lia.
    - destruct Hk as [<-|[]]. rewrite DN. eapply (final_within bW value H4 _ _ _ _ _ (0 + n * R) n); cbn [omp_dlange_inf k_reads k_writes pplus fst snd]; [eauto|auto|..];
        clear -LR LP Hn; nia.
    - apply in_map_iff in Hk. destruct Hk as ([i j] & <- & Hx).
      destruct (gview A nb m n kl ku HA _ Hx) as (X1 & X2 & X3 & X4 & X5 & X6 & X7 & _). cbn [fst snd] in *.
      rewrite MB, MT, X6. rewrite <- EC in X2. rewrite <- ED in X1.
      t1 (i * nb + j * (nb * D)) (tsz nb m i); [remember (nb * D) as u eqn:EU; assert (0 < u) by (clear -EU Hb RP; nia); clear -H X1 X2 Hb; nia|].
      assert (i * nb + tsz nb m i <= nb * D) by (clear -X1 X4 Hb; nia).
      remember (nb * D) as u eqn:EU. replace (C * D * nb) with (u * C) by (clear -EU; nia). assert (U0 : 0 < u) by (clear -EU Hb RP; nia). assert (U1 : j * u + u <= u * C) by (clear -U0 X2; nia). clear -H U0 U1. lia.
    - destruct Hk as [<-|[]]. rewrite MB, MT, NT. eapply (final_within bW value H4 _ _ _ _ _ (0 + nb * D * C) (nb * D)); cbn [omp_dlange_inf k_reads k_writes pplus fst snd]; [eauto|auto|..];
        remember (nb * D) as u eqn:EU; replace (C * D * nb) with (u * C) by (clear -EU; nia);
        assert (0 < u) by (clear -EU Hb RP; nia); clear -H CP; nia.
    - apply in_map_iff in Hk. destruct Hk as ([i j] & <- & Hx).
      destruct (gview A nb m n kl ku HA _ Hx) as (X1 & X2 & X3 & X4 & X5 & X6 & X7 & _). cbn [fst snd] in *.
      rewrite NT. rewrite <- EC in X2. rewrite <- ER in X3.
      assert (OB : 0 <= j * R + i - lb_start A j < R * C) by (clear -X2 X3; nia).
      eapply (tile_within2 bA bW) with (o := j * R + i - lb_start A j) (o' := R * C + (j * R + i - lb_start A j)) (len := 1); [exact H3|..];
        cbn [omp_zgessq k_reads k_writes pplus fst snd]; [|eauto|rewrite ?Z.add_0_l; auto|..]; [reflexivity|..];
        clear -OB RC ET; lia.
    - destruct Hk as [<-|[]]. rewrite NT. apply (final_within2 bW value H4 _ _ (R * C) (R * C)); cbn [omp_dgessq_aux k_reads k_writes pplus fst snd]; [rewrite ?Z.add_0_l; auto|auto|..];
        clear -RC ET LP CP; nia.
  Qed.
End Work.

Lemma zlangb_workspace : forall (N : normed) lassq nsqrt nb norm m n kl ku p ld bA bW (value : loc) A sz,
  fst p <> bW -> bA <> bW -> fst value <> bW -> gb_create nb m n kl ku = CrOk A sz ->
  all_within bW (zlangb_work norm nb kl ku A) (@zlangb N lassq nsqrt nb norm m n kl ku p ld bA bW value).
Proof.
  intros N lassq nsqrt nb norm m n kl ku p ld bA bW value A sz B1 B2 B3 E. unfold zlangb.
  destruct (negb (norm_ok norm)); [exact I|]. destruct (m <? 0); [exact I|]. destruct (n <? 0); [exact I|].
  destruct (Z.ltb_spec kl 0) as [|K1]; [exact I|]. destruct (Z.ltb_spec ku 0) as [|K2]; [exact I|].
  destruct (ld <? _); [exact I|]. destruct (Z.min n m =? 0); [exact I|].
  pose proof (gb_create_gd nb m n kl ku A sz K1 K2 E) as HA.
  apply (with_vdesc_within _ _ _ _ A sz E). intros ks Hks k Hk. apply in_app_or in Hks. destruct Hks as [Hks|Hks].
  - destruct (norm =? PlasmaMaxNorm); [destruct Hks|]. destruct Hks as [<-|[]]. destruct Hk as [<-|[]]. apply calloc_within.
  - pose proof (pzlangb_within (N := N) A nb m n kl ku bA bW value HA B2 B3 lassq nsqrt norm) as PW.
    pose proof (band_copy_within (N := N) A nb m n kl ku bA bW p ld HA B1 B2 (zlangb_work norm nb kl ku A)) as CW.
    destruct (pzlangb lassq nsqrt norm bA A (bW, 0) value) as [|f rest].
    + destruct Hks as [<-|[]]. apply CW. assumption.
    + destruct Hks as [<-|Hks].
      * apply in_app_or in Hk. destruct Hk as [Hk|Hk]; [apply CW; assumption|]. apply (PW k f); [left; reflexivity|assumption].
      * apply (PW k ks); [right; assumption|assumption].
Qed.
