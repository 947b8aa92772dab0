(* The first tasks of plasma_pzlangb leave partial maxima and sums in the workspace. *)
From Coq Require Import ZArith List Bool Lia Ring.
From Verif Require Import Base NumModel NumProofs FieldModel TaskModel TaskSpec TaskProofs DescModel DescSpec
  DescDriverModel DescProofs DescPackProofs DescProofs3 DescProofs4 MatModel MatSpec MatProofs RegionProofs
  LayoutModel LayoutProofs LayoutProofs2 DriverModel DriverSpec OpProofs OperandProofs GemmProofs
  BandModel BandSpec BandProofs BandLayoutProofs BandGbProofs EwProofs SwpModel NormModel NormSpec FillProofs
  NormProofs NormDriverProofs NormPhaseProofs NormBandModel NormGbLayoutProofs NormGbRegionProofs NormGbProofs.
Import ListNotations.
Open Scope Z_scope.

Lemma zz_dec : forall x y : Z * Z, {x = y} + {x <> y}.
Proof. decide equality; apply Z.eq_dec. Defined.

Section Phases.
  Context {N : normed}.
  Add Ring num_ring_gbp : (nring N).
  Variables (A : desc) (nb m n kl ku b : Z) (p : loc) (ld w : Z).
  Hypothesis HA : gd_ok A nb m n kl ku.
  Hypothesis SQ : n <= m \/ m mod nb = 0.
  Hypothesis H1 : fst p <> b.
  Hypothesis H2 : fst p <> w.
  Hypothesis H3 : b <> w.
  Variable M : mem N.
  Variable a : Z -> Z -> N.
  Hypothesis HR : forall i j, in_matrix m n i j -> gd_read nb kl ku i j -> gd_src kl ku p ld M i j = a i j.
  Hypothesis HB : forall i j, in_matrix m n i j -> ~ (- ku <= i - j <= kl) -> a i j = n0.

  Lemma gHZ : forall i j, in_matrix m n i j -> ~ (- (kl + ku) <= i - j <= kl) -> a i j = n0.
  Proof using HA HB.
    intros i j Hi Ho. apply HB; [assumption|]. pose proof (gd_kl0 _ _ _ _ _ _ HA). clear H1 H2 H3. lia.
  Qed.
  Lemma gview : forall x, In x (lb_tiles A) -> 0 <= fst x < ntl nb m /\ 0 <= snd x < ntl nb n /\ 0 <= fst x - lb_start A (snd x) < lb_ldwork A /\
    0 < tsz nb m (fst x) <= nb /\ 0 < tsz nb n (snd x) <= nb /\
    tile_mview A (fst x) = tsz nb m (fst x) /\ tile_nview A (snd x) = tsz nb n (snd x) /\ tile_mmain_band A (fst x) (snd x) = nb /\ in_tb A (fst x) (snd x).
  Proof using HA.
    clear H1 H2 H3. intros [i j] H. cbn [fst snd]. pose proof (lb_tb A nb m n kl ku HA i j H) as T.
    destruct (gd_views A nb m n kl ku HA i j T) as (V1 & V2 & V3 & V4 & V5 & V6).
    apply (lb_in A nb m n kl ku HA) in H. destruct H as [Hj Hi].
    pose proof (lb_span A nb m n kl ku HA j ltac:(lia)). pose proof (lb_end_mt A nb m n kl ku HA j ltac:(lia)).
    split; [lia|]. split; [lia|]. split; [lia|]. split; [assumption|]. split; [assumption|]. split; [assumption|]. split; [assumption|].
    split; [|assumption]. unfold tile_mmain_band. apply (gd_mmain _ _ _ _ _ _ HA).
  Qed.

  Lemma col_tile : forall c, 0 <= c < n -> 0 <= c / nb < ntl nb n /\ 0 <= c mod nb < tsz nb n (c / nb) /\ c = c / nb * nb + c mod nb.
  Proof using HA.
    clear H1 H2 H3. intros c Hc. pose proof (gd_pos _ _ _ _ _ _ HA). pose proof (pos_tile nb A _ (gd_sq _ _ _ _ _ _ HA) c n Hc) as (P1 & P2 & P3).
    split; [|auto]. split; [assumption|]. unfold tsz in P2. apply ntl_spec; lia.
  Qed.
  Lemma row_tile : forall c, 0 <= c < m -> 0 <= c / nb < ntl nb m /\ 0 <= c mod nb < tsz nb m (c / nb) /\ c = c / nb * nb + c mod nb.
  Proof using HA.
    clear H1 H2 H3. intros c Hc. pose proof (gd_pos _ _ _ _ _ _ HA). pose proof (pos_tile nb A _ (gd_sq _ _ _ _ _ _ HA) c m Hc) as (P1 & P2 & P3).
    split; [|auto]. split; [assumption|]. unfold tsz in P2. apply ntl_spec; lia.
  Qed.

  (* PlasmaMaxNorm *)
  Lemma gb_max_phase : region_ensures (pzpb2desc p ld b A ++
      map (fun z => let m := fst (snd z) in let n := snd (snd z) in
          omp_zlange_max (tile_mview A m) (tile_nview A n) (tptr b A m n) (tile_mmain_band A m n) (pplus (w, 0) (fst z)))
         (combine (zrange 0 (Z.of_nat (length (lb_tiles A)))) (lb_tiles A))) M
    (fun M' => (forall k i j, In (k, (i, j)) (combine (zrange 0 (Z.of_nat (length (lb_tiles A)))) (lb_tiles A)) ->
                  M' (w, k) = lange_max (tsz nb m i) (tsz nb n j) (gtile nb a i j)) /\
               (forall l, fst l <> b -> fst l <> w -> M' l = M l)).
  Proof.
    pose proof gHZ as HZ.
    assert (HI : forall x, In x (combine (zrange 0 (Z.of_nat (length (lb_tiles A)))) (lb_tiles A)) -> In (snd x) (lb_tiles A)).
    { intros [k t] H. apply (numbered_range _ 0) in H. apply H. }
    eapply region_mono; [|apply (gseg1 A nb m n kl ku b p ld w HA SQ H1 H2 H3 M a HR HZ) with (tm := fun z => fst (snd z)) (tn := fun z => snd (snd z))
      (off := fun z => 0 + fst z) (len := fun _ => 1)
      (val := fun z F _ => lange_max (tsz nb m (fst (snd z))) (tsz nb n (snd (snd z))) F)].
    - intros M' (E1 & E2). split.
      + intros k i j H. pose proof (E1 (k, (i, j)) 0 H ltac:(lia)) as E. cbn [fst snd] in E.
        rewrite Z.add_0_l, Z.add_0_r in E. exact E.
      + intros l L1 L2. apply E2; [assumption|]. intros x Hx (r & _ & ->). apply L2. reflexivity.
    - apply (numbered_NoDup _ 0).
    - intros x Hx. apply gview, HI. assumption.
    - intros x F F' r Hx HF Hr. apply (lange_max_ext _ _ _ _ HF).
    - intros [k t] [k' t'] r r' Hx Hy Hr Hr' E. cbn [fst snd] in E. assert (k = k') by lia. subst k'.
      f_equal. eapply (numbered_fun _ 0); eauto.
    - intros x Hx. destruct (gview _ (HI x Hx)) as (_ & _ & _ & _ & _ & V5 & V6 & V7 & _).
      cbv zeta. rewrite V5, V6, V7. reflexivity.
  Qed.

  (* PlasmaOneNorm *)
  Lemma gb_one_phase :
    (forall k c, 0 <= k < lb_ldwork A -> 0 <= c < n -> M (w, n * k + c) = n0) ->
    region_ensures (pzpb2desc p ld b A ++
      map (fun t => let m := fst t in let n := snd t in
          omp_zlange_aux_one (tile_mview A m) (tile_nview A n) (tptr b A m n) (tile_mmain_band A m n)
            (pplus (w, 0) ((m - lb_start A n) * d_n A + n * d_nb A))) (lb_tiles A)) M
    (fun M' => (forall c k, 0 <= c < n -> 0 <= k < lb_ldwork A ->
                  M' (w, n * k + c) = if k + lb_start A (c / nb) <=? lb_end A (c / nb)
                    then nsum (fun i => nabs (a i c)) ((k + lb_start A (c / nb)) * nb) (Z.min ((k + lb_start A (c / nb) + 1) * nb) m)
                    else n0) /\
               (forall l, fst l <> b -> fst l <> w -> M' l = M l)).
  Proof.
    intros HC. pose proof gHZ as HZ. pose proof (gd_pos _ _ _ _ _ _ HA) as Hb.
    assert (NB : d_nb A = nb) by (exact (sq_nb nb A _ (gd_sq _ _ _ _ _ _ HA))).
    assert (DN : d_n A = n) by (exact (gd_n _ _ _ _ _ _ HA)).
    eapply region_mono; [|apply (gseg1 A nb m n kl ku b p ld w HA SQ H1 H2 H3 M a HR HZ) with (tm := fst) (tn := snd)
      (off := fun x => 0 + ((fst x - lb_start A (snd x)) * d_n A + snd x * d_nb A)) (len := fun x => tsz nb n (snd x))
      (val := fun x => aux_one (tsz nb m (fst x)))].
    - intros M' (E1 & E2). split.
      + intros c k Hc Hk. destruct (col_tile c Hc) as (P1 & P2 & P3).
        pose proof (lb_start_pos A nb m n kl ku HA (c / nb)) as SP.
        destruct (Z.leb_spec (k + lb_start A (c / nb)) (lb_end A (c / nb))) as [L|G].
        * assert (HI : In (k + lb_start A (c / nb), c / nb) (lb_tiles A)).
          { apply (lb_in A nb m n kl ku HA). clear H1 H2 H3. lia. }
          pose proof (E1 _ (c mod nb) HI P2) as E. cbn [fst snd] in E. rewrite NB, DN in E.
          replace (0 + ((k + lb_start A (c / nb) - lb_start A (c / nb)) * n + c / nb * nb) + c mod nb) with (n * k + c) in E by (clear -P3; lia).
          rewrite E. destruct (gview _ HI) as (_ & _ & _ & V1 & V2 & _). cbn [fst snd] in V1, V2.
          rewrite aux_one_sum by (clear -V1; lia). unfold tsz. rewrite <- tile_sum. apply nsum_ext. intros i _. unfold gtile.
          rewrite <- P3. reflexivity.
        * rewrite E2.
          -- apply HC; assumption.
          -- cbn. congruence.
          -- intros [i j] Hx (r & Hr & E). cbn [fst snd] in E, Hr. injection E as E.
             destruct (gview _ Hx) as (X1 & X2 & X3 & X4 & X5 & _). cbn [fst snd] in *. rewrite NB, DN in E.
             assert (Hjr : 0 <= j * nb + r < n) by (clear -Hr X2 X5 Hb; unfold tsz in *; nia).
             destruct (pos_inj n k (i - lb_start A j) c (j * nb + r) Hc Hjr ltac:(clear -E; lia)) as [E3 E4].
             assert (EJ : c / nb = j) by (apply (div_eq c nb j r); clear -E4 Hr X5; lia).
             rewrite EJ in G. apply (lb_in A nb m n kl ku HA) in Hx. clear -G Hx E3. lia.
      + intros l L1 L2. apply E2; [assumption|]. intros x Hx (r & _ & ->). apply L2. reflexivity.
    - apply (lb_NoDup A).
    - intros x Hx. apply gview. assumption.
    - intros x F F' r Hx HF Hr. destruct (gview _ Hx) as (_ & _ & _ & V1 & V2 & _). eapply aux_one_ext; eauto. lia.
    - intros [i j] [i' j'] r r' Hx Hy Hr Hr' E. cbn [fst snd] in *. rewrite NB, DN in E.
      destruct (gview _ Hx) as (X1 & X2 & X3 & X4 & X5 & _). destruct (gview _ Hy) as (Y1 & Y2 & Y3 & Y4 & Y5 & _). cbn [fst snd] in *.
      assert (Hjr : 0 <= j * nb + r < n) by (clear -Hr X2 X5 Hb; unfold tsz in *; nia).
      assert (Hjr' : 0 <= j' * nb + r' < n) by (clear -Hr' Y2 Y5 Hb; unfold tsz in *; nia).
      destruct (pos_inj n (i - lb_start A j) (i' - lb_start A j') (j * nb + r) (j' * nb + r') Hjr Hjr' ltac:(clear -E; lia)) as [E3 E4].
      destruct (pos_inj2 nb j j' r r') as [-> _]; [clear -Hr X5; lia|clear -Hr' Y5; lia|assumption|].
      f_equal. clear -E3. lia.
    - intros x Hx. destruct (gview _ Hx) as (_ & _ & _ & _ & _ & V5 & V6 & V7 & _).
      cbv zeta. rewrite V5, V6, V7. reflexivity.
  Qed.

  (* PlasmaInfNorm *)
  Lemma gb_inf_phase : forall R, R = nb * ntl nb m ->
    (forall k i, 0 <= k < ntl nb n -> 0 <= i < R -> M (w, R * k + i) = n0) ->
    region_ensures (pzpb2desc p ld b A ++
      map (fun t => let m := fst t in let n := snd t in
          omp_zlange_aux_inf (tile_mview A m) (tile_nview A n) (tptr b A m n) (tile_mmain_band A m n)
            (pplus (w, 0) (m * d_mb A + n * (d_mb A * d_mt A)))) (lb_tiles A)) M
    (fun M' => (forall i k, 0 <= i < R -> 0 <= k < ntl nb n ->
                  M' (w, R * k + i) = if i <? m then nsum (fun j => nabs (a i j)) (k * nb) (Z.min ((k + 1) * nb) n) else n0) /\
               (forall l, fst l <> b -> fst l <> w -> M' l = M l)).
  Proof.
    intros R ER HC. pose proof gHZ as HZ. pose proof (gd_pos _ _ _ _ _ _ HA) as Hb.
    assert (MB : d_mb A = nb) by (exact (sq_mb nb A _ (gd_sq _ _ _ _ _ _ HA))).
    assert (MT : d_mt A = ntl nb m) by (exact (gd_mt _ _ _ _ _ _ HA)).
    assert (RR : d_mb A * d_mt A = R) by (rewrite MB, MT, ER; reflexivity).
    assert (IN : forall i r, 0 <= i < ntl nb m -> 0 <= r < nb -> 0 <= i * nb + r < R) by (intros; clear H1 H2 H3; nia).
    eapply region_mono; [|apply (gseg1 A nb m n kl ku b p ld w HA SQ H1 H2 H3 M a HR HZ) with (tm := fst) (tn := snd)
      (off := fun x => 0 + (fst x * d_mb A + snd x * (d_mb A * d_mt A))) (len := fun x => tsz nb m (fst x))
      (val := fun x => aux_inf (tsz nb n (snd x)))].
    - intros M' (E1 & E2). split.
      + intros i k Hi Hk.
        assert (UN : forall x r, In x (lb_tiles A) -> 0 <= r < tsz nb m (fst x) -> R * k + i = 0 + (fst x * d_mb A + snd x * (d_mb A * d_mt A)) + r ->
          snd x = k /\ i = fst x * nb + r).
        { intros [i' j'] r Hx Hr E. cbn [fst snd] in *. destruct (gview _ Hx) as (X1 & X2 & _ & X4 & _). cbn [fst snd] in *.
          rewrite RR, MB in E.
          destruct (pos_inj R k j' i (i' * nb + r) Hi (IN i' r X1 ltac:(clear -Hr X4; lia)) ltac:(clear -E; lia)) as [E3 E4]. auto. }
        destruct (Z.ltb_spec i m) as [L|G].
        * destruct (row_tile i ltac:(clear -Hi L; lia)) as (P1 & P2 & P3).
          destruct (in_dec zz_dec (i / nb, k) (lb_tiles A)) as [HI|HO].
          -- pose proof (E1 _ (i mod nb) HI P2) as E. cbn [fst snd] in E. rewrite RR, MB in E.
             replace (0 + (i / nb * nb + k * R) + i mod nb) with (R * k + i) in E by (clear -P3; lia).
             rewrite E. rewrite aux_inf_sum. unfold tsz. rewrite <- tile_sum. apply nsum_ext. intros j _. unfold gtile.
             rewrite <- P3. reflexivity.
          -- rewrite E2.
             ++ rewrite HC by assumption. symmetry. rewrite <- tile_sum. apply nsum_0. intros c Hc.
                rewrite HB; [apply nabs_0| |].
                ** split; [clear -Hi L; lia|]. clear -Hc Hk Hb. nia.
                ** rewrite P3. apply (lb_out A nb m n kl ku HA); try (clear -Hk; lia); try assumption.
                   --- intros X. apply HO. apply (lb_in A nb m n kl ku HA). auto.
                   --- unfold tsz in P2. clear -P2. lia.
                   --- clear -Hc. lia.
             ++ cbn. congruence.
             ++ intros x Hx (r & Hr & E). cbn [fst snd] in E. injection E as E. destruct (UN x r Hx Hr E) as [U1 U2].
                apply HO. destruct (gview _ Hx) as (_ & _ & _ & X4 & _).
                rewrite (div_eq i nb (fst x) r) by (clear -U2 Hr X4; lia). rewrite <- U1, <- surjective_pairing. assumption.
        * rewrite E2; [apply HC; assumption|cbn; congruence|].
          intros x Hx (r & Hr & E). cbn [fst snd] in E. injection E as E. destruct (UN x r Hx Hr E) as [U1 U2].
          unfold tsz in Hr. clear -U2 Hr G. lia.
      + intros l L1 L2. apply E2; [assumption|]. intros x Hx (r & _ & ->). apply L2. reflexivity.
    - apply (lb_NoDup A).
    - intros x Hx. apply gview. assumption.
    - intros x F F' r Hx HF Hr. apply (lange_row_ext _ _ _ _ _ HF Hr).
    - intros [i j] [i' j'] r r' Hx Hy Hr Hr' E. cbn [fst snd] in *. rewrite RR, MB in E.
      destruct (gview _ Hx) as (X1 & X2 & X3 & X4 & X5 & _). destruct (gview _ Hy) as (Y1 & Y2 & Y3 & Y4 & Y5 & _). cbn [fst snd] in *.
      destruct (pos_inj R j j' (i * nb + r) (i' * nb + r') (IN i r X1 ltac:(clear -Hr X4; lia)) (IN i' r' Y1 ltac:(clear -Hr' Y4; lia))
        ltac:(clear -E; lia)) as [E3 E4].
      destruct (pos_inj2 nb i i' r r') as [-> _]; [clear -Hr X4; lia|clear -Hr' Y4; lia|assumption|].
      f_equal. assumption.
    - intros x Hx. destruct (gview _ Hx) as (_ & _ & _ & _ & _ & V5 & V6 & V7 & _).
      cbv zeta. rewrite V5, V6, V7. reflexivity.
  Qed.

  (* PlasmaFrobeniusNorm *)
  Lemma gb_fro_phase : forall lassq, lassq_ok lassq ->
    (forall k, 0 <= k < 2 * lb_ldwork A * ntl nb n -> M (w, k) = n0) ->
    region_ensures (pzpb2desc p ld b A ++
      map (fun t => let m := fst t in let n := snd t in
          omp_zgessq lassq (tile_mview A m) (tile_nview A n) (tptr b A m n) (tile_mmain_band A m n)
            (pplus (w, 0) (n * lb_ldwork A + m - lb_start A n))
            (pplus (pplus (w, 0) (lb_ldwork A * d_nt A)) (n * lb_ldwork A + m - lb_start A n))) (lb_tiles A)) M
    (fun M' => (forall k j, 0 <= k < lb_ldwork A -> 0 <= j < ntl nb n ->
       ssq_ok (M' (w, lb_ldwork A * j + k), M' (w, lb_ldwork A * ntl nb n + (lb_ldwork A * j + k)))
         (if k + lb_start A j <=? lb_end A j
          then nsum (fun y => nsum (fun x => nmul (nabs (a x y)) (nabs (a x y)))
                 ((k + lb_start A j) * nb) (Z.min ((k + lb_start A j + 1) * nb) m)) (j * nb) (Z.min ((j + 1) * nb) n)
          else n0)) /\
               (forall l, fst l <> b -> fst l <> w -> M' l = M l)).
  Proof.
    intros lassq HL HC. pose proof gHZ as HZ. pose proof (gd_pos _ _ _ _ _ _ HA) as Hb.
    assert (NT : d_nt A = ntl nb n) by (exact (gd_nt _ _ _ _ _ _ HA)).
    remember (lb_ldwork A) as R eqn:ER.
    eapply region_mono; [|apply (gseg2 A nb m n kl ku b p ld w HA SQ H1 H2 H3 M a HR HZ) with (tm := fst) (tn := snd)
      (off := fun x => R * snd x + (fst x - lb_start A (snd x))) (S := R * ntl nb n)
      (val := fun x => gessq lassq (tsz nb m (fst x)) (tsz nb n (snd x)))].
    - intros M' (E1 & E2). split.
      + intros k j Hk Hj. pose proof (lb_start_pos A nb m n kl ku HA j) as SP.
        destruct (Z.leb_spec (k + lb_start A j) (lb_end A j)) as [L|G].
        * assert (HI : In (k + lb_start A j, j) (lb_tiles A)) by (apply (lb_in A nb m n kl ku HA); clear H1 H2 H3; lia).
          pose proof (E1 _ HI) as E. cbn [fst snd] in E.
          replace (R * j + (k + lb_start A j - lb_start A j)) with (R * j + k) in E by (clear; lia). rewrite E.
          eassert (K : _); [apply (gessq_ok lassq (tsz nb m (k + lb_start A j)) (tsz nb n j) (gtile nb a (k + lb_start A j) j) HL)|].
          match type of K with ssq_ok _ ?u => match goal with |- ssq_ok _ ?v => replace v with u; [exact K|] end end.
          unfold tsz. rewrite <- (tile_sum (fun y => nsum (fun x => nmul (nabs (a x y)) (nabs (a x y))) _ _)).
          apply nsum_ext. intros y _.
          rewrite <- (tile_sum (fun x => nmul (nabs (a x (j * nb + y))) (nabs (a x (j * nb + y))))). reflexivity.
        * assert (OUT : forall x, In x (lb_tiles A) -> R * snd x + (fst x - lb_start A (snd x)) <> R * j + k).
          { intros [i' j'] Hx E. destruct (gview _ Hx) as (X1 & X2 & X3 & _). cbn [fst snd] in *. rewrite <- ER in X3.
            destruct (pos_inj R j' j _ k X3 Hk E) as [-> E4]. apply (lb_in A nb m n kl ku HA) in Hx. clear -G Hx E4. lia. }
          assert (OB : 0 <= R * j + k < R * ntl nb n) by (clear -Hk Hj; nia).
          assert (IB : forall x, In x (lb_tiles A) -> 0 <= R * snd x + (fst x - lb_start A (snd x)) < R * ntl nb n).
          { intros x Hx. destruct (gview _ Hx) as (X1 & X2 & X3 & _). rewrite <- ER in X3. clear -X2 X3. nia. }
          rewrite !E2; cbn [fst]; try congruence.
          -- rewrite !HC by (clear -OB; lia). split; [apply nabs_0|]. split; [apply nabs_0|]. cbn. ring.
          -- intros x Hx. pose proof (OUT _ Hx) as O1. pose proof (IB _ Hx) as O2.
             split; intros E; injection E as E; [clear -E O2 OB; lia|apply O1; clear -E; lia].
          -- intros x Hx. pose proof (OUT _ Hx) as O1. pose proof (IB _ Hx) as O2.
             split; intros E; injection E as E; [apply O1; clear -E; lia|clear -E O2 OB; lia].
      + intros l L1 L2. apply E2; [assumption|]. intros x Hx. split; intros ->; apply L2; reflexivity.
    - apply (lb_NoDup A).
    - intros x Hx. apply gview. assumption.
    - intros x F F' Hx HF. apply (gessq_ext _ _ _ _ _ HF).
    - intros x Hx. destruct (gview _ Hx) as (X1 & X2 & X3 & _). rewrite <- ER in X3. clear -X2 X3. nia.
    - intros [i j] [i' j'] Hx Hy E. destruct (gview _ Hx) as (X1 & X2 & X3 & _). destruct (gview _ Hy) as (Y1 & Y2 & Y3 & _).
      cbn [fst snd] in *. rewrite <- ER in X3, Y3. destruct (pos_inj R j j' _ _ X3 Y3 E) as [-> E4]. f_equal. clear -E4. lia.
    - intros x Hx. destruct (gview _ Hx) as (_ & _ & _ & _ & _ & V5 & V6 & V7 & _).
      cbv zeta. rewrite V5, V6, V7, NT. unfold omp_zgessq, pplus. cbn [fst snd].
      replace (0 + (snd x * R + fst x - lb_start A (snd x))) with (R * snd x + (fst x - lb_start A (snd x))) by (clear; lia).
      replace (0 + R * ntl nb n + (snd x * R + fst x - lb_start A (snd x))) with (R * ntl nb n + (R * snd x + (fst x - lb_start A (snd x)))) by (clear; lia).
      reflexivity.
  Qed.
End Phases.
