(* The update task of plasma_pzgbtrf. *)
From Coq Require Import ZArith List Bool Lia Ring.
From Verif Require Import Base NumModel NumProofs FieldModel TaskModel TaskSpec TaskProofs DescModel DescSpec DescProofs
  DescPackProofs DescDriverModel MatModel MatSpec MatProofs RegionProofs LayoutModel OpProofs GemmModel GemmProofs TriModel TriVecProofs
  SwpModel SwpSpec SwpProofs LuProofs GridProofs GuardModel GuardSpec GuardProofs GuardProofs2 BandLayoutProofs NormGbLayoutProofs
  GetrfModel GetrfSpec GetrfAbsProofs GetrfPanelProofs GetrfProofs GetrfRegionProofs GbtrfModel GbtrfMathProofs GbtrfTaskProofs.
Import ListNotations.
Open Scope Z_scope.

Section Update.
  Context {F : fields}.
  Add Ring num_ring_gbu : (nring F).
  Variables (A : desc) (nb n kl ku b : Z) (pI : loc) (k c : Z).
  Hypothesis HA : gd_ok A nb n n kl ku.
  Hypothesis BK : band_ok A.
  Hypothesis Hk : 0 <= k.
  Hypothesis Hc : k < c < Z.min (ntl nb n) (k + d_kut A).

  (* rows of the step, columns of the two tile columns *)
  Definition uh : Z := gR A nb n k - k * nb.
  Definition uw : Z := pw nb n c.
  Definition uL (i j : Z) : loc :=
    if j <? nb then gE A b (k * nb + i) (k * nb + j) else gE A b (k * nb + i) (c * nb + (j - nb)).

  Lemma u_facts : 0 < nb /\ k * nb + nb <= c * nb /\ c * nb < n /\ 0 < uw <= nb /\ nb <= uh /\ c * nb + uw <= n /\
    pw nb n k = nb /\ ph nb n kl k <= uh /\ 0 < ph nb n kl k /\ uh <= n - k * nb /\ nb <= ph nb n kl k.
  Proof.
    pose proof (gf_pos A nb n kl ku HA) as NB. assert (CN : c * nb < n) by (apply (gf_T A nb n kl ku HA); lia).
    pose proof (gf_klt A nb n kl ku HA) as KT. pose proof (gd_kl0 _ _ _ _ _ _ HA).
    assert (k * nb + nb <= c * nb) by nia. unfold uh, uw, gR, ph, pw. lia.
  Qed.

  Lemma u_tbe : forall i j, 0 <= i < uh -> 0 <= j < nb + uw ->
    tbe A nb n (k * nb + i) (if j <? nb then k * nb + j else c * nb + (j - nb)).
  Proof.
    intros i j Hi Hj. destruct u_facts as (U1 & U2 & U3 & U4 & U5 & U6 & U7 & U8 & U9 & U10 & U11). unfold uh in Hi. unfold uw in *.
    destruct (Z.ltb_spec j nb).
    - apply (gR_tbe A nb n kl ku HA k k); try lia.
    - apply (gR_tbe A nb n kl ku HA k c); try lia.
  Qed.

  Lemma u_inj : forall s x s' x', 0 <= s < uh -> 0 <= x < nb + uw -> 0 <= s' < uh -> 0 <= x' < nb + uw ->
    uL s x = uL s' x' -> s = s' /\ x = x'.
  Proof.
    intros s x s' x' Hs Hx Hs' Hx' E. destruct u_facts as (U1 & U2 & U3 & U4 & U5 & U6 & U7 & U8 & U9 & U10 & U11).
    pose proof (u_tbe s x Hs Hx) as T. pose proof (u_tbe s' x' Hs' Hx') as T'. unfold uL in E.
    destruct (Z.ltb_spec x nb), (Z.ltb_spec x' nb); apply (gf_inj A nb n kl ku b HA BK) in E; try assumption; lia.
  Qed.

  Lemma u_at_k : forall r i j, 0 <= r -> 0 <= i < nb -> 0 <= j < nb -> at_ (tptr b A (k + r) k) nb i j = uL (r * nb + i) j.
  Proof.
    intros r i j Hr Hi Hj. rewrite (gf_at A nb n kl ku b HA) by lia. unfold uL. destruct (Z.ltb_spec j nb); [|lia].
    f_equal; ring.
  Qed.
  Lemma u_at_c : forall r i j, 0 <= r -> 0 <= i < nb -> 0 <= j < nb -> at_ (tptr b A (k + r) c) nb i j = uL (r * nb + i) (nb + j).
  Proof.
    intros r i j Hr Hi Hj. rewrite (gf_at A nb n kl ku b HA) by lia. unfold uL. destruct (Z.ltb_spec (nb + j) nb); [lia|].
    f_equal; ring.
  Qed.

  (* row interchanges *)
  Definition u_ok (p : Z -> Z) : bool := forallb (fun i => (1 <=? p i) && (p i <=? ph nb n kl k)) (zrange 0 nb).

  Lemma u_ok_spec : forall p, u_ok p = true <-> forall t, 0 <= t < nb -> 1 <= p t <= ph nb n kl k.
  Proof.
    intros p. unfold u_ok. rewrite forallb_forall. split.
    - intros H t Ht. specialize (H t (proj2 (in_zrange _ _ _) Ht)). rewrite andb_true_iff, !Z.leb_le in H. assumption.
    - intros H t Ht. apply in_zrange in Ht. rewrite andb_true_iff, !Z.leb_le. auto.
  Qed.

  Definition u_swaps (p : Z -> Z) (X : Z -> Z -> F) (i j : Z) : F :=
    if u_ok p && ((nb <=? j) && (j <? nb + uw)) then X (perm (fun t => p t - 1) 0 nb i) j else X i j.

  Lemma u_row_eff : forall r piv, 0 <= r < ph nb n kl k -> 0 <= piv r - 1 < ph nb n kl k ->
    eff uh (nb + uw) uL (fun M : mem F => swp_row b (gb_view A k c) piv M r) (a_swap r (piv r - 1) nb uw).
  Proof.
    intros r piv Hr Hp. destruct u_facts as (U1 & U2 & U3 & U4 & U5 & U6 & U7 & U8 & U9 & U10 & U11).
    destruct (gf_view A nb n kl ku HA BK k c Hk ltac:(lia)) as (GW & W1 & W2 & W3 & W4 & W5).
    remember (gb_view A k c) as W eqn:EW. clear EW. fold uw in W2, W5.
    unfold swp_row. destruct (Z.eqb_spec (piv r - 1) r) as [E|E].
    - apply (eff_ext uh (nb + uw) uL (fun M : mem F => M) (fun X => X)); [apply eff_id|].
      intros X i j Hi Hj. unfold a_swap. rewrite E, transposed_same. destruct (_ && _); reflexivity.
    - cbv zeta. rewrite W2, W3.
      assert (AT : forall s x, 0 <= s < ph nb n kl k -> 0 <= x < uw ->
        at_ (fst (tptr b W (s / nb) 0), snd (tptr b W (s / nb) 0) + s mod nb) (tile_mmain W (s / nb)) 0 x = uL s (nb + x)).
      { intros s x Hs Hx. destruct (row_tile W s (gk_shape W GW) ltac:(lia)) as [T1 T2]. rewrite W3 in T1, T2.
        pose proof (sim_at b W GW ltac:(lia) ltac:(lia) (s / nb) (s mod nb) x T1 T2 ltac:(lia)) as S.
        rewrite W3 in S. replace (s / nb * nb + s mod nb) with s in S
          by (pose proof (Z.div_mod s nb ltac:(lia)); lia). rewrite W5 in S by lia.
        unfold uL. destruct (Z.ltb_spec (nb + x) nb); [lia|]. replace (nb + x - nb) with x by lia. unfold gE.
        rewrite <- S. unfold at_. cbn [fst snd]. f_equal. lia. }
      apply (eff_swap uh (nb + uw) uL u_inj); try lia.
      + intros x Hx. apply AT; assumption.
      + intros x Hx. apply AT; assumption.
  Qed.

  Lemma u_swaps_eff : forall piv, u_ok piv = true ->
    eff uh (nb + uw) uL (core_zgeswp (V := F) PlasmaRowwise b (gb_view A k c) 1 nb piv 1) (u_swaps piv).
  Proof.
    intros piv HP. destruct u_facts as (U1 & U2 & U3 & U4 & U5 & U6 & U7 & U8 & U9 & U10 & U11).
    pose proof (proj1 (u_ok_spec piv) HP) as H.
    unfold core_zgeswp. change (PlasmaRowwise =? PlasmaRowwise) with true. cbv iota. rewrite (swp_indices_one A). replace (1 - 1) with 0 by lia.
    apply (eff_ext uh (nb + uw) uL _ (fun X => fold_left (fun X t => a_swap t (piv t - 1) nb uw X) (zrange 0 nb) X)).
    - apply (eff_fold uh (nb + uw) uL (swp_row b (gb_view A k c) piv) (fun X t => a_swap t (piv t - 1) nb uw X)).
      intros t Ht. apply in_zrange in Ht. specialize (H t Ht). apply u_row_eff; lia.
    - intros X i j Hi Hj. rewrite (a_swap_fold F (fun t => piv t - 1)). unfold u_swaps. rewrite HP. cbn [andb]. reflexivity.
  Qed.

  Definition u_tail (X : Z -> Z -> F) (i j : Z) : F :=
    if (nb <=? i) && ((nb <=? j) && (j <? nb + uw))
    then nadd (X i j) (nopp (nsum (fun t => nmul (X i t) (X t j)) 0 nb))
    else X i j.

  Lemma u_tail_eff :
    eff uh (nb + uw) uL (fun M : mem F => fold_left (fun M m =>
      core_zgemm PlasmaNoTrans PlasmaNoTrans (tile_mview A m) (tile_nview A c) (d_nb A)
        (nopp n1) (tptr b A m k) (tile_mmain_band A m k) (tptr b A k c) (tile_mmain_band A k c)
        n1 (tptr b A m c) (tile_mmain_band A m c) M)
      (zrange (Z.max (k + 1) (c - d_kut A)) (Z.min (k + d_klt A) (d_mt A))) M) u_tail.
  Proof.
    destruct u_facts as (U1 & U2 & U3 & U4 & U5 & U6 & U7 & U8 & U9 & U10 & U11). rewrite (gd_mt _ _ _ _ _ _ HA).
    replace (Z.max (k + 1) (c - d_kut A)) with (k + 1) by lia. pose proof (gf_klt1 A BK) as K1.
    remember (Z.min (k + d_klt A) (ntl nb n)) as H eqn:EH.
    assert (EU : uh = Z.min n (H * nb) - k * nb).
    { unfold uh, gR. subst H. pose proof (gf_T_ge A nb n kl ku HA). rewrite <- Z.mul_min_distr_nonneg_r by lia. lia. }
    apply (eff_ext uh (nb + uw) uL _ (fun X => fold_left (fun X r => a_gemm ((r - k) * nb) (pw nb n r) nb uw 0 nb X) (zrange (k + 1) H) X)).
    - apply (eff_fold uh (nb + uw) uL _ (fun X r => a_gemm ((r - k) * nb) (pw nb n r) nb uw 0 nb X)).
      intros r Hr. apply in_zrange in Hr. rewrite !(gf_mainb A nb n kl ku HA), (gf_nb A nb n kl ku HA), (gf_mv A nb n kl ku HA), (gf_nv A nb n kl ku HA) by lia.
      fold uw. assert (RN : r * nb < n) by (apply (gf_T A nb n kl ku HA); lia).
      assert (KR : k * nb + nb <= r * nb) by nia. assert (RH : (r + 1) * nb <= H * nb) by nia.
      assert (RK : (r - k) * nb = r * nb - k * nb) by ring. assert (PR : 0 < pw nb n r <= nb /\ r * nb + pw nb n r <= n) by (unfold pw; lia).
      apply (eff_gemm uh (nb + uw) uL u_inj); try lia.
      + intros i l Hi Hl. pose proof (u_at_k (r - k) i l ltac:(lia) ltac:(lia) ltac:(lia)) as S. replace (k + (r - k)) with r in S by lia. rewrite S. f_equal; lia.
      + intros l i Hl Hi. pose proof (u_at_c 0 l i ltac:(lia) ltac:(lia) ltac:(lia)) as S. replace (k + 0) with k in S by lia. rewrite S. f_equal; lia.
      + intros i l Hi Hl. pose proof (u_at_c (r - k) i l ltac:(lia) ltac:(lia) ltac:(lia)) as S. replace (k + (r - k)) with r in S by lia. rewrite S. f_equal; lia.
    - intros X i j Hi Hj.
      assert (E : forall h, k + 1 <= h <= H -> forall i j, 0 <= i < uh -> 0 <= j < nb + uw ->
        fold_left (fun X r => a_gemm ((r - k) * nb) (pw nb n r) nb uw 0 nb X) (zrange (k + 1) h) X i j =
        if (nb <=? i) && (i <? (h - k) * nb) && ((nb <=? j) && (j <? nb + uw))
        then nadd (X i j) (nopp (nsum (fun t => nmul (X i t) (X t j)) 0 nb)) else X i j).
      { intros h. pattern h. apply (zrange_ind_hi _ (k + 1)); clear h i j Hi Hj.
        - intros h Hh Hh2 i j Hi Hj. rewrite zrange_nil by assumption. cbn [fold_left].
          replace h with (k + 1) by lia. replace ((k + 1 - k) * nb) with nb by ring.
          destruct (Z.leb_spec nb i), (Z.ltb_spec i nb); cbn [andb]; try reflexivity. lia.
        - intros h Hh IH Hh2 i j Hi Hj. rewrite zrange_snoc, fold_left_app by assumption. cbn [fold_left].
          specialize (IH ltac:(lia)). assert (HN : h * nb < n) by (apply (gf_T A nb n kl ku HA); lia).
          assert (KH : nb <= (h - k) * nb) by nia. replace ((h + 1 - k) * nb) with ((h - k) * nb + nb) by ring.
          assert (HK : (h - k) * nb = h * nb - k * nb) by ring. assert (PH : 0 < pw nb n h <= nb /\ (pw nb n h = nb \/ h * nb + pw nb n h = n)) by (unfold pw; lia).
          unfold a_gemm. destruct (ablk_spec ((h - k) * nb) (pw nb n h) nb uw i j) as [[B1 B2]|B].
          + rewrite IH by assumption.
            destruct (Z.ltb_spec i ((h - k) * nb)) as [|_]; [lia|]. rewrite andb_false_r. cbn [andb].
            destruct (Z.leb_spec nb i), (Z.ltb_spec i ((h - k) * nb + nb)), (Z.leb_spec nb j),
              (Z.ltb_spec j (nb + uw)); try lia. cbn [andb]. f_equal. f_equal.
            apply (nsum_ext F). intros t Ht. rewrite !IH by lia.
            destruct (Z.leb_spec nb t); [lia|]. cbn [andb]. rewrite andb_false_r. reflexivity.
          + rewrite IH by assumption.
            destruct (Z.leb_spec nb i), (Z.ltb_spec i ((h - k) * nb)), (Z.ltb_spec i ((h - k) * nb + nb)), (Z.leb_spec nb j),
              (Z.ltb_spec j (nb + uw)); cbn [andb]; try reflexivity; lia. }
      assert (H1 : k + 1 <= H) by lia.
      assert (HK : (H - k) * nb = H * nb - k * nb) by ring.
      rewrite E by (try assumption; lia). unfold u_tail. destruct (Z.ltb_spec i ((H - k) * nb)); [|lia].
      rewrite andb_true_r. reflexivity.
  Qed.

  Definition u_fun (p : Z -> Z) (X : Z -> Z -> F) : Z -> Z -> F := u_tail (a_trsm 0 nb nb uw (u_swaps p X)).

  Definition ustate (M : mem (cell F)) (X : Z -> Z -> F) : Prop :=
    forall i j, 0 <= i < uh -> 0 <= j < nb + uw -> fst (M (uL i j)) = X i j.

  Lemma on_nums_eff : forall f g, eff uh (nb + uw) uL f g -> forall M X, ustate M X ->
    ustate (on_nums f M) (g X) /\ (forall l, ~ panel uh (nb + uw) uL l -> on_nums f M l = M l) /\ (forall l, snd (on_nums f M l) = snd (M l)).
  Proof.
    intros f g E M X S. destruct (E (nums M) X S) as [E1 E2]. split; [|split].
    - intros i j Hi Hj. apply E1; assumption.
    - intros l Hl. unfold on_nums. rewrite E2 by assumption. symmetry. apply surjective_pairing.
    - reflexivity.
  Qed.

  Lemma upd_sim : forall M X p, ustate M X -> (forall t, 0 <= t < nb -> ipiv_rd M (gb_ipiv A pI k) t = p t) ->
    let M' := gb_update_fun b A pI k c M in
    ustate M' (u_fun p X) /\ (forall l, ~ panel uh (nb + uw) uL l -> M' l = M l) /\ (forall l, snd (M' l) = snd (M l)).
  Proof.
    intros M X p S HP. cbv zeta. destruct u_facts as (U1 & U2 & U3 & U4 & U5 & U6 & U7 & U8 & U9 & U10 & U11).
    unfold gb_update_fun. cbv zeta.
    assert (S1 : ustate (gb_swap b A pI k c M) (u_swaps p X) /\
      (forall l, ~ panel uh (nb + uw) uL l -> gb_swap b A pI k c M l = M l) /\ (forall l, snd (gb_swap b A pI k c M l) = snd (M l))).
    { unfold gb_swap. cbv zeta. rewrite (gf_mb A nb n kl ku HA), (gf_rows A nb n kl ku HA), (gd_m _ _ _ _ _ _ HA) by lia.
      replace (Z.min (k * nb + nb) n - (k * nb + 1) + 1) with nb by lia.
      fold (u_ok (ipiv_rd M (gb_ipiv A pI k))). destruct (u_ok (ipiv_rd M (gb_ipiv A pI k))) eqn:EO.
      - pose proof (proj1 (u_ok_spec _) EO) as O.
        destruct (on_nums_eff _ _ (u_swaps_eff _ EO) M X S) as (E1 & E2 & E3). split; [|auto].
        intros i j Hi Hj. rewrite E1 by assumption. unfold u_swaps. rewrite EO.
        replace (u_ok p) with true; [|symmetry; apply u_ok_spec; intros t Ht; rewrite <- HP by assumption; auto].
        destruct (true && _); [|reflexivity]. f_equal. apply perm_ext. intros t Ht. rewrite HP by assumption. reflexivity.
      - split; [|auto]. intros i j Hi Hj. unfold u_swaps. replace (u_ok p) with false; [apply S; assumption|].
        symmetry. apply not_true_iff_false. intros E. apply not_true_iff_false in EO. apply EO. apply u_ok_spec. intros t Ht.
        rewrite HP by assumption. apply (proj1 (u_ok_spec p) E t Ht). }
    destruct S1 as (S1 & F1 & P1). remember (gb_swap b A pI k c M) as M1 eqn:E1. clear E1.
    rewrite (gf_mv A nb n kl ku HA k), (gf_nv A nb n kl ku HA c), U7, !(gf_mainb A nb n kl ku HA) by lia. fold uw.
    assert (ET : eff uh (nb + uw) uL (core_ztrsm (F := F) PlasmaLeft PlasmaLower PlasmaNoTrans PlasmaUnit nb uw n1 (tptr b A k k) nb (tptr b A k c) nb)
                   (a_trsm 0 nb nb uw)).
    { apply (eff_trsm uh (nb + uw) uL u_inj); try lia.
      - intros i l Hi Hl. pose proof (u_at_k 0 i l ltac:(lia) ltac:(lia) ltac:(lia)) as Q. replace (k + 0) with k in Q by lia. rewrite Q. f_equal; lia.
      - intros i l Hi Hl. pose proof (u_at_c 0 i l ltac:(lia) ltac:(lia) ltac:(lia)) as Q. replace (k + 0) with k in Q by lia. rewrite Q. f_equal; lia. }
    destruct (on_nums_eff _ _ ET M1 _ S1) as (S2 & F2 & P2).
    remember (on_nums (core_ztrsm PlasmaLeft PlasmaLower PlasmaNoTrans PlasmaUnit nb uw n1 (tptr b A k k) nb (tptr b A k c) nb) M1) as M2 eqn:E2. clear E2.
    pose proof u_tail_eff as EG. rewrite (gf_nv A nb n kl ku HA c) in EG by lia. fold uw in EG.
    destruct (on_nums_eff _ _ EG M2 _ S2) as (S3 & F3 & P3).
    rewrite ?(gf_mainb A nb n kl ku HA k c) in S3, F3, P3.
    assert (EQ : forall MM : mem F, fold_left (fun M m => core_zgemm PlasmaNoTrans PlasmaNoTrans (tile_mview A m) uw (d_nb A)
        (nopp n1) (tptr b A m k) (tile_mmain_band A m k) (tptr b A k c) nb n1 (tptr b A m c) (tile_mmain_band A m c) M)
        (zrange (Z.max (k + 1) (c - d_kut A)) (Z.min (k + d_klt A) (d_mt A))) MM =
      fold_left (fun M m => core_zgemm PlasmaNoTrans PlasmaNoTrans (tile_mview A m) uw (d_nb A)
        (nopp n1) (tptr b A m k) nb (tptr b A k c) nb n1 (tptr b A m c) nb M)
        (zrange (Z.max (k + 1) (c - d_kut A)) (Z.min (k + d_klt A) (d_mt A))) MM).
    { intros MM. apply fold_left_ext_in. intros a m _. rewrite !(gf_mainb A nb n kl ku HA). reflexivity. }
    split; [|split].
    - intros i j Hi Hj. specialize (S3 i j Hi Hj). unfold on_nums in S3 |- *. cbn [fst] in S3 |- *.
      first [exact S3 | rewrite EQ in S3; exact S3 | rewrite <- EQ; exact S3].
    - intros l Hl. rewrite <- F1, <- F2 by assumption. rewrite <- F3 by assumption. unfold on_nums. f_equal.
      all: try (first [reflexivity | rewrite EQ; reflexivity | rewrite <- EQ; reflexivity]).
    - intros l. rewrite <- P1, <- P2. reflexivity.
  Qed.

  Lemma u_fun_left : forall p X i j, 0 <= j < nb -> u_fun p X i j = X i j.
  Proof.
    intros p X i j Hj. unfold u_fun, u_tail, a_trsm, u_swaps, ablk.
    destruct (Z.leb_spec nb j); [lia|]. cbn [andb]. rewrite ?andb_false_r. cbn [andb]. reflexivity.
  Qed.

  Lemma u_fun_eq : forall p X i j, u_ok p = true -> 0 <= i < uh -> nb <= j < nb + uw ->
    X (perm (fun t => p t - 1) 0 nb i) j =
    nadd (nsum (fun t => nmul (X i t) (u_fun p X t j)) 0 (Z.min nb i)) (u_fun p X i j).
  Proof.
    intros p X i j HP Hi Hj. destruct u_facts as (U1 & U2 & U3 & U4 & U5 & U6 & U7 & U8 & U9 & U10 & U11).
    remember (u_swaps p X) as Y eqn:EY.
    assert (Y1 : Y i j = X (perm (fun t => p t - 1) 0 nb i) j).
    { subst Y. unfold u_swaps. rewrite HP. destruct (Z.leb_spec nb j), (Z.ltb_spec j (nb + uw)); try lia. reflexivity. }
    assert (Y2 : forall t, 0 <= t < nb -> Y i t = X i t).
    { intros t Ht. subst Y. unfold u_swaps. destruct (Z.leb_spec nb t); [lia|]. cbn [andb]. rewrite andb_false_r. reflexivity. }
    assert (U : forall t, 0 <= t < nb -> u_fun p X t j = a_trsm 0 nb nb uw Y t j).
    { intros t Ht. unfold u_fun, u_tail. rewrite <- EY. destruct (Z.leb_spec nb t); [lia|]. reflexivity. }
    rewrite <- Y1. destruct (Z_lt_le_dec i nb) as [L|L].
    - rewrite (a_trsm_spec 0 nb nb uw Y i j) by lia. rewrite Z.min_r by lia. rewrite (U i) by lia. f_equal.
      apply (nsum_ext F). intros t Ht. rewrite Y2, U by lia. reflexivity.
    - rewrite Z.min_l by lia. unfold u_fun at 2. unfold u_tail. rewrite <- EY.
      destruct (Z.leb_spec nb i), (Z.leb_spec nb j), (Z.ltb_spec j (nb + uw)); try lia. cbn [andb].
      assert (Z1 : forall t, a_trsm 0 nb nb uw Y i t = Y i t).
      { intros t. unfold a_trsm. destruct (ablk_spec 0 nb nb uw i t); [lia|reflexivity]. }
      rewrite Z1.
      rewrite (nsum_ext F (fun t => nmul (a_trsm 0 nb nb uw Y i t) (a_trsm 0 nb nb uw Y t j)) (fun t => nmul (X i t) (u_fun p X t j))).
      + ring.
      + intros t Ht. rewrite Z1, Y2, U by lia. reflexivity.
  Qed.
End Update.
