(* The LU factorization on the tile matrix: what its tasks do to the matrix and the pivots. *)
From Coq Require Import ZArith List Bool Lia Ring.
From Verif Require Import Base NumModel NumProofs FieldModel TaskModel TaskSpec TaskProofs DescModel DescSpec DescProofs
  DescDriverModel MatModel MatProofs RegionProofs LayoutModel TriModel TriVecProofs SwpModel SwpSpec SwpProofs LuProofs
  GridProofs GuardModel GuardSpec GuardProofs GuardProofs2 GetrfModel GetrfAbsProofs GetrfPanelProofs.
Import ListNotations.
Open Scope Z_scope.

Section Getrf.
  Context {F : fields}.
  Add Ring num_ring_getrf : (nring F).
  Variable bigger : F -> F -> bool.
  Variables (nb b : Z) (A : desc) (pI : loc) (ib mpt : Z).
  Hypothesis G : gen_ok A.
  Hypothesis Emb : d_mb A = nb.
  Hypothesis Enb : d_nb A = nb.
  Hypothesis Hm : 0 < d_m A.
  Hypothesis Hn : 0 < d_n A.
  Hypothesis Hib : 0 < ib.
  Hypothesis Hmpt : 0 < mpt.
  Hypothesis Hpi : fst pI <> b.

  Let m := d_m A.
  Let n := d_n A.
  Let q := Z.min m n.
  Let L (i j : Z) : loc := (b, elem_off A i j).
  Let SH := gk_shape A G.

  Lemma nb_pos : 0 < nb.
  Proof. rewrite <- Emb. apply (go_mb A SH). Qed.

  Lemma G_inj : forall s c s' c', 0 <= s < m -> 0 <= c < n -> 0 <= s' < m -> 0 <= c' < n ->
    L s c = L s' c' -> s = s' /\ c = c'.
  Proof. exact (L_inj b A G). Qed.

  Lemma mt_spec : d_mt A = (m - 1) / nb + 1.
  Proof. rewrite (mt_aligned A SH), Emb. fold m in Hm |- *. destruct (Z.eqb_spec m 0); [lia|reflexivity]. Qed.
  Lemma nt_spec : d_nt A = (n - 1) / nb + 1.
  Proof. rewrite (nt_aligned A SH), Enb. fold n in Hn |- *. destruct (Z.eqb_spec n 0); [lia|reflexivity]. Qed.
  Lemma mt_lt : forall k, 0 <= k < d_mt A -> k * nb < m.
  Proof. intros k Hk. rewrite mt_spec in Hk. pose proof nb_pos. pose proof (Z.mul_div_le (m - 1) nb ltac:(lia)). nia. Qed.
  Lemma nt_lt : forall k, 0 <= k < d_nt A -> k * nb < n.
  Proof. intros k Hk. rewrite nt_spec in Hk. pose proof nb_pos. pose proof (Z.mul_div_le (n - 1) nb ltac:(lia)). nia. Qed.
  Lemma mt_ge : m <= d_mt A * nb.
  Proof. rewrite mt_spec. pose proof nb_pos. pose proof (Z.mul_succ_div_gt (m - 1) nb ltac:(lia)). nia. Qed.
  Lemma nt_ge : n <= d_nt A * nb.
  Proof. rewrite nt_spec. pose proof nb_pos. pose proof (Z.mul_succ_div_gt (n - 1) nb ltac:(lia)). nia. Qed.
  Lemma mt_pos : 0 < d_mt A.
  Proof. pose proof mt_ge. pose proof nb_pos. unfold m in *. nia. Qed.
  Lemma nt_pos : 0 < d_nt A.
  Proof. pose proof nt_ge. pose proof nb_pos. unfold n in *. nia. Qed.
  Lemma mv_spec : forall k, 0 <= k < d_mt A -> tile_mview A k = Z.min nb (m - k * nb).
  Proof. intros k Hk. rewrite <- Emb. apply (mview_spec A k SH Hk). Qed.
  Lemma nv_spec : forall k, 0 <= k < d_nt A -> tile_nview A k = Z.min nb (n - k * nb).
  Proof. intros k Hk. rewrite <- Enb. apply (nview_spec A k SH Hk). Qed.
  Lemma mld : forall k, 0 <= k < d_mt A -> tile_mview A k <= tile_mmain A k.
  Proof.
    intros k Hk. apply (mmain_ge_mview A k SH); [|assumption]. rewrite (gk_type A G). discriminate.
  Qed.

  (* elements of tiles *)
  Lemma at_tile : forall k l r c, 0 <= k < d_mt A -> 0 <= l < d_nt A -> 0 <= r < tile_mview A k -> 0 <= c < tile_nview A l ->
    at_ (tptr b A k l) (tile_mmain A k) r c = L (k * nb + r) (l * nb + c).
  Proof.
    intros k l r c Hk Hl Hr Hc. unfold at_, tptr, L. cbn [fst snd]. rewrite <- Emb at 1. rewrite <- Enb at 1.
    rewrite (elem_off_tile A k l r c SH Hk Hl Hr Hc). reflexivity.
  Qed.

  (* views *)
  Lemma the_view_ok : forall r0 c0 h w, r0 mod nb = 0 -> c0 mod nb = 0 -> 0 <= r0 -> 0 <= c0 -> 0 <= h -> 0 <= w ->
    r0 + h <= m -> c0 + w <= n ->
    let W := the_view A r0 c0 h w in
    gen_ok W /\ d_m W = h /\ d_n W = w /\ d_mb W = nb /\ d_nb W = nb /\
    (forall r c, elem_off W r c = elem_off A (r0 + r) (c0 + c)).
  Proof.
    intros r0 c0 h w A1 A2 H1 H2 H3 H4 H5 H6. cbv zeta. unfold the_view. unfold m, n in *.
    destruct (desc_view_opt A r0 c0 h w) as [W|] eqn:EV.
    - destruct (view_ok A r0 c0 h w W G) as (GW & W1 & W2 & W3 & W4 & _ & _ & _ & W5); try assumption;
        try (rewrite Emb; assumption); try (rewrite Enb; assumption).
      split; [assumption|]. split; [assumption|]. split; [assumption|]. split; [congruence|]. split; [congruence|assumption].
    - exfalso. unfold desc_view_opt in EV. pose proof (go_im A G). pose proof (go_jn A SH).
      destruct (Z.ltb_spec (d_gm A) (d_i A + r0 + h)); [lia|].
      destruct (Z.ltb_spec (d_gn A) (d_j A + c0 + w)); [lia|discriminate].
  Qed.

  (* ---------------- row interchanges ---------------- *)

  Definition pivots_in (lo hi : Z) (p : Z -> Z) : bool :=
    forallb (fun t => (lo + 1 <=? p t) && (p t <=? m)) (zrange lo hi).

  Lemma pivots_in_spec : forall lo hi p, pivots_in lo hi p = true <-> (forall t, lo <= t < hi -> lo <= p t - 1 < m).
  Proof.
    intros lo hi p. unfold pivots_in. rewrite forallb_forall. split.
    - intros H t Ht. specialize (H t ltac:(apply in_zrange; assumption)).
      apply andb_true_iff in H. rewrite !Z.leb_le in H. lia.
    - intros H t Ht. apply in_zrange in Ht. apply H in Ht. apply andb_true_iff. rewrite !Z.leb_le. lia.
  Qed.

  Definition a_swaps (lo hi c0 w : Z) (p : Z -> Z) (X : Z -> Z -> F) (i j : Z) : F :=
    if pivots_in lo hi p && ((c0 <=? j) && (j <? c0 + w)) then X (perm (fun t => p t - 1) lo hi i) j else X i j.

  Lemma swp_row_eff : forall c w r piv, 0 <= c < d_nt A -> 0 < w <= tile_nview A c -> 0 <= r < m -> 0 <= piv r - 1 < m ->
    eff m n L (fun M : mem F => swp_row b (the_view A 0 (c * d_nb A) (d_m A) w) piv M r) (a_swap r (piv r - 1) (c * nb) w).
  Proof.
    intros c w r piv Hc Hw Hr Hp. pose proof (nv_spec c Hc) as NV. pose proof (nt_lt c Hc). pose proof nb_pos.
    unfold swp_row. rewrite Enb.
    destruct (the_view_ok 0 (c * nb) (d_m A) w) as (GW & W1 & W2 & W3 & W4 & W5); try lia.
    { apply Z.mod_0_l. lia. } { apply Z.mod_mul. lia. }
    remember (the_view A 0 (c * nb) (d_m A) w) as W eqn:EW. clear EW.
    destruct (Z.eqb_spec (piv r - 1) r) as [E|E].
    - apply (eff_ext m n L (fun M : mem F => M) (fun X => X)); [apply eff_id|].
      intros X i j Hi Hj. unfold a_swap. rewrite E, transposed_same. destruct (_ && _); reflexivity.
    - cbv zeta. rewrite W2, W3.
      assert (AT : forall s x, 0 <= s < m -> 0 <= x < w ->
        at_ (fst (tptr b W (s / nb) 0), snd (tptr b W (s / nb) 0) + s mod nb) (tile_mmain W (s / nb)) 0 x = L s (c * nb + x)).
      { intros s x Hs Hx. destruct (row_tile W s (gk_shape W GW) ltac:(lia)) as [T1 T2]. rewrite W3 in T1, T2.
        pose proof (sim_at b W GW ltac:(lia) ltac:(lia) (s / nb) (s mod nb) x T1 T2 ltac:(lia)) as S.
        rewrite W3, W5 in S. replace (0 + (s / nb * nb + s mod nb)) with s in S
          by (pose proof (Z.div_mod s nb ltac:(lia)); lia).
        unfold L. rewrite <- S. unfold at_. cbn [fst snd]. f_equal. lia. }
      apply (eff_swap m n L G_inj); try lia.
      + intros x Hx. apply AT; assumption.
      + intros x Hx. apply AT; assumption.
  Qed.

  Lemma swp_indices_one : forall k1 k2, swp_indices k1 k2 1 = zrange (k1 - 1) k2.
  Proof.
    intros k1 k2. unfold swp_indices. change (0 <? 1) with true. cbv iota. rewrite Z.div_1_r.
    rewrite (map_ext _ (fun t => t + (k1 - 1))) by (intros; lia).
    pattern k2. apply (zrange_ind_hi _ (k1 - 1)); clear k2.
    - intros k2 H. rewrite !zrange_nil by lia. reflexivity.
    - intros k2 H IH. rewrite (zrange_snoc (k1 - 1)) by assumption. rewrite <- IH.
      replace (k2 + 1 - k1 + 1) with (k2 - k1 + 1 + 1) by lia. rewrite zrange_snoc by lia. rewrite map_app. cbn [map].
      f_equal. f_equal. lia.
  Qed.

  Lemma sim_swaps : forall M0 M X p c w lo hi, st b A pI M0 M X p -> 0 <= c < d_nt A -> 0 < w <= tile_nview A c ->
    0 <= lo -> hi <= q ->
    st b A pI M0 (swap_rows b A pI w c (lo + 1) hi M) (a_swaps lo hi (c * nb) w p X) p.
  Proof.
    intros M0 M X p c w lo hi S Hc Hw Hlo Hhi. unfold swap_rows, a_swaps. replace (lo + 1 - 1) with lo by lia.
    assert (EP : forall t, lo <= t < hi -> ipiv_rd M pI t = p t).
    { intros t Ht. apply (st_rd b A pI M0 M X p t S). fold m n q. lia. }
    assert (E : forallb (fun i => (lo + 1 <=? ipiv_rd M pI i) && (ipiv_rd M pI i <=? d_m A)) (zrange lo hi) = pivots_in lo hi p).
    { unfold pivots_in, m. generalize EP. pattern hi. apply (zrange_ind_hi _ lo); clear.
      - intros hi Hh _. rewrite zrange_nil by assumption. reflexivity.
      - intros hi Hh IH EP. rewrite zrange_snoc, !forallb_app by assumption. rewrite IH by (intros; apply EP; lia).
        cbn [forallb]. rewrite EP by lia. reflexivity. }
    rewrite E. destruct (pivots_in lo hi p) eqn:EI; cbn [andb].
    - pose proof (proj1 (pivots_in_spec lo hi p) EI) as HP.
      apply (st_ext b A pI M0 _ (fold_left (fun X t => a_swap t (ipiv_rd M pI t - 1) (c * nb) w X) (zrange lo hi) X) _ p p).
      + apply (st_nums b A pI M0 M X p _ (fun X => fold_left (fun X t => a_swap t (ipiv_rd M pI t - 1) (c * nb) w X) (zrange lo hi) X));
          [|assumption].
        unfold core_zgeswp. change (PlasmaRowwise =? PlasmaRowwise) with true. cbv iota. rewrite swp_indices_one.
        replace (lo + 1 - 1) with lo by lia.
        apply (eff_fold m n L (swp_row b (the_view A 0 (c * d_nb A) (d_m A) w) (ipiv_rd M pI))
                 (fun X t => a_swap t (ipiv_rd M pI t - 1) (c * nb) w X)).
        intros t Ht. apply in_zrange in Ht. apply swp_row_eff; try assumption; [unfold q in *; lia|].
        rewrite EP by assumption. specialize (HP t Ht). lia.
      + intros i j Hi Hj. rewrite (a_swap_fold F (fun t => ipiv_rd M pI t - 1)). destruct (_ && _); [|reflexivity].
        f_equal. apply perm_ext. intros t Ht. rewrite EP by assumption. reflexivity.
      + auto.
    - exact S.
  Qed.

  (* ---------------- the update of a tile column ---------------- *)

  Definition a_tail (k c : Z) (X : Z -> Z -> F) (i j : Z) : F :=
    if (k * nb + nb <=? i) && ((c * nb <=? j) && (j <? c * nb + tile_nview A c))
    then nadd (X i j) (nopp (nsum (fun t => nmul (X i t) (X t j)) (k * nb) (k * nb + nb)))
    else X i j.

  Definition a_upd (k c : Z) (p : Z -> Z) (X : Z -> Z -> F) : Z -> Z -> F :=
    a_tail k c (a_trsm (k * nb) (tile_mview A k) (c * nb) (tile_nview A c)
      (a_swaps (k * nb) (Z.min (k * nb + nb) m) (c * nb) (tile_nview A c) p X)).

  Lemma tail_eff : forall k c, 0 <= k < d_mt A -> k < c < d_nt A ->
    eff m n L (fun M : mem F => fold_left (fun M r =>
        core_zgemm PlasmaNoTrans PlasmaNoTrans (tile_mview A r) (tile_nview A c) (d_nb A)
          (nopp n1) (tptr b A r k) (tile_mmain A r) (tptr b A k c) (tile_mmain A k) n1 (tptr b A r c) (tile_mmain A r) M)
      (zrange (k + 1) (d_mt A)) M) (a_tail k c).
  Proof.
    intros k c Hk Hc. pose proof nb_pos as NB. pose proof mt_ge as MG. pose proof (nt_lt c ltac:(lia)) as NL.
    pose proof (nv_spec c ltac:(lia)) as NVC. pose proof (nv_spec k ltac:(lia)) as NVK.
    assert (KN : k * nb + nb <= c * nb) by nia.
    apply (eff_ext m n L _ (fun X => fold_left (fun X r => a_gemm (r * nb) (tile_mview A r) (c * nb) (tile_nview A c) (k * nb) nb X)
             (zrange (k + 1) (d_mt A)) X)).
    - apply (eff_fold m n L _ (fun X r => a_gemm (r * nb) (tile_mview A r) (c * nb) (tile_nview A c) (k * nb) nb X)).
      intros r Hr. apply in_zrange in Hr. rewrite Enb. pose proof (mt_lt r ltac:(lia)) as RL.
      pose proof (mv_spec r ltac:(lia)) as MVR. pose proof (mv_spec k ltac:(lia)) as MVK.
      assert (KR : k * nb + nb <= r * nb) by nia.
      apply (eff_gemm m n L G_inj); try lia; try nia.
      + apply mld. lia.
      + intros i l Hi Hl. apply at_tile; lia.
      + intros l i Hl Hi. apply at_tile; lia.
      + intros i l Hi Hl. apply at_tile; lia.
    - intros X i j Hi Hj.
      assert (E : forall h, k + 1 <= h <= d_mt A -> forall i j, 0 <= i < m -> 0 <= j < n ->
        fold_left (fun X r => a_gemm (r * nb) (tile_mview A r) (c * nb) (tile_nview A c) (k * nb) nb X) (zrange (k + 1) h) X i j =
        if (k * nb + nb <=? i) && (i <? h * nb) && ((c * nb <=? j) && (j <? c * nb + tile_nview A c))
        then nadd (X i j) (nopp (nsum (fun t => nmul (X i t) (X t j)) (k * nb) (k * nb + nb))) else X i j).
      { intros h. pattern h. apply (zrange_ind_hi _ (k + 1)); clear h i j Hi Hj.
        - intros h Hh Hh2 i j Hi Hj. rewrite zrange_nil by assumption. cbn [fold_left].
          destruct (Z.leb_spec (k * nb + nb) i), (Z.ltb_spec i (h * nb)); cbn [andb]; try reflexivity. nia.
        - intros h Hh IH Hh2 i j Hi Hj. rewrite zrange_snoc, fold_left_app by assumption. cbn [fold_left].
          specialize (IH ltac:(lia)). pose proof (mv_spec h ltac:(lia)) as MVH. pose proof (mt_lt h ltac:(lia)) as HL.
          assert (KH : k * nb + nb <= h * nb) by nia. replace ((h + 1) * nb) with (h * nb + nb) by ring.
          unfold a_gemm. destruct (ablk_spec (h * nb) (tile_mview A h) (c * nb) (tile_nview A c) i j) as [[B1 B2]|B].
          + rewrite IH by assumption.
            destruct (Z.ltb_spec i (h * nb)) as [|_]; [lia|]. rewrite andb_false_r. cbn [andb].
            destruct (Z.leb_spec (k * nb + nb) i), (Z.ltb_spec i (h * nb + nb)), (Z.leb_spec (c * nb) j),
              (Z.ltb_spec j (c * nb + tile_nview A c)); try lia. cbn [andb]. f_equal. f_equal.
            apply (nsum_ext F). intros t Ht. rewrite !IH by lia.
            destruct (Z.leb_spec (c * nb) t); [lia|]. cbn [andb]. rewrite andb_false_r.
            destruct (Z.leb_spec (k * nb + nb) t); [lia|]. cbn [andb]. reflexivity.
          + rewrite IH by assumption.
            destruct (Z.leb_spec (k * nb + nb) i), (Z.ltb_spec i (h * nb)), (Z.ltb_spec i (h * nb + nb)), (Z.leb_spec (c * nb) j),
              (Z.ltb_spec j (c * nb + tile_nview A c)); cbn [andb]; try reflexivity; lia. }
      rewrite E by (try assumption; lia). unfold a_tail. destruct (Z.ltb_spec i (d_mt A * nb)); [|lia].
      rewrite andb_true_r. reflexivity.
  Qed.

  Lemma sim_upd : forall M0 M X p k c, st b A pI M0 M X p -> 0 <= k < d_mt A -> k < c < d_nt A ->
    st b A pI M0 (update_fun b A pI k c M) (a_upd k c p X) p.
  Proof.
    intros M0 M X p k c S Hk Hc. pose proof nb_pos as NB. pose proof (nt_lt c ltac:(lia)) as NL.
    pose proof (nv_spec c ltac:(lia)) as NVC. pose proof (nv_spec k ltac:(lia)) as NVK. pose proof (mv_spec k Hk) as MVK.
    pose proof (mt_lt k Hk) as KL. assert (KN : k * nb + nb <= c * nb) by nia.
    unfold update_fun, a_upd. cbv zeta. rewrite Emb.
    apply (st_nums b A pI M0 _ _ p _ (a_tail k c)); [exact (tail_eff k c Hk Hc)|].
    apply (st_nums b A pI M0 _ _ p _ (a_trsm (k * nb) (tile_mview A k) (c * nb) (tile_nview A c))).
    - apply (eff_trsm m n L G_inj); try lia; try nia.
      + apply mld. assumption.
      + intros i l Hi Hl. apply at_tile; lia.
      + intros l i Hl Hi. apply at_tile; lia.
    - apply sim_swaps; try lia; assumption.
  Qed.

  (* ---------------- the panel ---------------- *)

  Definition pan (k : Z) (p : Z -> Z) (X : Z -> Z -> F) : ast (F := F) :=
    a_getrf bigger (m - k * nb) (tile_nview A k) nb ib (Z.min mpt (Z.min (d_mt A) (d_nt A) - k))
      (fun i j => X (k * nb + i) (k * nb + j)) (fun t => p (k * nb + t)).

  (* the panel's part of the pivots *)
  Definition pq (k : Z) : Z := Z.min (m - k * nb) (tile_nview A k).

  Definition a_pan (k : Z) (p : Z -> Z) (X : Z -> Z -> F) (i j : Z) : F :=
    if (k * nb <=? i) && (k * nb <=? j) && (j <? k * nb + tile_nview A k)
    then aX (pan k p X) (i - k * nb) (j - k * nb) else X i j.
  Definition a_panp (k : Z) (p : Z -> Z) (X : Z -> Z -> F) (t : Z) : Z :=
    if (k * nb <=? t) && (t <? k * nb + pq k) then aP (pan k p X) (t - k * nb) + k * nb else p t.

  Definition pview (k : Z) : desc := the_view A (k * nb) (k * nb) (m - k * nb) (tile_nview A k).
  Definition ppiv (k : Z) : loc := (fst pI, snd pI + k * nb).

  Lemma pview_ok : forall k, 0 <= k < Z.min (d_mt A) (d_nt A) ->
    gen_ok (pview k) /\ d_m (pview k) = m - k * nb /\ d_n (pview k) = tile_nview A k /\
    d_mb (pview k) = nb /\ d_nb (pview k) = nb /\
    (forall r c, elem_off (pview k) r c = elem_off A (k * nb + r) (k * nb + c)).
  Proof.
    intros k Hk. pose proof nb_pos as NB. pose proof (mt_lt k ltac:(lia)). pose proof (nt_lt k ltac:(lia)).
    pose proof (nv_spec k ltac:(lia)). unfold pview. apply the_view_ok; try lia; try nia; apply Z.mod_mul; lia.
  Qed.

  (* local simulation of the panel task *)
  Lemma sim_pan_local : forall M0 M X p k, 0 <= k < Z.min (d_mt A) (d_nt A) ->
    st b (pview k) (ppiv k) M0 M (fun i j => X (k * nb + i) (k * nb + j)) (fun t => p (k * nb + t)) ->
    let r := panel_fun bigger b A pI ib (Z.min mpt (Z.min (d_mt A) (d_nt A) - k)) k M in
    st b (pview k) (ppiv k) M0 (fst r) (aX (pan k p X)) (fun t => aP (pan k p X) t + k * nb) /\
    snd r = if aI (pan k p X) =? 0 then 0 else k * nb + aI (pan k p X).
  Proof.
    intros M0 M X p k Hk S. cbv zeta. pose proof nb_pos as NB. pose proof (mt_lt k ltac:(lia)) as KL.
    pose proof (nt_lt k ltac:(lia)) as KN. pose proof (nv_spec k ltac:(lia)) as NVK.
    destruct (pview_ok k Hk) as (GW & W1 & W2 & W3 & W4 & W5).
    unfold panel_fun. cbv zeta. rewrite Emb, Enb. fold m. fold (pview k). fold (ppiv k).
    pose proof (sim_getrf bigger b (pview k) (ppiv k) ib (Z.min mpt (Z.min (d_mt A) (d_nt A) - k)) GW
      ltac:(lia) ltac:(lia) ltac:(lia) ltac:(lia) Hib ltac:(lia) M0 M _ _ S) as [T1 T2].
    rewrite W1, W2, W3 in T1, T2. fold (pan k p X) in T1, T2. cbn [fst snd]. rewrite T2. split; [|reflexivity].
    remember (fst (core_zgetrf bigger b (pview k) (ppiv k) ib (Z.min mpt (Z.min (d_mt A) (d_nt A) - k)) M)) as M1 eqn:E1. clear E1.
    pose proof (sim_shift b (pview k) (ppiv k) M0 M1 _ _ 0 (pq k) (k * nb) T1 ltac:(lia)
      ltac:(rewrite W1, W2; unfold pq; lia)) as S2.
    assert (EF : fold_left (fun M i => ipiv_set pI (i - 1) (ipiv_rd M pI (i - 1) + k * nb) M)
        (zrange (k * nb + 1) (Z.min m (k * nb + tile_nview A k) + 1)) M1 =
      fold_left (fun M i => ipiv_set (ppiv k) (i - 1) (ipiv_rd M (ppiv k) (i - 1) + k * nb) M)
        (zrange (0 + 1) (0 + pq k + 1)) M1).
    { replace (zrange (k * nb + 1) (Z.min m (k * nb + tile_nview A k) + 1)) with (map (fun t => t + k * nb) (zrange (0 + 1) (0 + pq k + 1))).
      - rewrite fold_left_map'. apply fold_left_ext_in. intros M' i _. unfold ipiv_set, ipiv_rd, ppiv. cbn [fst snd].
        replace (snd pI + (i + k * nb - 1)) with (snd pI + k * nb + (i - 1)) by lia. reflexivity.
      - unfold pq. replace (Z.min m (k * nb + tile_nview A k)) with (Z.min (m - k * nb) (tile_nview A k) + k * nb) by lia.
        generalize (Z.min (m - k * nb) (tile_nview A k)) as h. intros h. pattern h. apply (zrange_ind_hi _ 0); clear h.
        + intros h Hh. rewrite !zrange_nil by lia. reflexivity.
        + intros h Hh IH. replace (0 + (h + 1) + 1) with (0 + h + 1 + 1) by lia. rewrite zrange_snoc by lia.
          rewrite map_app, IH. replace (h + 1 + k * nb + 1) with (h + k * nb + 1 + 1) by lia. rewrite (zrange_snoc (k * nb + 1) (h + k * nb + 1)) by lia.
          cbn [map]. f_equal. f_equal. lia. }
    rewrite EF. apply (st_ext _ _ _ _ _ _ _ _ _ S2); auto.
    rewrite W1, W2. fold (pq k). intros t Ht. destruct (Z.leb_spec 0 t), (Z.ltb_spec t (0 + pq k)); cbn [andb]; try reflexivity; lia.
  Qed.

  Lemma st_local : forall M0 M (X : Z -> Z -> F) p k, 0 <= k < Z.min (d_mt A) (d_nt A) -> st b A pI M0 M X p ->
    st b (pview k) (ppiv k) M M (fun i j => X (k * nb + i) (k * nb + j)) (fun t => p (k * nb + t)).
  Proof.
    intros M0 M X p k Hk [S1 S2 S3 S4]. pose proof nb_pos as NB. pose proof (mt_lt k ltac:(lia)) as KL.
    pose proof (nt_lt k ltac:(lia)) as KN. pose proof (nv_spec k ltac:(lia)) as NVK.
    destruct (pview_ok k Hk) as (GW & W1 & W2 & W3 & W4 & W5). constructor; try reflexivity.
    - rewrite W1, W2. intros i j Hi Hj. rewrite W5. apply S1; fold m n; nia.
    - rewrite W1, W2. intros t Ht. unfold ppiv, ipiv_at. cbn [fst snd].
      replace (snd pI + k * nb + t) with (snd pI + (k * nb + t)) by lia. apply S2. fold m n. nia.
  Qed.

  Lemma sim_pan : forall M0 M (X : Z -> Z -> F) p k, 0 <= k < Z.min (d_mt A) (d_nt A) -> st b A pI M0 M X p ->
    let r := panel_fun bigger b A pI ib (Z.min mpt (Z.min (d_mt A) (d_nt A) - k)) k M in
    st b A pI M0 (fst r) (a_pan k p X) (a_panp k p X) /\
    snd r = if aI (pan k p X) =? 0 then 0 else k * nb + aI (pan k p X).
  Proof.
    intros M0 M X p k Hk S. cbv zeta. pose proof nb_pos as NB. pose proof (mt_lt k ltac:(lia)) as KL.
    pose proof (nt_lt k ltac:(lia)) as KN. pose proof (nv_spec k ltac:(lia)) as NVK.
    destruct (pview_ok k Hk) as (GW & W1 & W2 & W3 & W4 & W5).
    destruct (sim_pan_local M M X p k Hk (st_local M0 M X p k Hk S)) as [T1 T2]. split; [|exact T2].
    remember (fst (panel_fun bigger b A pI ib (Z.min mpt (Z.min (d_mt A) (d_nt A) - k)) k M)) as M1 eqn:E1. clear E1 T2.
    destruct S as [S1 S2 S3 S4]. destruct T1 as [P1 P2 P3 P4]. rewrite W1, W2 in P1, P2, P3, P4. unfold a_pan, a_panp, pq.
    assert (PN : forall l, panel (m - k * nb) (tile_nview A k) (fun i j => (b, elem_off (pview k) i j)) l -> panel m n L l).
    { intros l (i & j & Hi & Hj & ->). rewrite W5. exists (k * nb + i), (k * nb + j). split; [nia|]. split; [nia|reflexivity]. }
    assert (PI : forall l, ipiv_sec (ppiv k) 0 (Z.min (m - k * nb) (tile_nview A k)) l -> ipiv_sec pI 0 q l).
    { intros l (t & Ht & ->). unfold ppiv. cbn [fst snd]. exists (k * nb + t). split; [unfold q; nia|f_equal; lia]. }
    constructor.
    - intros i j Hi Hj. fold m in Hi. fold n in Hj.
      destruct (Z.leb_spec (k * nb) i), (Z.leb_spec (k * nb) j), (Z.ltb_spec j (k * nb + tile_nview A k)); cbn [andb];
        try (rewrite P3; [apply S1; assumption|]; intros (i' & j' & Hi' & Hj' & E); rewrite W5 in E; apply G_inj in E; lia).
      specialize (P1 (i - k * nb) (j - k * nb) ltac:(lia) ltac:(lia)). rewrite W5 in P1.
      replace (k * nb + (i - k * nb)) with i in P1 by lia. replace (k * nb + (j - k * nb)) with j in P1 by lia. exact P1.
    - intros t Ht. fold m n in Ht.
      destruct (Z.leb_spec (k * nb) t), (Z.ltb_spec t (k * nb + Z.min (m - k * nb) (tile_nview A k))); cbn [andb];
        try (rewrite P4; [apply S2; assumption|]; intros (t' & Ht' & E); unfold ppiv in E; cbn [fst snd] in E; unfold ipiv_at in E; injection E as E; lia).
      specialize (P2 (t - k * nb) ltac:(lia)). unfold ppiv, ipiv_at in P2. cbn [fst snd] in P2.
      replace (snd pI + k * nb + (t - k * nb)) with (snd pI + t) in P2 by lia. exact P2.
    - intros l Hl. rewrite P3 by auto. apply S3. assumption.
    - intros l Hl. rewrite P4 by auto. apply S4. assumption.
  Qed.

  (* ---------------- footprints ---------------- *)

  Lemma col_from_spec : forall k c l, 0 <= k -> 0 <= c < d_nt A ->
    (col_from b A k c l <->
     exists i j, k * nb <= i < m /\ c * nb <= j < c * nb + tile_nview A c /\ l = L i j).
  Proof.
    intros k c l Hk Hc. pose proof nb_pos as NB. unfold col_from. split.
    - intros (r & Hr & x & y & Hx & Hy & _ & ->). pose proof (mv_spec r ltac:(lia)) as MV.
      exists (r * nb + x), (c * nb + y). split; [nia|]. split; [lia|]. apply at_tile; lia.
    - intros (i & j & Hi & Hj & ->). destruct (row_tile A i SH ltac:(fold m; nia)) as [R1 R2]. rewrite Emb in R1, R2.
      exists (i / nb). split; [split; [apply Z.div_le_lower_bound; lia|lia]|].
      exists (i mod nb), (j - c * nb). split; [assumption|]. split; [lia|]. split; [reflexivity|].
      rewrite at_tile by (try assumption; lia). pose proof (Z.div_mod i nb ltac:(lia)).
      replace (i / nb * nb + i mod nb) with i by lia. replace (c * nb + (j - c * nb)) with j by lia. reflexivity.
  Qed.

  Lemma panel_finite' : forall R C (E : Z -> Z -> loc), finite_set (panel R C E).
  Proof.
    intros R C E. exists (flat_map (fun s => map (E s) (zrange 0 C)) (zrange 0 R)).
    intros l. rewrite in_flat_map. split.
    - intros (s & Hs & Hl). apply in_map_iff in Hl. destruct Hl as (c & <- & Hc).
      apply in_zrange in Hs, Hc. exists s, c. auto.
    - intros (s & c & Hs & Hc & ->). exists s. split; [apply in_zrange; assumption|].
      apply in_map. apply in_zrange. assumption.
  Qed.

  Lemma ipiv_sec_finite : forall p lo hi, finite_set (ipiv_sec p lo hi).
  Proof.
    intros p lo hi. exists (map (fun t => (fst p, snd p + t)) (zrange lo hi)). intros l. rewrite in_map_iff. split.
    - intros (t & <- & Ht). apply in_zrange in Ht. exists t. auto.
    - intros (t & Ht & ->). exists t. split; [reflexivity|]. apply in_zrange. assumption.
  Qed.

  Lemma col_from_finite : forall k c, finite_set (col_from b A k c).
  Proof.
    intros k c. unfold col_from.
    exists (flat_map (fun r => flat_map (fun x => map (fun y => at_ (tptr b A r c) (tile_mmain A r) x y) (zrange 0 (tile_nview A c)))
      (zrange 0 (tile_mview A r))) (zrange k (d_mt A))).
    intros l. rewrite in_flat_map. split.
    - intros (r & Hr & Hl). apply in_flat_map in Hl. destruct Hl as (x & Hx & Hl). apply in_map_iff in Hl.
      destruct Hl as (y & <- & Hy). apply in_zrange in Hr, Hx, Hy. exists r. split; [assumption|]. exists x, y. auto.
    - intros (r & Hr & x & y & Hx & Hy & _ & ->). exists r. split; [apply in_zrange; assumption|].
      apply in_flat_map. exists x. split; [apply in_zrange; assumption|]. apply in_map_iff. exists y.
      split; [reflexivity|apply in_zrange; assumption].
  Qed.

  (* a task that changes part of the matrix *)
  Lemma st_ksound : forall (k : ktask (cell F)) (g : (Z -> Z) -> (Z -> Z -> F) -> Z -> Z -> F) (w r : Z -> Z -> Prop) (rp : Z -> Prop),
    (forall M X p, st b A pI M M X p -> st b A pI M (k_fun k M) (g p X) p) ->
    (forall l, k_writes k l <-> exists i j, 0 <= i < m /\ 0 <= j < n /\ w i j /\ l = L i j) ->
    (forall X p i j, 0 <= i < m -> 0 <= j < n -> ~ w i j -> g p X i j = X i j) ->
    (forall i j, w i j -> r i j) ->
    (forall i j, 0 <= i < m -> 0 <= j < n -> r i j -> k_reads k (L i j)) ->
    (forall t, 0 <= t < q -> rp t -> k_reads k (ipiv_at pI t)) ->
    (forall X X' p p', (forall i j, 0 <= i < m -> 0 <= j < n -> r i j -> X i j = X' i j) ->
       (forall t, 0 <= t < q -> rp t -> p t = p' t) ->
       forall i j, 0 <= i < m -> 0 <= j < n -> w i j -> g p X i j = g p' X' i j) ->
    ksound k.
  Proof.
    intros k g w r rp SIM HW HO HWR HR HRP HLOC.
    assert (S0 : forall M : mem (cell F), st b A pI M M (fun i j => fst (M (L i j))) (fun t => snd (M (ipiv_at pI t)))).
    { intros M. constructor; reflexivity. }
    split.
    - intros M l Hl. destruct (SIM M _ _ (S0 M)) as [S1 S2 S3 S4]. apply injective_projections.
      + destruct (finite_dec _ l (panel_finite' m n L)) as [(i & j & Hi & Hj & ->)|NP]; [|apply S3; assumption].
        change (L i j) with (b, elem_off A i j). rewrite S1 by assumption. rewrite HO; [reflexivity|assumption|assumption|].
        intros Hw. apply Hl. apply HW. exists i, j. auto.
      + destruct (finite_dec _ l (ipiv_sec_finite pI 0 q)) as [(t & Ht & ->)|NP]; [|apply S4; assumption].
        apply (S2 t Ht).
    - intros M M' l HA Hl. apply HW in Hl. destruct Hl as (i & j & Hi & Hj & Hw & ->).
      destruct (SIM M _ _ (S0 M)) as [S1 S2 S3 S4]. destruct (SIM M' _ _ (S0 M')) as [S1' S2' S3' S4'].
      assert (NI : ~ ipiv_sec pI 0 q (L i j)).
      { intros (t & _ & E). apply (f_equal fst) in E. cbn in E. congruence. }
      apply injective_projections.
      + change (L i j) with (b, elem_off A i j). rewrite S1, S1' by assumption.
        apply HLOC; try assumption.
        * intros i' j' Hi' Hj' Hr. rewrite HA; [reflexivity|]. apply HR; assumption.
        * intros t Ht Hr. rewrite HA; [reflexivity|]. apply HRP; assumption.
      + rewrite S4, S4' by assumption. rewrite HA; [reflexivity|]. apply HR; auto.
  Qed.

  (* ---------------- the update task ---------------- *)

  Lemma perm_range : forall p lo hi i, pivots_in lo hi p = true -> hi <= m ->
    (lo <= i < m -> lo <= perm (fun t => p t - 1) lo hi i < m) /\ (i < lo -> perm (fun t => p t - 1) lo hi i = i).
  Proof.
    intros p lo hi i HP Hh. pose proof (proj1 (pivots_in_spec lo hi p) HP) as H. clear HP. revert i H Hh.
    pattern hi. apply (zrange_ind_hi _ lo); clear hi.
    - intros hi Hh i H Hm'. rewrite perm_same by assumption. auto.
    - intros hi Hh IH i H Hm'. rewrite perm_snoc by assumption.
      destruct (IH (transposed hi (p hi - 1) i) ltac:(intros; apply H; lia) ltac:(lia)) as [I1 I2].
      specialize (H hi ltac:(lia)). unfold transposed in *. split; intros Hi.
      + apply I1. destruct (Z.eqb_spec i hi); [lia|]. destruct (Z.eqb_spec i (p hi - 1)); lia.
      + destruct (Z.eqb_spec i hi); [lia|]. destruct (Z.eqb_spec i (p hi - 1)); [lia|]. apply I2. assumption.
  Qed.

  Lemma pivots_in_ext : forall lo hi p p', (forall t, lo <= t < hi -> p t = p' t) -> pivots_in lo hi p = pivots_in lo hi p'.
  Proof.
    intros lo hi p p' H. apply eq_true_iff_eq. rewrite !pivots_in_spec. split; intros HH t Ht; specialize (HH t Ht);
      rewrite ?H in *; rewrite <- ?H in *; auto.
  Qed.

  (* the interchanges look at the rows from lo on and move only these *)
  Lemma swaps_local : forall lo hi c0 w p p' X X' i j, hi <= m -> (forall t, lo <= t < hi -> p t = p' t) ->
    0 <= lo -> lo <= i < m -> (forall i, lo <= i < m -> X i j = X' i j) ->
    a_swaps lo hi c0 w p X i j = a_swaps lo hi c0 w p' X' i j.
  Proof.
    intros lo hi c0 w p p' X X' i j Hh HP Hl Hi HX. unfold a_swaps. rewrite <- (pivots_in_ext lo hi p p') by assumption.
    destruct (pivots_in lo hi p) eqn:E; cbn [andb]; [|apply HX; assumption].
    destruct (_ && _); [|apply HX; assumption].
    rewrite (perm_ext (fun t => p' t - 1) (fun t => p t - 1)) by (intros t Ht; rewrite HP by assumption; reflexivity).
    apply HX. apply (perm_range p lo hi i E Hh). assumption.
  Qed.
  Lemma swaps_above : forall lo hi c0 w p X i j, hi <= m -> i < lo -> a_swaps lo hi c0 w p X i j = X i j.
  Proof.
    intros lo hi c0 w p X i j Hh Hi. unfold a_swaps. destruct (pivots_in lo hi p) eqn:E; cbn [andb]; [|reflexivity].
    destruct (_ && _); [|reflexivity]. f_equal. apply (perm_range p lo hi i E Hh). assumption.
  Qed.
  Lemma swaps_aside : forall lo hi c0 w p X i j, ~ (c0 <= j < c0 + w) -> a_swaps lo hi c0 w p X i j = X i j.
  Proof.
    intros lo hi c0 w p X i j Hj. unfold a_swaps. destruct (Z.leb_spec c0 j), (Z.ltb_spec j (c0 + w)); cbn [andb];
      rewrite ?andb_false_r; try reflexivity. lia.
  Qed.

  Lemma upd_local : forall k c p p' X X', 0 <= k < d_mt A -> k < c < d_nt A ->
    (forall t, k * nb <= t < Z.min (k * nb + nb) m -> p t = p' t) ->
    (forall i j, k * nb <= i < m -> k * nb <= j < k * nb + nb \/ c * nb <= j < c * nb + tile_nview A c -> X i j = X' i j) ->
    forall i j, k * nb <= i < m -> k * nb <= j < k * nb + nb \/ c * nb <= j < c * nb + tile_nview A c ->
    a_upd k c p X i j = a_upd k c p' X' i j.
  Proof.
    intros k c p p' X X' Hk Hc HP HX. pose proof nb_pos as NB. pose proof (mv_spec k Hk) as MVK.
    pose proof (mt_lt k Hk) as KL. assert (KN : k * nb + nb <= c * nb) by nia. assert (K0 : 0 <= k * nb) by nia.
    unfold a_upd.
    assert (HY : forall i j, k * nb <= i < m -> k * nb <= j < k * nb + nb \/ c * nb <= j < c * nb + tile_nview A c ->
      a_swaps (k * nb) (Z.min (k * nb + nb) m) (c * nb) (tile_nview A c) p X i j =
      a_swaps (k * nb) (Z.min (k * nb + nb) m) (c * nb) (tile_nview A c) p' X' i j).
    { intros i j Hi Hj. apply swaps_local; try assumption; [lia|]. intros i' Hi'. apply HX; assumption. }
    remember (a_swaps (k * nb) (Z.min (k * nb + nb) m) (c * nb) (tile_nview A c) p X) as Y eqn:E. clear E.
    remember (a_swaps (k * nb) (Z.min (k * nb + nb) m) (c * nb) (tile_nview A c) p' X') as Y' eqn:E. clear E.
    assert (HT : forall i j, k * nb <= i < m -> k * nb <= j < k * nb + nb \/ c * nb <= j < c * nb + tile_nview A c ->
      a_trsm (k * nb) (tile_mview A k) (c * nb) (tile_nview A c) Y i j =
      a_trsm (k * nb) (tile_mview A k) (c * nb) (tile_nview A c) Y' i j).
    { intros i j Hi Hj. unfold a_trsm. destruct (ablk_spec (k * nb) (tile_mview A k) (c * nb) (tile_nview A c) i j) as [[B1 B2]|B];
        [|apply HY; assumption].
      apply solve_ext.
      - intros r l Hr Hl. cbn [app] in Hl. apply in_zrange in Hr. apply in_zrange in Hl.
        destruct (r =? l); [reflexivity|]. destruct (l <=? r); [|reflexivity]. apply HY; lia.
      - intros r Hr. cbn [app] in Hr. apply in_zrange in Hr. f_equal. apply HY; lia.
      - cbn [app]. apply in_zrange. lia. }
    remember (a_trsm (k * nb) (tile_mview A k) (c * nb) (tile_nview A c) Y) as T eqn:E. clear E.
    remember (a_trsm (k * nb) (tile_mview A k) (c * nb) (tile_nview A c) Y') as T' eqn:E. clear E.
    intros i j Hi Hj. unfold a_tail.
    destruct (Z.leb_spec (k * nb + nb) i), (Z.leb_spec (c * nb) j), (Z.ltb_spec j (c * nb + tile_nview A c)); cbn [andb];
      try (apply HT; assumption).
    rewrite (HT i j Hi Hj). f_equal. f_equal. apply (nsum_ext F). intros t Ht. rewrite (HT i t), (HT t j) by lia. reflexivity.
  Qed.

  Lemma upd_other : forall k c p X i j, 0 <= k < d_mt A -> k < c < d_nt A ->
    ~ (k * nb <= i /\ c * nb <= j < c * nb + tile_nview A c) -> a_upd k c p X i j = X i j.
  Proof.
    intros k c p X i j Hk Hc Hij. pose proof nb_pos as NB. unfold a_upd, a_tail.
    destruct (Z.leb_spec (k * nb + nb) i), (Z.leb_spec (c * nb) j), (Z.ltb_spec j (c * nb + tile_nview A c)); cbn [andb]; try lia;
    (unfold a_trsm; match goal with |- (if ablk ?r ?h ?c0 ?w ?x ?y then _ else _) = _ => destruct (ablk_spec r h c0 w x y) as [[B1 B2]|B]; [lia|] end;
    destruct (Z_lt_le_dec i (k * nb)); [apply swaps_above; lia|apply swaps_aside; lia]).
  Qed.

  Lemma update_kgood : forall k c, 0 <= k < d_mt A -> k < c < d_nt A -> kgood (update_task (F := F) b A pI k c).
  Proof.
    intros k c Hk Hc. pose proof nb_pos as NB. pose proof (nt_lt c ltac:(lia)) as NL. assert (KN : k * nb + nb <= c * nb) by nia.
    assert (K0 : 0 <= k * nb) by nia. pose proof (nv_spec c ltac:(lia)) as NVC. pose proof (nv_spec k ltac:(lia)) as NVK.
    constructor; [|apply finite_or; [|apply finite_or]; auto using col_from_finite, ipiv_sec_finite|apply col_from_finite].
    apply (st_ksound (update_task b A pI k c) (a_upd k c)
      (fun i j => k * nb <= i /\ c * nb <= j < c * nb + tile_nview A c)
      (fun i j => k * nb <= i /\ (k * nb <= j < k * nb + nb \/ c * nb <= j < c * nb + tile_nview A c))
      (fun t => k * nb <= t < Z.min (k * nb + nb) m)).
    - intros M X p S. apply sim_upd; assumption.
    - intros l. cbn [update_task k_writes]. rewrite col_from_spec by lia. split.
      + intros (i & j & Hi & Hj & ->). exists i, j. repeat split; lia.
      + intros (i & j & Hi & Hj & [H1 H2] & ->). exists i, j. split; [lia|]. split; [lia|reflexivity].
    - intros X p i j Hi Hj Hw. apply upd_other; try assumption.
    - intros i j [H1 H2]. auto.
    - intros i j Hi Hj [H1 [H2|H2]]; cbn [update_task k_reads].
      + left. apply col_from_spec; [lia|lia|]. exists i, j. split; [lia|]. split; [lia|reflexivity].
      + right. left. apply col_from_spec; [lia|lia|]. exists i, j. split; [lia|]. split; [lia|reflexivity].
    - intros t Ht Hr. cbn [update_task k_reads]. right. right. exists t. rewrite Emb. split; [exact Hr|reflexivity].
    - intros X X' p p' HX HP i j Hi Hj [H1 H2]. apply upd_local; try assumption; try lia; auto.
      + intros t Ht. apply HP; [unfold q; lia|assumption].
      + intros i' j' Hi' Hj'. apply HX; [lia|lia|]. split; [lia|assumption].
  Qed.

  (* ---------------- pivoting to the left ---------------- *)

  Lemma left_kgood : forall k, 0 <= k -> k + 1 < Z.min (d_mt A) (d_nt A) -> kgood (left_task (F := F) b A pI k).
  Proof.
    intros k Hk HK. pose proof nb_pos as NB. pose proof (nt_lt (k + 1) ltac:(lia)) as NL. pose proof (mt_lt (k + 1) ltac:(lia)) as ML.
    assert (K0 : 0 <= k * nb) by nia. pose proof (nv_spec k ltac:(lia)) as NVK. assert (EV : tile_nview A k = nb) by lia.
    constructor; [|apply finite_or; auto using col_from_finite, ipiv_sec_finite|apply col_from_finite].
    apply (st_ksound (left_task b A pI k) (a_swaps ((k + 1) * nb) q (k * nb) nb)
      (fun i j => (k + 1) * nb <= i /\ k * nb <= j < k * nb + nb)
      (fun i j => (k + 1) * nb <= i /\ k * nb <= j < k * nb + nb)
      (fun t => (k + 1) * nb <= t)).
    - intros M X p S. cbn [left_task k_fun]. rewrite Emb, Enb.
      apply sim_swaps; fold m n q; try lia. assumption.
    - intros l. cbn [left_task k_writes]. rewrite col_from_spec by lia. rewrite EV. split.
      + intros (i & j & Hi & Hj & ->). exists i, j. repeat split; lia.
      + intros (i & j & Hi & Hj & [H1 H2] & ->). exists i, j. split; [lia|]. split; [lia|reflexivity].
    - intros X p i j Hi Hj Hw. destruct (Z_lt_le_dec i ((k + 1) * nb)).
      + apply swaps_above; [unfold q; lia|assumption].
      + apply swaps_aside. lia.
    - auto.
    - intros i j Hi Hj [H1 H2]; cbn [left_task k_reads].
      left. apply col_from_spec; [lia|lia|]. rewrite EV. exists i, j. split; [lia|]. split; [lia|reflexivity].
    - intros t Ht Hr. cbn [left_task k_reads]. right. exists t. rewrite Emb. fold m n q. split; [lia|reflexivity].
    - intros X X' p p' HX HP i j Hi Hj [H1 H2]. apply swaps_local; try lia.
      + intros t Ht. apply HP; [|]; lia.
      + intros i' Hi'. apply HX; [lia|lia|]. split; lia.
  Qed.

  (* ---------------- the panel task ---------------- *)

  Let size (k : Z) : Z := Z.min mpt (Z.min (d_mt A) (d_nt A) - k).

  Lemma panel_reads : forall k l, 0 <= k < Z.min (d_mt A) (d_nt A) ->
    (k_reads (ck_task (panel_task bigger b A pI ib mpt k)) l <->
     panel (m - k * nb) (tile_nview A k) (fun i j => (b, elem_off (pview k) i j)) l \/
     ipiv_sec (ppiv k) 0 (pq k) l).
  Proof.
    intros k l Hk. destruct (pview_ok k Hk) as (GW & W1 & W2 & W3 & W4 & W5). pose proof nb_pos as NB.
    cbn [panel_task ck_task k_reads]. rewrite col_from_spec by lia. rewrite Emb. split; (intros [H|H]; [left|right]).
    - destruct H as (i & j & Hi & Hj & ->). exists (i - k * nb), (j - k * nb). split; [lia|]. split; [lia|].
      rewrite W5. unfold L. f_equal. f_equal; lia.
    - destruct H as (t & Ht & ->). exists (t - k * nb). unfold pq, ppiv. cbn [fst snd]. fold m in Ht. split; [lia|f_equal; lia].
    - destruct H as (i & j & Hi & Hj & ->). exists (k * nb + i), (k * nb + j). split; [nia|]. split; [nia|].
      rewrite W5. reflexivity.
    - destruct H as (t & Ht & ->). exists (k * nb + t). unfold pq, ppiv in *. cbn [fst snd]. fold m. split; [lia|f_equal; lia].
  Qed.

  Lemma panel_runs : forall k (M M' : mem (cell F)), 0 <= k < Z.min (d_mt A) (d_nt A) ->
    (forall l, k_reads (ck_task (panel_task bigger b A pI ib mpt k)) l -> M l = M' l) ->
    (forall l, k_reads (ck_task (panel_task bigger b A pI ib mpt k)) l ->
       k_fun (ck_task (panel_task bigger b A pI ib mpt k)) M l = k_fun (ck_task (panel_task bigger b A pI ib mpt k)) M' l) /\
    ck_info (panel_task bigger b A pI ib mpt k) M = ck_info (panel_task bigger b A pI ib mpt k) M' /\
    (forall l, ~ k_reads (ck_task (panel_task bigger b A pI ib mpt k)) l ->
       k_fun (ck_task (panel_task bigger b A pI ib mpt k)) M l = M l).
  Proof.
    intros k M M' Hk HA. destruct (pview_ok k Hk) as (GW & W1 & W2 & W3 & W4 & W5).
    assert (HP : forall t, ppiv k = ppiv k /\ ipiv_at (ppiv k) t = (fst pI, snd pI + k * nb + t)) by (intros; split; reflexivity).
    assert (S : st b (pview k) (ppiv k) M M (fun i j => fst (M (L (k * nb + i) (k * nb + j)))) (fun t => snd (M (ipiv_at pI (k * nb + t))))).
    { constructor; try reflexivity.
      - intros i j _ _. rewrite W5. reflexivity.
      - intros t _. unfold ipiv_at, ppiv. cbn [fst snd]. do 2 f_equal. f_equal. lia. }
    assert (S' : st b (pview k) (ppiv k) M' M' (fun i j => fst (M (L (k * nb + i) (k * nb + j)))) (fun t => snd (M (ipiv_at pI (k * nb + t))))).
    { constructor; try reflexivity; rewrite W1, W2.
      - intros i j Hi Hj. rewrite <- HA; [rewrite W5; reflexivity|]. apply panel_reads; [assumption|]. left. exists i, j. auto.
      - intros t Ht. rewrite <- HA; [unfold ipiv_at, ppiv; cbn [fst snd]; do 2 f_equal; f_equal; lia|].
        apply panel_reads; [assumption|]. right. exists t. split; [exact Ht|reflexivity]. }
    destruct (sim_pan_local M M (fun i j => fst (M (L i j))) (fun t => snd (M (ipiv_at pI t))) k Hk S) as [[P1 P2 P3 P4] PI].
    destruct (sim_pan_local M' M' (fun i j => fst (M (L i j))) (fun t => snd (M (ipiv_at pI t))) k Hk S') as [[P1' P2' P3' P4'] PI'].
    rewrite W1, W2 in P1, P2, P3, P4, P1', P2', P3', P4'. fold (pq k) in P2, P4, P2', P4'.
    cbn [panel_task ck_task ck_info k_fun]. split; [|split].
    - intros l Hl. pose proof (HA l Hl) as EL. apply panel_reads in Hl; [|assumption]. apply injective_projections.
      + destruct Hl as [(i & j & Hi & Hj & ->)|Hl].
        * rewrite P1, P1' by assumption. reflexivity.
        * rewrite P3, P3'; [congruence| |]; intros (i & j & _ & _ & ->); destruct Hl as (t & _ & E); apply (f_equal fst) in E; cbn in E; congruence.
      + destruct Hl as [Hl|(t & Ht & ->)].
        * rewrite P4, P4'; [congruence| |]; intros (t & _ & ->); destruct Hl as (i & j & _ & _ & E); apply (f_equal fst) in E; cbn in E; congruence.
        * change (fst (ppiv k), snd (ppiv k) + t) with (ipiv_at (ppiv k) t). rewrite P2, P2' by assumption. reflexivity.
    - rewrite PI, PI'. reflexivity.
    - intros l Hl. assert (Hl' : ~ (panel (m - k * nb) (tile_nview A k) (fun i j => (b, elem_off (pview k) i j)) l \/ ipiv_sec (ppiv k) 0 (pq k) l)) by (intros H; apply Hl; apply (panel_reads k l Hk); exact H). apply injective_projections.
      + apply P3. tauto.
      + apply P4. tauto.
  Qed.

  Lemma panel_kgood : forall k, 0 <= k < Z.min (d_mt A) (d_nt A) ->
    kgood (ck_task (panel_task bigger b A pI ib mpt k)) /\ cksound (panel_task bigger b A pI ib mpt k).
  Proof.
    intros k Hk. split.
    - constructor; [|apply finite_or; auto using col_from_finite, ipiv_sec_finite|apply finite_or; auto using col_from_finite, ipiv_sec_finite].
      split.
      + intros M l Hl. apply (panel_runs k M M Hk (fun _ _ => eq_refl)). exact Hl.
      + intros M M' l HA Hl. apply (panel_runs k M M' Hk HA). exact Hl.
    - split.
      + intros M M' HA. apply (panel_runs k M M' Hk HA).
      + discriminate.
  Qed.

  (* ---------------- Hoare triples over memory and first code ---------------- *)

  Definition tr (P : mem (cell F) -> Z -> Prop) (ks : list (cktask (cell F))) (Q : mem (cell F) -> Z -> Prop) : Prop :=
    forall M c, P M c -> Q (krun (map ck_task ks) M) (if c =? 0 then first_code (kcodes ks M) else c).

  Lemma tr_nil : forall (P Q : mem (cell F) -> Z -> Prop), (forall M c, P M c -> Q M c) -> tr P [] Q.
  Proof.
    intros P Q H M c HP. cbn. destruct (Z.eqb_spec c 0) as [->|]; auto.
  Qed.
  Lemma tr_app : forall P Q R a d, tr P a Q -> tr Q d R -> tr P (a ++ d) R.
  Proof.
    intros P Q R a d H1 H2 M c HP. specialize (H1 M c HP). specialize (H2 _ _ H1).
    rewrite map_app, krun_app, kcodes_app, first_code_app. destruct (c =? 0) eqn:N; [exact H2|].
    rewrite N in H2. exact H2.
  Qed.
  Lemma tr_one : forall (P Q : mem (cell F) -> Z -> Prop) k,
    (forall M c, P M c -> Q (k_fun (ck_task k) M) (if c =? 0 then ck_info k M else c)) -> tr P [k] Q.
  Proof.
    intros P Q k H M c HP. specialize (H M c HP). cbn. destruct (ck_info k M =? 0) eqn:E; [|exact H].
    apply Z.eqb_eq in E. rewrite E in H. exact H.
  Qed.
  Lemma tr_sure : forall (P Q : mem (cell F) -> Z -> Prop) k, (forall M c, P M c -> Q (k_fun k M) c) -> tr P [sure k] Q.
  Proof.
    intros P Q k H. apply tr_one. intros M c HP. cbn. destruct (Z.eqb_spec c 0) as [->|]; auto.
  Qed.
  Lemma tr_mono : forall (P P' Q Q' : mem (cell F) -> Z -> Prop) ks, (forall M c, P' M c -> P M c) ->
    (forall M c, Q M c -> Q' M c) -> tr P ks Q -> tr P' ks Q'.
  Proof. intros P P' Q Q' ks H1 H2 H M c HP. apply H2, H, H1, HP. Qed.
  Lemma tr_loop : forall (P : Z -> mem (cell F) -> Z -> Prop) f lo hi, lo <= hi ->
    (forall k, lo <= k < hi -> tr (P k) (f k) (P (k + 1))) -> tr (P lo) (flat_map f (zrange lo hi)) (P hi).
  Proof.
    intros P f lo hi. pattern hi. apply (zrange_ind_hi _ lo); clear hi.
    - intros hi H1 H2 _. assert (hi = lo) as -> by lia. rewrite zrange_nil by lia. apply tr_nil. auto.
    - intros hi H1 IH _ HF. rewrite zrange_snoc by lia. rewrite flat_map_app. cbn [flat_map]. rewrite app_nil_r.
      eapply tr_app; [apply IH; auto; intros; apply HF; lia|apply (HF hi); lia].
  Qed.
  Lemma tr_map : forall (P : Z -> mem (cell F) -> Z -> Prop) (f : Z -> ktask (cell F)) lo hi, lo <= hi ->
    (forall k M c, lo <= k < hi -> P k M c -> P (k + 1) (k_fun (f k) M) c) ->
    tr (P lo) (map (fun k => sure (f k)) (zrange lo hi)) (P hi).
  Proof.
    intros P f lo hi H HF.
    replace (map (fun k => sure (f k)) (zrange lo hi)) with (flat_map (fun k => [sure (f k)]) (zrange lo hi)).
    - apply tr_loop; auto. intros k Hk. apply tr_sure. intros M c. apply HF. assumption.
    - induction (zrange lo hi) as [|x l IH]; cbn; [reflexivity|]. rewrite IH. reflexivity.
  Qed.
  Lemma tr_fakes : forall (P : mem (cell F) -> Z -> Prop) (f : Z -> list dep) lo hi,
    tr P (map (fun k => sure (fake_task (f k))) (zrange lo hi)) P.
  Proof.
    intros P f lo hi. destruct (Z.le_gt_cases lo hi).
    - apply (tr_map (fun _ => P) (fun k => fake_task (f k))); auto.
    - rewrite zrange_nil by lia. apply tr_nil. auto.
  Qed.

  (* ---------------- the invariant ---------------- *)

  Variable big : F -> F -> bool.
  Hypothesis HB : (forall x y, big x y = false) \/ (order bigger /\ big = bigger).
  Variable M0 : mem (cell F).
  Let A0 (i j : Z) : F := fst (M0 (L i j)).
  Let T := Z.min (d_mt A) (d_nt A).

  Definition E (k : Z) : Z := Z.min (k * nb) q.
  Definition sk (k j : Z) : Z := Z.min ((j / nb + 1) * nb) (E k).
  Definition ck (k j : Z) : Z := Z.min (j + 1) (E k).

  Definition inv (S : Z) (s c : Z -> Z) (M : mem (cell F)) (code : Z) : Prop :=
    exists X p, st b A pI M0 M X p /\ legal m 0 S (fun t => p t - 1) /\ 0 <= code <= q /\
      (code = 0 -> lu_inv big m n A0 X (fun t => p t - 1) S s c) /\
      (code <> 0 -> fails bigger m A0 code).

  Lemma inv_ext : forall S s c s' c' M code, inv S s c M code ->
    (forall j, 0 <= j < n -> s j = s' j) -> (forall j, 0 <= j < n -> c j = c' j) -> inv S s' c' M code.
  Proof.
    intros S s c s' c' M code (X & p & I1 & I2 & I3 & I4 & I5) Es Ec. exists X, p. split; [assumption|]. split; [assumption|].
    split; [assumption|]. split; [|assumption]. intros Hc. apply (lu_ext m n nb big A0 X X (fun t => p t - 1) (fun t => p t - 1) S s s' c c'); auto.
  Qed.

  Lemma T_lt : forall k, 0 <= k < T -> k * nb < q.
  Proof. intros k Hk. unfold T, q in *. pose proof (mt_lt k ltac:(lia)). pose proof (nt_lt k ltac:(lia)). lia. Qed.
  Lemma T_ge : q <= T * nb.
  Proof. unfold T, q. pose proof mt_ge. pose proof nt_ge. pose proof nb_pos. nia. Qed.
  Lemma E_k : forall k, 0 <= k < T -> E k = k * nb.
  Proof. intros k Hk. unfold E. pose proof (T_lt k Hk). lia. Qed.
  Lemma E_S : forall k, 0 <= k < T -> E (k + 1) = k * nb + pq k.
  Proof.
    intros k Hk. unfold E, pq. pose proof (T_lt k Hk). unfold T in Hk. rewrite nv_spec by lia. unfold q in *. lia.
  Qed.

  Lemma inv_start : inv (E 0) (sk 0) (ck 0) M0 0.
  Proof.
    exists (fun i j => fst (M0 (L i j))), (fun t => snd (M0 (ipiv_at pI t))).
    split; [constructor; reflexivity|]. assert (E0 : E 0 = 0) by (unfold E, q, m, n; lia). rewrite E0.
    split; [intros t Ht; lia|]. split; [unfold q, m, n; lia|]. split; [|contradiction]. intros _.
    apply (lu_ext m n nb big A0 A0 _ (fun t => t) _ 0 (fun _ => 0) _ (fun _ => 0)).
    - apply lu_start. unfold n; lia.
    - reflexivity.
    - intros t Ht. lia.
    - intros j Hj. unfold sk. rewrite E0. pose proof nb_pos. pose proof (Z.div_pos j nb ltac:(lia) ltac:(lia)). nia.
    - intros j Hj. unfold ck. rewrite E0. lia.
  Qed.

  (* within step k, with the tile columns k, ..., c-1 done *)
  Definition midS (k c j : Z) : Z := if (k * nb <=? j) && (j <? c * nb) then E (k + 1) else sk k j.
  Definition midC (k c j : Z) : Z := if (k * nb <=? j) && (j <? c * nb) then Z.min (j + 1) (E (k + 1)) else ck k j.

  Lemma inv_panel : forall k, 0 <= k < T ->
    tr (inv (E k) (sk k) (ck k)) [panel_task bigger b A pI ib mpt k] (inv (E (k + 1)) (midS k (k + 1)) (midC k (k + 1))).
  Proof.
    intros k Hk. pose proof nb_pos as NB. pose proof (T_lt k Hk) as KQ. pose proof (E_k k Hk) as EK. pose proof (E_S k Hk) as ES.
    pose proof (mt_lt k ltac:(unfold T in Hk; lia)) as KL. pose proof (nt_lt k ltac:(unfold T in Hk; lia)) as KN.
    pose proof (nv_spec k ltac:(unfold T in Hk; lia)) as NVK.
    apply tr_one. intros M c (X & p & S & LG & HC & LU & FL). cbn [panel_task ck_task ck_info k_fun].
    destruct (sim_pan M0 M X p k Hk S) as [S' I']. rewrite I'. rewrite EK in LG, LU. rewrite ES.
    destruct (a_getrf_lu bigger (m - k * nb) (tile_nview A k) nb ib (Z.min mpt (Z.min (d_mt A) (d_nt A) - k))
      ltac:(lia) ltac:(lia) Hib ltac:(unfold T in Hk; lia) big HB (fun i j => X (k * nb + i) (k * nb + j))
      (fun i j => X (k * nb + i) (k * nb + j)) (fun t => p (k * nb + t)) ltac:(auto)) as (G1 & G2 & G3 & G4).
    fold (pan k p X) in G1, G2, G3, G4. fold (pq k) in G1, G2, G3.
    assert (P0 : 0 <= pq k) by (unfold pq; lia). assert (PQ : k * nb + pq k <= q) by (unfold pq, q; lia).
    assert (SC : forall j, k * nb <= j -> sk k j = k * nb /\ ck k j = k * nb).
    { intros j Hj. unfold sk, ck. rewrite EK.
      assert (k <= j / nb) by (apply Z.div_le_lower_bound; lia). split; [nia|lia]. }
    exists (a_pan k p X), (a_panp k p X). split; [exact S'|]. split; [|split; [|split]].
    - intros t Ht. unfold a_panp. destruct (Z.leb_spec (k * nb) t), (Z.ltb_spec t (k * nb + pq k)); cbn [andb]; try lia.
      + specialize (G1 (t - k * nb) ltac:(lia)). cbn beta in G1. lia.
      + apply LG. lia.
    - destruct (Z.eqb_spec c 0); [|assumption]. destruct (Z.eqb_spec (aI (pan k p X)) 0); [unfold q, m, n; lia|]. nia.
    - destruct (Z.eqb_spec c 0) as [->|]; [|contradiction].
      destruct (Z.eqb_spec (aI (pan k p X)) 0) as [I0|]; [|lia]. intros _. specialize (LU eq_refl). specialize (G3 I0).
      apply (lu_ext m n nb big A0 (a_pan k p X) (a_pan k p X) (fun t => a_panp k p X t - 1) (fun t => a_panp k p X t - 1) _
        (fun j => if (k * nb <=? j) && (j <? k * nb + tile_nview A k) then k * nb + pq k else sk k j) _
        (fun j => if (k * nb <=? j) && (j <? k * nb + tile_nview A k) then k * nb + Z.min (j - k * nb + 1) (pq k) else ck k j)).
      + apply (lu_embed big m n A0 X (a_pan k p X) (aX (pan k p X)) (fun t => p t - 1) (fun t => a_panp k p X t - 1)
                 (fun t => aP (pan k p X) t - 1) (k * nb) (tile_nview A k) (pq k) (sk k) (ck k) (fun c => Z.min (c + 1) (pq k)));
          try assumption; try lia.
        * intros j Hj. apply SC. lia.
        * intros i j Hi Hj. reflexivity.
        * intros t Ht. unfold a_panp. destruct (Z.leb_spec (k * nb) t); [lia|reflexivity].
        * intros t Ht. unfold a_panp. destruct (Z.leb_spec (k * nb) (k * nb + t)), (Z.ltb_spec (k * nb + t) (k * nb + pq k)); try lia.
          cbn [andb]. replace (k * nb + t - k * nb) with t by lia. lia.
      + reflexivity.
      + reflexivity.
      + intros j Hj. unfold midS. rewrite ES. replace ((k + 1) * nb) with (k * nb + nb) by ring.
        destruct (Z.leb_spec (k * nb) j), (Z.ltb_spec j (k * nb + tile_nview A k)), (Z.ltb_spec j (k * nb + nb)); cbn [andb]; try reflexivity; lia.
      + intros j Hj. unfold midC. rewrite ES. replace ((k + 1) * nb) with (k * nb + nb) by ring.
        destruct (Z.leb_spec (k * nb) j), (Z.ltb_spec j (k * nb + tile_nview A k)), (Z.ltb_spec j (k * nb + nb)); cbn [andb]; try reflexivity; lia.
    - destruct (Z.eqb_spec c 0) as [->|]; [|assumption].
      destruct (Z.eqb_spec (aI (pan k p X)) 0) as [I0|I0]; [contradiction|]. intros _ O Z0. specialize (LU eq_refl).
      specialize (G4 I0). fold (pan k p X) in G4. destruct (G4 O Z0) as (x & X1 & X2).
      replace (k * nb + aI (pan k p X) - 1) with (k * nb + (aI (pan k p X) - 1)) by lia.
      remember (aI (pan k p X) - 1) as h eqn:Eh.
      apply (lu_dep big m n A0 X (fun t => p t - 1) (k * nb) (sk k) (ck k) (k * nb) (k * nb + h) (fun l => x (l - k * nb)) LU); try lia.
      + intros t Ht. unfold ck. rewrite EK. lia.
      + intros j Hj. apply SC. lia.
      + replace (k * nb + h - k * nb) with h by lia. assumption.
      + intros i Hi. specialize (X2 (i - k * nb) ltac:(lia)).
        replace (k * nb + h + 1) with (h + 1 + k * nb) by lia.
        transitivity (nsum (fun l => nmul (full X (fun t => p t - 1) (k * nb) (sk k) i l) (x (l - k * nb))) (0 + k * nb) (h + 1 + k * nb));
          [reflexivity|]. rewrite nsum_shift. rewrite <- X2. apply nsum_ext. intros l Hl. unfold full.
        destruct (SC (l + k * nb) ltac:(lia)) as [-> _]. rewrite perm_same by lia.
        replace (k * nb + (i - k * nb)) with i by lia. replace (l + k * nb - k * nb) with l by lia.
        replace (k * nb + l) with (l + k * nb) by lia. reflexivity.
  Qed.

  Lemma legal_pivots_in : forall lo hi S p, legal m 0 S (fun t => p t - 1) -> 0 <= lo -> hi <= S -> pivots_in lo hi p = true.
  Proof.
    intros lo hi S p LG Hl Hh. apply pivots_in_spec. intros t Ht. specialize (LG t ltac:(lia)). cbn beta in LG. lia.
  Qed.

  Lemma inv_update : forall k c M code, 0 <= k < T -> k < c < d_nt A ->
    inv (E (k + 1)) (midS k c) (midC k c) M code ->
    inv (E (k + 1)) (midS k (c + 1)) (midC k (c + 1)) (update_fun b A pI k c M) code.
  Proof.
    intros k c M code Hk Hc (X & p & S & LG & HC & LU & FL).
    pose proof nb_pos as NB. pose proof (T_lt k Hk) as KQ. pose proof (E_k k Hk) as EK.
    pose proof (mt_lt k ltac:(unfold T in Hk; lia)) as KL. pose proof (nt_lt c ltac:(lia)) as CN.
    pose proof (nv_spec c ltac:(lia)) as NVC. pose proof (mv_spec k ltac:(unfold T in Hk; lia)) as MVK.
    assert (KN : k * nb + nb <= c * nb) by nia. assert (K0 : 0 <= k * nb) by nia.
    assert (ES : E (k + 1) = Z.min (k * nb + nb) m) by (unfold E, q in *; lia).
    exists (a_upd k c p X), p. split; [apply sim_upd; try assumption; unfold T in Hk; lia|]. split; [assumption|]. split; [assumption|].
    split; [|assumption]. intros C0. specialize (LU C0). rewrite ES in *.
    pose proof (legal_pivots_in (k * nb) (Z.min (k * nb + nb) m) _ p LG K0 ltac:(lia)) as PI.
    set (D := fun j => (c * nb <=? j) && (j <? c * nb + tile_nview A c)).
    assert (DS : forall j, D j = true <-> c * nb <= j < c * nb + tile_nview A c).
    { intros j. unfold D. rewrite andb_true_iff, Z.leb_le, Z.ltb_lt. lia. }
    assert (DN : forall j, D j = false -> ~ (c * nb <= j < c * nb + tile_nview A c)).
    { intros j Hj HH. apply DS in HH. congruence. }
    assert (SD : forall j, c * nb <= j -> midS k c j = k * nb /\ midC k c j = k * nb).
    { intros j Hj. unfold midS, midC, sk, ck. destruct (Z.ltb_spec j (c * nb)); [lia|]. rewrite andb_false_r, EK.
      assert (k <= j / nb) by (apply Z.div_le_lower_bound; lia). split; [nia|lia]. }
    unfold a_upd. remember (a_swaps (k * nb) (Z.min (k * nb + nb) m) (c * nb) (tile_nview A c) p X) as Y eqn:EY.
    assert (LY : lu_inv big m n A0 Y (fun t => p t - 1) (Z.min (k * nb + nb) m)
      (fun j => if D j then Z.min (k * nb + nb) m else midS k c j) (midC k c)).
    { apply (lu_swap big m n A0 X Y (fun t => p t - 1) _ (midS k c) _ (midC k c) LU).
      - intros j Hj. pose proof (lu_s _ _ _ _ _ _ _ _ _ LU j Hj). destruct (D j); lia.
      - intros i j Hi Hj. rewrite EY. unfold a_swaps. rewrite PI. cbn [andb]. fold (D j). destruct (D j) eqn:ED.
        + apply DS in ED. destruct (SD j ltac:(lia)) as [-> _]. reflexivity.
        + rewrite perm_same by lia. reflexivity. }
    assert (OT : forall i j, D j = false \/ i < k * nb ->
      a_tail k c (a_trsm (k * nb) (tile_mview A k) (c * nb) (tile_nview A c) Y) i j = Y i j).
    { intros i j Hij. unfold a_tail, a_trsm.
      assert (NB2 : ablk (k * nb) (tile_mview A k) (c * nb) (tile_nview A c) i j = false).
      { destruct (ablk_spec (k * nb) (tile_mview A k) (c * nb) (tile_nview A c) i j) as [[B1 B2]|]; [|reflexivity].
        destruct Hij as [Hij|]; [|lia]. apply DN in Hij. lia. }
      rewrite NB2. destruct (Z.leb_spec (k * nb + nb) i); cbn [andb]; [|reflexivity]. fold (D j).
      destruct Hij as [->|]; [reflexivity|lia]. }
    apply (lu_ext m n nb big A0 (a_tail k c (a_trsm (k * nb) (tile_mview A k) (c * nb) (tile_nview A c) Y)) _ (fun t => p t - 1) _ _
      (fun j => if D j then Z.min (k * nb + nb) m else midS k c j) _
      (fun j => if D j then Z.min (k * nb + nb) m else midC k c j)).
    - apply (lu_elim big m n A0 Y _ (fun t => p t - 1) _ (fun j => if D j then Z.min (k * nb + nb) m else midS k c j) (midC k c) D (k * nb) LY).
      + lia.
      + intros t Ht. destruct (D t); [reflexivity|]. unfold midS. destruct (Z.leb_spec (k * nb) t), (Z.ltb_spec t (c * nb)); cbn [andb]; lia.
      + intros j Hj HD. rewrite HD. apply DS in HD. destruct (SD j ltac:(lia)) as [_ ->]. split; [lia|]. split; [reflexivity|reflexivity].
      + intros i j Hi Hj Hij. apply OT. assumption.
      + intros i j Hi Hj HD. pose proof (proj1 (DS j) HD) as HJ.
        destruct (Z_lt_le_dec i (Z.min (k * nb + nb) m)) as [Hlt|Hge].
        * rewrite Z.min_l by lia.
          assert (TT : forall t, k * nb <= t <= i -> a_tail k c (a_trsm (k * nb) (tile_mview A k) (c * nb) (tile_nview A c) Y) t j =
            a_trsm (k * nb) (tile_mview A k) (c * nb) (tile_nview A c) Y t j).
          { intros t Ht. unfold a_tail. destruct (Z.leb_spec (k * nb + nb) t); [lia|]. reflexivity. }
          rewrite TT by lia. rewrite (a_trsm_spec (k * nb) (tile_mview A k) (c * nb) (tile_nview A c) Y i j) at 1 by lia.
          f_equal. apply (nsum_ext F). intros t Ht. rewrite TT by lia. reflexivity.
        * assert (EM : Z.min (k * nb + nb) m = k * nb + nb) by lia. rewrite EM in *. rewrite Z.min_r by lia.
          remember (a_trsm (k * nb) (tile_mview A k) (c * nb) (tile_nview A c) Y) as Z1 eqn:EZ.
          assert (Z1Y : forall x y, k * nb + nb <= x \/ D y = false -> Z1 x y = Y x y).
          { intros x y Hxy. rewrite EZ. unfold a_trsm.
            destruct (ablk_spec (k * nb) (tile_mview A k) (c * nb) (tile_nview A c) x y) as [[B1 B2]|]; [|reflexivity].
            destruct Hxy as [|Hxy]; [lia|]. apply DN in Hxy. lia. }
          assert (NE : nsum (fun t => nmul (Y i t) (a_tail k c Z1 t j)) (k * nb) (k * nb + nb) =
                       nsum (fun t => nmul (Z1 i t) (Z1 t j)) (k * nb) (k * nb + nb)).
          { apply (nsum_ext F). intros t Ht. f_equal; [symmetry; apply Z1Y; lia|]. unfold a_tail.
            destruct (Z.leb_spec (k * nb + nb) t); [lia|reflexivity]. }
          rewrite NE. unfold a_tail. fold (D j). rewrite HD. destruct (Z.leb_spec (k * nb + nb) i); [|lia]. cbn [andb].
          rewrite <- (Z1Y i j) by (left; lia). ring.
    - reflexivity.
    - reflexivity.
    - intros j Hj. unfold midS, D. rewrite ES. replace ((c + 1) * nb) with (c * nb + nb) by ring.
      destruct (Z.leb_spec (c * nb) j), (Z.ltb_spec j (c * nb + tile_nview A c)), (Z.leb_spec (k * nb) j), (Z.ltb_spec j (c * nb)),
        (Z.ltb_spec j (c * nb + nb)); cbn [andb]; try reflexivity; lia.
    - intros j Hj. unfold midC, D. rewrite ES. replace ((c + 1) * nb) with (c * nb + nb) by ring.
      destruct (Z.leb_spec (c * nb) j), (Z.ltb_spec j (c * nb + tile_nview A c)), (Z.leb_spec (k * nb) j), (Z.ltb_spec j (c * nb)),
        (Z.ltb_spec j (c * nb + nb)); cbn [andb]; try reflexivity; lia.
  Qed.

  Lemma mid_end : forall k M code, 0 <= k < T -> inv (E (k + 1)) (midS k (d_nt A)) (midC k (d_nt A)) M code ->
    inv (E (k + 1)) (sk (k + 1)) (ck (k + 1)) M code.
  Proof.
    intros k M code Hk H. pose proof nb_pos as NB. pose proof (E_k k Hk) as EK. pose proof nt_ge as NG.
    assert (EE : k * nb <= E (k + 1) <= k * nb + nb) by (pose proof (T_lt k Hk); unfold E; lia).
    apply (inv_ext _ _ _ _ _ _ _ H).
    - intros j Hj. unfold midS. destruct (Z.ltb_spec j (d_nt A * nb)); [|lia]. rewrite andb_true_r. unfold sk.
      destruct (Z.leb_spec (k * nb) j).
      + assert (k <= j / nb) by (apply Z.div_le_lower_bound; lia). nia.
      + rewrite EK. assert (j / nb < k) by (apply Z.div_lt_upper_bound; lia). nia.
    - intros j Hj. unfold midC. destruct (Z.ltb_spec j (d_nt A * nb)); [|lia]. rewrite andb_true_r. unfold ck.
      destruct (Z.leb_spec (k * nb) j); lia.
  Qed.

  (* pivoting to the left *)
  Definition leftS (k j : Z) : Z := if j <? k * nb then q else sk T j.

  Lemma inv_left : forall k M code, 0 <= k < T - 1 -> inv q (leftS k) (ck T) M code ->
    inv q (leftS (k + 1)) (ck T) (k_fun (left_task b A pI k) M) code.
  Proof.
    intros k M code Hk (X & p & S & LG & HC & LU & FL). pose proof nb_pos as NB. pose proof (T_lt (k + 1) ltac:(lia)) as KQ.
    assert (HT : k + 1 < Z.min (d_mt A) (d_nt A)) by (unfold T in Hk; lia).
    pose proof (nv_spec k ltac:(lia)) as NVK. pose proof (nt_lt (k + 1) ltac:(lia)) as KN.
    assert (EV : tile_nview A k = nb) by lia. pose proof T_ge as TG.
    exists (a_swaps ((k + 1) * nb) q (k * nb) nb p X), p. split; [|split; [assumption|split; [assumption|split; [|assumption]]]].
    - cbn [left_task k_fun]. rewrite Emb, Enb. apply sim_swaps; fold m n q; try lia; assumption.
    - intros C0. specialize (LU C0). apply (lu_swap big m n A0 X _ (fun t => p t - 1) q (leftS k) _ (ck T) LU).
      + intros j Hj. pose proof (lu_s _ _ _ _ _ _ _ _ _ LU j Hj). unfold leftS in *. replace ((k + 1) * nb) with (k * nb + nb) by ring.
        destruct (Z.ltb_spec j (k * nb)), (Z.ltb_spec j (k * nb + nb)); lia.
      + intros i j Hi Hj. unfold a_swaps. rewrite (legal_pivots_in ((k + 1) * nb) q q p LG) by nia. cbn [andb].
        unfold leftS. replace ((k + 1) * nb) with (k * nb + nb) in * by ring.
        destruct (Z.leb_spec (k * nb) j), (Z.ltb_spec j (k * nb + nb)), (Z.ltb_spec j (k * nb)); cbn [andb]; try lia;
          try (rewrite perm_same by lia; reflexivity).
        unfold sk, E. assert (EJ : j / nb = k) by (symmetry; apply (Z.div_unique j nb k (j - k * nb)); lia).
        rewrite EJ. replace (Z.min ((k + 1) * nb) (Z.min (T * nb) q)) with (k * nb + nb) by lia. reflexivity.
  Qed.

  Lemma pzgetrf_inv : tr (fun M c => M = M0 /\ c = 0) (pzgetrf bigger b A pI ib mpt)
    (inv q (fun _ => q) (fun j => Z.min (j + 1) q)).
  Proof.
    pose proof nb_pos as NB. pose proof T_ge as TG. assert (T0 : 0 < T) by (unfold T; pose proof mt_pos; pose proof nt_pos; lia).
    assert (ET : E T = q) by (unfold E; lia). unfold pzgetrf. fold T.
    eapply tr_app; [|eapply tr_app].
    - apply (tr_mono (inv (E 0) (sk 0) (ck 0)) _ (inv (E T) (sk T) (ck T)) (inv (E T) (sk T) (ck T))).
      + intros M c [-> ->]. apply inv_start.
      + intros M c H. exact H.
      + apply (tr_loop (fun k => inv (E k) (sk k) (ck k)) (fun k =>
          map (fun m => sure (fake_task [dep_in (tptr b A m k); dep_inout (tptr b A k k)])) (zrange (k + 1) (d_mt A - 1)) ++
          panel_task bigger b A pI ib mpt k ::
          map (fun n => sure (update_task b A pI k n)) (zrange (k + 1) (d_nt A))) 0 T ltac:(lia)).
        intros k Hk. eapply tr_app; [apply tr_fakes|].
        change (panel_task bigger b A pI ib mpt k :: map (fun n => sure (update_task b A pI k n)) (zrange (k + 1) (d_nt A)))
          with ([panel_task bigger b A pI ib mpt k] ++ map (fun n => sure (update_task b A pI k n)) (zrange (k + 1) (d_nt A))).
        eapply tr_app; [apply inv_panel; assumption|].
        apply (tr_mono (inv (E (k + 1)) (midS k (k + 1)) (midC k (k + 1))) _ (inv (E (k + 1)) (midS k (d_nt A)) (midC k (d_nt A))) _).
        * auto.
        * intros M c. apply mid_end. assumption.
        * apply (tr_map (fun c => inv (E (k + 1)) (midS k c) (midC k c)) (fun n => update_task b A pI k n)); [unfold T in Hk; lia|].
          intros c M code Hc. apply inv_update; [assumption|lia].
    - apply tr_fakes.
    - apply (tr_mono (inv q (leftS 0) (ck T)) _ (inv q (leftS (T - 1)) (ck T)) _).
      + intros M c H. rewrite ET in H. apply (inv_ext _ _ _ _ _ _ _ H); [|reflexivity].
        intros j Hj. unfold leftS. destruct (Z.ltb_spec j (0 * nb)); [lia|reflexivity].
      + intros M c H. apply (inv_ext _ _ _ _ _ _ _ H).
        * intros j Hj. unfold leftS, sk. rewrite ET. destruct (Z.ltb_spec j ((T - 1) * nb)) as [|Hge]; [reflexivity|].
          assert (T - 1 <= j / nb) by (apply Z.div_le_lower_bound; lia). nia.
        * intros j Hj. unfold ck. rewrite ET. reflexivity.
      + apply (tr_loop (fun k => inv q (leftS k) (ck T)) (fun k => sure (left_task b A pI k) ::
          map (fun m => sure (fake_task [dep_in (tptr b A (k + 1) k); dep_inout (tptr b A m k)])) (zrange (k + 2) (d_mt A - 1)))
          0 (T - 1) ltac:(lia)).
        intros k Hk.
        change (sure (left_task b A pI k) ::
          map (fun m => sure (fake_task [dep_in (tptr b A (k + 1) k); dep_inout (tptr b A m k)])) (zrange (k + 2) (d_mt A - 1)))
          with ([sure (left_task b A pI k)] ++
          map (fun m => sure (fake_task (V := cell F) [dep_in (tptr b A (k + 1) k); dep_inout (tptr b A m k)])) (zrange (k + 2) (d_mt A - 1))).
        eapply tr_app; [|apply tr_fakes]. apply tr_sure. intros M c. apply inv_left. assumption.
  Qed.
End Getrf.
