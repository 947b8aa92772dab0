(* What the tasks of plasma_pzgbtrf do to the band matrix and the pivots. *)
From Coq Require Import ZArith List Bool Lia Ring.
From Verif Require Import Base NumModel NumProofs FieldModel TaskModel TaskSpec TaskProofs DescModel DescSpec DescProofs
  DescPackProofs DescDriverModel MatModel MatSpec MatProofs RegionProofs LayoutModel OpProofs GemmModel GemmProofs TriModel TriVecProofs
  SwpModel SwpSpec SwpProofs LuProofs GridProofs GuardModel GuardSpec GuardProofs GuardProofs2 BandLayoutProofs NormGbLayoutProofs
  GetrfModel GetrfSpec GetrfAbsProofs GetrfPanelProofs GetrfProofs GetrfRegionProofs GbtrfModel GbtrfMathProofs.
Import ListNotations.
Open Scope Z_scope.

(* the panel factorization *)
Section Core.
  Context {F : fields}.
  Variable bigger : F -> F -> bool.
  Variables (b : Z) (W : desc) (pI : loc) (ib size : Z).
  Hypothesis G : gen_ok W.
  Hypothesis Hm : 0 < d_m W.
  Hypothesis Hn : 0 < d_n W.
  Hypothesis Hnb : d_n W <= d_nb W.
  Hypothesis Hmb : d_n W <= d_mb W.
  Hypothesis Hib : 0 < ib.
  Hypothesis Hsize : 0 < size.
  Hypothesis Hpi : fst pI <> b.
  Let m := d_m W.
  Let n := d_n W.
  Let q := Z.min m n.

  Lemma core_outcome : forall M M', meq M' (fst (core_zgetrf bigger b W pI ib size M)) ->
    lu_outcome bigger m n (lel M b W) (lel M' b W) (pivots M' pI) (snd (core_zgetrf bigger b W pI ib size M)).
  Proof.
    intros M M' HM.
    assert (S0 : st b W pI M M (lel M b W) (pivots M pI)) by (constructor; reflexivity).
    destruct (sim_getrf bigger b W pI ib size G Hm Hn Hnb Hmb Hib Hsize M M _ _ S0) as [[S1 S2 S3 S4] SI].
    fold m n q in S1, S2, S3, S4, SI.
    destruct (a_getrf_lu bigger m n (d_mb W) ib size ltac:(unfold n; lia) Hm Hib Hsize (fun _ _ => false) (or_introl (fun _ _ => eq_refl))
      (lel M b W) (lel M b W) (pivots M pI) ltac:(auto)) as (G1 & G2 & G3 & G4). fold q in G1, G2, G3, G4.
    rewrite SI. unfold lu_outcome. fold q. split; [assumption|].
    remember (a_getrf bigger m n (d_mb W) ib size (lel M b W) (pivots M pI)) as s eqn:Es in *.
    assert (EX : forall i j, 0 <= i < m -> 0 <= j < n -> lel M' b W i j = aX s i j).
    { intros i j Hi Hj. unfold lel, el. rewrite HM. apply S1; assumption. }
    assert (EP : forall t, 0 <= t < q -> pivots M' pI t = aP s t).
    { intros t Ht. unfold pivots. rewrite HM. apply (S2 t Ht). }
    assert (QM : q <= m /\ q <= n) by (unfold q; lia).
    split.
    - intros E0. specialize (G3 E0). split; [|split].
      + split.
        * intros t Ht. fold q in Ht. rewrite EP by assumption. specialize (G1 t Ht). cbn beta in G1. lia.
        * intros i j [Hi Hj]. fold q.
          assert (EPM : source (interchanges (pivots M' pI) (Z.to_nat q)) i = perm (fun t => aP s t - 1) 0 q i).
          { rewrite interchanges_z by (unfold q, m, n; lia). unfold perm. apply (f_equal (fun s => source s i)). apply map_ext_in.
            intros t Ht. apply in_zrange in Ht. rewrite EP by assumption. reflexivity. }
          rewrite EPM. transitivity (nsum (fun l => nmul (factor_L (aX s) i l) (factor_U (aX s) l j)) 0 q).
          -- apply (lu_done (fun _ _ => false) m n _ (aX s) (fun t => aP s t - 1) (fun _ => q) (fun j => Z.min (j + 1) q)); auto; unfold m, n; lia.
          -- apply (nsum_ext F). intros l Hl. unfold factor_L, factor_U. rewrite (EX i l), (EX l j) by lia. reflexivity.
      + intros t Ht. unfold factor_U. fold q in Ht. rewrite Z.leb_refl, EX by lia.
        pose proof (lu_nz _ _ _ _ _ _ _ _ _ G3 t ltac:(lia) ltac:(cbv beta; lia) ltac:(lia)) as NZ. unfold full in NZ.
        rewrite perm_same in NZ by lia. assumption.
      + intros CO. destruct (comparison_order bigger CO) as [O1 O2].
        destruct (a_getrf_lu bigger m n (d_mb W) ib size ltac:(unfold n; lia) Hm Hib Hsize bigger (or_intror (conj O1 eq_refl))
          (lel M b W) (lel M b W) (pivots M pI) ltac:(auto)) as (_ & _ & G3' & _). fold q in G3'. rewrite <- Es in G3'. specialize (G3' E0).
        intros i t Ht Hi. fold q in Ht.
        pose proof (lu_small _ _ _ _ _ _ _ _ _ G3' i t ltac:(lia) ltac:(cbv beta; lia) Hi) as SM. unfold full in SM.
        rewrite !perm_same in SM by lia. unfold factor_U, factor_L. rewrite Z.leb_refl.
        replace (i =? t) with false by (symmetry; apply Z.eqb_neq; lia). replace (t <? i) with true by (symmetry; apply Z.ltb_lt; lia).
        rewrite !EX by lia. assumption.
    - intros N CO. destruct (comparison_order bigger CO) as [O1 O2]. apply (dep0_column W); [lia|]. apply G4; assumption.
  Qed.

  Lemma core_frame : forall M l, 
    (~ panel m n (fun i j => (b, elem_off W i j)) l -> fst (fst (core_zgetrf bigger b W pI ib size M) l) = fst (M l)) /\
    (~ ipiv_sec pI 0 q l -> snd (fst (core_zgetrf bigger b W pI ib size M) l) = snd (M l)).
  Proof.
    intros M l. assert (S0 : st b W pI M M (lel M b W) (pivots M pI)) by (constructor; reflexivity).
    destruct (sim_getrf bigger b W pI ib size G Hm Hn Hnb Hmb Hib Hsize M M _ _ S0) as [[S1 S2 S3 S4] SI]. auto.
  Qed.

  (* it depends on nothing else *)
  Lemma core_local : forall M M',
    (forall i j, 0 <= i < m -> 0 <= j < n -> M (b, elem_off W i j) = M' (b, elem_off W i j)) ->
    (forall t, 0 <= t < q -> M (fst pI, snd pI + t) = M' (fst pI, snd pI + t)) ->
    snd (core_zgetrf bigger b W pI ib size M) = snd (core_zgetrf bigger b W pI ib size M') /\
    (forall i j, 0 <= i < m -> 0 <= j < n -> fst (core_zgetrf bigger b W pI ib size M) (b, elem_off W i j) =
       fst (core_zgetrf bigger b W pI ib size M') (b, elem_off W i j)) /\
    (forall t, 0 <= t < q -> fst (core_zgetrf bigger b W pI ib size M) (fst pI, snd pI + t) =
       fst (core_zgetrf bigger b W pI ib size M') (fst pI, snd pI + t)).
  Proof.
    intros M M' E1 E2.
    assert (S0 : st b W pI M M (lel M b W) (pivots M pI)) by (constructor; reflexivity).
    assert (S0' : st b W pI M' M' (lel M b W) (pivots M pI)).
    { constructor; try reflexivity.
      - intros i j Hi Hj. rewrite <- E1 by assumption. reflexivity.
      - intros t Ht. unfold ipiv_at. rewrite <- E2 by assumption. reflexivity. }
    destruct (sim_getrf bigger b W pI ib size G Hm Hn Hnb Hmb Hib Hsize M M _ _ S0) as [[S1 S2 S3 S4] SI].
    destruct (sim_getrf bigger b W pI ib size G Hm Hn Hnb Hmb Hib Hsize M' M' _ _ S0') as [[S1' S2' S3' S4'] SI'].
    fold m n q in S1, S2, S3, S4, SI, S1', S2', S3', S4', SI'.
    split; [congruence|]. split.
    - intros i j Hi Hj. apply injective_projections; [rewrite S1, S1' by assumption; reflexivity|].
      rewrite S4, S4'; [rewrite E1 by assumption; reflexivity| |]; intros (t & _ & E); apply (f_equal fst) in E; cbn in E; congruence.
    - intros t Ht. apply injective_projections; [|exact (eq_trans (S2 t Ht) (eq_sym (S2' t Ht)))].
      rewrite S3, S3'; [rewrite E2 by assumption; reflexivity| |]; intros (i & j & _ & _ & E); apply (f_equal fst) in E; cbn in E; congruence.
  Qed.
End Core.

(* where the elements of the band matrix lie *)
Section Facts.
  Variables (A : desc) (nb n kl ku b : Z).
  Hypothesis HA : gd_ok A nb n n kl ku.
  Hypothesis BK : band_ok A.

  Definition gE (i j : Z) : loc := (b, elem_off A i j).
  (* the elements of the tiles of the band *)
  Definition tbe (i j : Z) : Prop := 0 <= i < n /\ 0 <= j < n /\ j / nb - i / nb < d_kut A /\ i / nb - j / nb < d_klt A.

  Lemma gf_pos : 0 < nb. Proof. apply (gd_pos _ _ _ _ _ _ HA). Qed.
  Lemma gf_n : 0 < n. Proof. pose proof (gd_kl0 _ _ _ _ _ _ HA). lia. Qed.
  Lemma gf_mb : d_mb A = nb. Proof. apply (sq_mb nb A _ (gd_sq _ _ _ _ _ _ HA)). Qed.
  Lemma gf_nb : d_nb A = nb. Proof. apply (sq_nb nb A _ (gd_sq _ _ _ _ _ _ HA)). Qed.
  Lemma gf_T : forall k, 0 <= k -> (k < ntl nb n <-> k * nb < n).
  Proof. intros k Hk. pose proof gf_pos. pose proof gf_n. apply ntl_spec; lia. Qed.
  Lemma gf_T_ge : n <= ntl nb n * nb.
  Proof.
    pose proof gf_pos. pose proof gf_n. assert (0 <= ntl nb n) by (unfold ntl; apply Z.div_pos; lia).
    destruct (Z_lt_le_dec (ntl nb n * nb) n) as [L|L]; [|assumption]. apply gf_T in L; lia.
  Qed.
  Lemma gf_main : forall k, tile_mmain A k = nb. Proof. apply (gd_mmain _ _ _ _ _ _ HA). Qed.
  Lemma gf_mainb : forall k c, tile_mmain_band A k c = nb.
  Proof. intros k c. unfold tile_mmain_band. apply gf_main. Qed.
  Lemma gf_klt : nb + kl <= d_klt A * nb.
  Proof.
    rewrite (gd_klt _ _ _ _ _ _ HA). pose proof gf_pos. pose proof (gd_kl0 _ _ _ _ _ _ HA). unfold ntl.
    pose proof (Z.div_mod (kl + nb - 1) nb ltac:(lia)). pose proof (Z.mod_pos_bound (kl + nb - 1) nb ltac:(lia)). nia.
  Qed.
  Lemma gf_kut : nb + kl + ku <= d_kut A * nb.
  Proof.
    rewrite (gd_kut _ _ _ _ _ _ HA). pose proof gf_pos. unfold ntl.
    pose proof (Z.div_mod (ku + kl + nb - 1) nb ltac:(lia)). pose proof (Z.mod_pos_bound (ku + kl + nb - 1) nb ltac:(lia)). nia.
  Qed.
  Lemma gf_klt1 : 1 <= d_klt A. Proof. apply (bk_klt A BK). Qed.
  Lemma gf_kut1 : 1 <= d_kut A. Proof. apply (bk_kut A BK). Qed.

  Lemma gf_mv : forall k, 0 <= k < ntl nb n -> tile_mview A k = pw nb n k.
  Proof.
    intros k Hk. pose proof (sq_t nb A _ (gd_sq _ _ _ _ _ _ HA)) as T.
    destruct (mview_spec A k (td_shape _ _ T)) as [E R]; [rewrite (gd_mt _ _ _ _ _ _ HA); assumption|].
    rewrite E, gf_mb, (gd_m _ _ _ _ _ _ HA). reflexivity.
  Qed.
  Lemma gf_nv : forall k, 0 <= k < ntl nb n -> tile_nview A k = pw nb n k.
  Proof.
    intros k Hk. pose proof (sq_t nb A _ (gd_sq _ _ _ _ _ _ HA)) as T.
    destruct (nview_spec A k (td_shape _ _ T)) as [E R]; [rewrite (gd_nt _ _ _ _ _ _ HA); assumption|].
    rewrite E, gf_nb, (gd_n _ _ _ _ _ _ HA). reflexivity.
  Qed.
  Lemma gf_rows : forall k, 0 <= k < ntl nb n -> gb_rows A k = ph nb n kl k.
  Proof.
    intros k Hk. unfold gb_rows, ph. rewrite gf_mv by assumption. rewrite gf_mb, (gd_m _ _ _ _ _ _ HA), (gd_kl _ _ _ _ _ _ HA). reflexivity.
  Qed.

  Lemma gf_div : forall c x, 0 <= x < nb -> (c * nb + x) / nb = c.
  Proof. intros c x Hx. pose proof gf_pos. rewrite Z.div_add_l, Z.div_small by lia. lia. Qed.

  Lemma gf_at : forall r c x y, 0 <= x < nb -> 0 <= y < nb -> at_ (tptr b A r c) nb x y = gE (r * nb + x) (c * nb + y).
  Proof.
    intros r c x y Hx Hy. pose proof gf_pos. unfold at_, tptr, gE, elem_off. cbn [fst snd]. rewrite gf_mb, gf_nb, gf_main, !gf_div by assumption.
    rewrite !(Z.add_comm (_ * nb)), !Z.mod_add, !Z.mod_small by lia. reflexivity.
  Qed.

  Lemma gf_band : forall i j, elem_off A i j = band_elem_off A i j.
  Proof. intros i j. unfold elem_off, band_elem_off. rewrite gf_mainb, gf_main. reflexivity. Qed.
  Lemma gf_tb : forall i j, tbe i j -> in_tile_band A i j.
  Proof.
    intros i j (H1 & H2 & H3 & H4). unfold in_tile_band. rewrite gf_mb, gf_nb, (gd_m _ _ _ _ _ _ HA), (gd_n _ _ _ _ _ _ HA). lia.
  Qed.
  Lemma gf_inj : forall i j i' j', tbe i j -> tbe i' j' -> gE i j = gE i' j' -> i = i' /\ j = j'.
  Proof.
    intros i j i' j' H H' E. injection E as E. rewrite !gf_band in E. apply (band_inj A) in E; auto using gf_tb.
  Qed.

  Lemma gf_view : forall k c, 0 <= k -> k <= c < Z.min (ntl nb n) (k + d_kut A) ->
    let W := gb_view A k c in
    gen_ok W /\ d_m W = ph nb n kl k /\ d_n W = pw nb n c /\ d_mb W = nb /\ d_nb W = nb /\
    (forall r x, 0 <= r < ph nb n kl k -> 0 <= x < pw nb n c -> elem_off W r x = elem_off A (k * nb + r) (c * nb + x)).
  Proof.
    intros k c Hk Hc. cbv zeta. pose proof gf_pos as NB. pose proof gf_klt as KT. pose proof gf_klt1 as K1. pose proof gf_kut1 as K2.
    pose proof (gd_kl0 _ _ _ _ _ _ HA) as KL.
    assert (CN : c * nb < n) by (apply gf_T; lia). assert (KN : k * nb < n) by (apply gf_T; lia).
    assert (PW : 0 < pw nb n c <= nb /\ c * nb + pw nb n c <= n) by (unfold pw; lia).
    assert (PH : 0 < ph nb n kl k <= nb + kl /\ k * nb + ph nb n kl k <= n) by (unfold ph, pw; lia).
    assert (Q : 0 <= (d_kut A - 1 + k - c) * nb /\ (d_kut A - 1 + k - c) * nb + d_klt A * nb <= (d_klt A + d_kut A - 1) * nb).
    { split; [apply Z.mul_nonneg_nonneg; lia|nia]. }
    unfold gb_view, the_view. rewrite gf_rows, gf_nv by lia. rewrite gf_mb, gf_nb.
    destruct BK as [Ht Hmb Hsq Hi Hj Hm Hn Hgn Hkl Hku Hgm H1 H2 H3].
    rewrite gf_mb in Hgm. rewrite (gd_n _ _ _ _ _ _ HA) in Hgn.
    unfold desc_view_opt. rewrite Hi, Hj. 
    destruct (Z.ltb_spec (d_gm A) (0 + (d_kut A - 1 + k - c) * nb + ph nb n kl k)) as [L|_]; [lia|].
    destruct (Z.ltb_spec (d_gn A) (0 + c * nb + pw nb n c)) as [L|_]; [lia|]. cbv zeta.
    match goal with |- gen_ok ?W /\ _ => assert (GW : gen_ok W) end.
    { constructor; cbn; auto. constructor; cbn; rewrite ?gf_mb, ?gf_nb; try lia; try (intros _; lia); try (apply Z.mod_mul; lia); reflexivity. }
    match goal with |- gen_ok ?W /\ _ => remember W as W0 eqn:EW end.
    split; [exact GW|].
    split; [rewrite EW; reflexivity|]. split; [rewrite EW; reflexivity|]. split; [rewrite EW; exact gf_mb|]. split; [rewrite EW; exact gf_nb|].
    intros r x Hr Hx. rewrite (elem_off_gaddr W0 r x GW). rewrite EW. cbn [d_mb d_nb d_gm d_gn d_i d_j as_general].
    assert (TB : tbe (k * nb + r) (c * nb + x)).
    { unfold tbe. rewrite (gf_div c) by lia. 
      assert (K : k <= (k * nb + r) / nb < k + d_klt A).
      { split; [apply Z.div_le_lower_bound; lia|apply Z.div_lt_upper_bound; lia]. }
      lia. }
    rewrite gf_band. destruct (band_elem_off_gaddr A _ _ BK (gf_tb _ _ TB)) as [_ ->].
    rewrite !gf_mb, gf_nb. rewrite (gf_div c) by lia. f_equal; lia.
  Qed.

  (* the part of column block c that step k touches *)
  Definition gR (k : Z) : Z := Z.min n ((k + d_klt A) * nb).

  Lemma gf_part : forall k c l, 0 <= k -> 0 <= c < ntl nb n ->
    (gb_part b A k c l <-> exists i j, k * nb <= i < gR k /\ c * nb <= j < c * nb + pw nb n c /\ l = gE i j).
  Proof.
    intros k c l Hk Hc. pose proof gf_pos as NB. unfold gb_part, gR. rewrite (gd_mt _ _ _ _ _ _ HA).
    assert (CN : c * nb < n) by (apply gf_T; lia).
    split.
    - intros (m & Hm & i & j & Hi & Hj & _ & ->). rewrite gf_mainb in *. rewrite gf_mv in Hi by lia. rewrite gf_nv in Hj by lia.
      assert (MN : m * nb < n) by (apply gf_T; lia). unfold pw in Hi.
      rewrite gf_at by (unfold pw in *; lia). exists (m * nb + i), (c * nb + j). split; [|split; [lia|reflexivity]].
      assert (k * nb <= m * nb) by nia. assert ((m + 1) * nb <= (k + d_klt A) * nb) by nia. lia.
    - intros (i & j & Hi & Hj & ->). pose proof (Z.div_mod i nb ltac:(lia)) as E. pose proof (Z.mod_pos_bound i nb NB) as B.
      assert (D1 : k <= i / nb) by (apply Z.div_le_lower_bound; lia).
      assert (D2 : i / nb < k + d_klt A) by (apply Z.div_lt_upper_bound; lia).
      assert (D3 : i / nb < ntl nb n) by (apply gf_T; lia).
      exists (i / nb). split; [lia|]. exists (i mod nb), (j - c * nb). rewrite gf_mainb, gf_mv, gf_nv by lia.
      split; [unfold pw; lia|]. split; [lia|]. split; [reflexivity|].
      rewrite gf_at by (unfold pw in *; lia). f_equal; lia.
  Qed.

  Lemma gR_tbe : forall k c i j, 0 <= k -> k <= c < Z.min (ntl nb n) (k + d_kut A) -> k * nb <= i < gR k ->
    c * nb <= j < c * nb + pw nb n c -> tbe i j.
  Proof.
    intros k c i j Hk Hc Hi Hj. pose proof gf_pos as NB. unfold gR in Hi. unfold pw in Hj.
    assert (CN : c * nb < n) by (apply gf_T; lia).
    replace j with (c * nb + (j - c * nb)) by lia. unfold tbe. rewrite gf_div by lia.
    assert (D1 : k <= i / nb) by (apply Z.div_le_lower_bound; lia).
    assert (D2 : i / nb < k + d_klt A) by (apply Z.div_lt_upper_bound; lia). nia.
  Qed.

  Lemma ph_gR : forall k, 0 <= k < ntl nb n -> k * nb + ph nb n kl k <= gR k.
  Proof.
    intros k Hk. pose proof gf_klt. pose proof gf_pos. unfold gR, ph, pw. lia.
  Qed.
End Facts.
