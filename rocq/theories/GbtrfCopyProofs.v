(* Copying a factored general band matrix back from tiles. *)
From Coq Require Import ZArith List Bool Lia.
From Verif Require Import Base NumModel NumProofs FieldModel TaskModel TaskSpec TaskProofs DescModel DescSpec
  DescDriverModel DescProofs DescPackProofs DescProofs3 DescProofs4 MatModel MatSpec MatProofs RegionProofs
  LayoutModel LayoutProofs LayoutProofs2 DriverModel DriverSpec OpProofs OperandProofs GemmProofs
  BandModel BandSpec BandProofs BandLayoutProofs BandGbProofs NormModel NormSpec FillProofs NormBandModel.
From Verif Require Import NormBandSpec NormGbLayoutProofs.
Import ListNotations.
Open Scope Z_scope.

Section Out.
  Context {N : numbers}.
  Variables (A : desc) (nb n kl ku b : Z) (p : loc) (ld : Z).
  Hypothesis HA : gd_ok A nb n n kl ku.
  Hypothesis HB : fst p <> b.
  (* columns do not overlap in the array *)
  Hypothesis LD : Z.max (kl + ku) (nb - 1) + ((kl + nb - 1) / nb + 1) * nb <= ld.
  Let Hb := gd_pos _ _ _ _ _ _ HA.
  Let Hkl := gd_kl0 _ _ _ _ _ _ HA.
  Let Hku := gd_ku0 _ _ _ _ _ _ HA.
  Let SQ : n <= n \/ n mod nb = 0.
  Proof. left. lia. Qed.
  Let S := gd_sq _ _ _ _ _ _ HA.

  Definition gU (i j : Z) : loc := (fst p, snd p + (kl + ku + i - j) + ld * j).

  Lemma reads_window : forall i j, gb_reads nb kl ku i j ->
    - Z.max (kl + ku) (nb - 1) <= i - j < - Z.max (kl + ku) (nb - 1) + ld.
  Proof.
    intros i j [HR HK]. destruct (div_mod_pos i nb Hb) as [I1 I2]. destruct (div_mod_pos j nb Hb) as [J1 J2].
    assert (U : i - j <= (kl + nb - 1) / nb * nb + nb - 1) by (revert HK I1 J1; generalize (i / nb), (j / nb), ((kl + nb - 1) / nb); intros; nia).
    assert (L : - Z.max (kl + ku) (nb - 1) <= i - j).
    { destruct HR as [HR|HR]; [|lia]. assert (- (nb - 1) <= i - j) by (rewrite HR in I1; lia). lia. }
    split; [assumption|]. revert U LD. generalize ((kl + nb - 1) / nb). intros x U LD'. nia.
  Qed.

  Lemma gU_inj : forall i j i' j', gb_reads nb kl ku i j -> gb_reads nb kl ku i' j' -> gU i j = gU i' j' -> i = i' /\ j = j'.
  Proof.
    intros i j i' j' H H' E. apply reads_window in H, H'. unfold gU in E. injection E as E.
    assert (EE : (i - j) - (i' - j') = ld * (j' - j)) by lia. assert (j = j') by nia. subst j'. lia.
  Qed.

  Lemma reads_tb : forall i j, in_matrix n n i j -> gb_reads nb kl ku i j -> in_tb A (i / nb) (j / nb).
  Proof.
    intros i j [Hi Hj] [HR HK]. apply (gd_in_tb A nb n n kl ku HA). 
    destruct (pos_tile nb A _ S i n Hi) as (I1 & I2 & I3). destruct (pos_tile nb A _ S j n Hj) as (J1 & J2 & J3).
    split; [|split; [|split]].
    - split; [assumption|]. apply ntl_spec; lia.
    - split; [assumption|]. apply ntl_spec; lia.
    - apply (le_ntl A nb n n kl ku HA); [lia|]. destruct HR as [HR|HR]; [rewrite HR; nia|].
      pose proof (Z.mod_pos_bound i nb Hb) as MI. pose proof (Z.mod_pos_bound j nb Hb) as MJ.
      assert (DL : (j / nb - i / nb) * nb = (j - i) - j mod nb + i mod nb)
        by (clear -I3 J3; revert I3 J3; generalize (i / nb), (i mod nb), (j / nb), (j mod nb); intros i1 i2 j1 j2 -> ->; ring).
      rewrite DL. lia.
    - unfold ntl. exact HK.
  Qed.

  Lemma inb_reads : forall i j, in_matrix n n i j -> in_tb A (i / nb) (j / nb) ->
    (inb PlasmaGeneral (i / nb) (j / nb) (tsz nb n (i / nb)) (tsz nb n (j / nb)) nb kl ku (i mod nb) (j mod nb) = true <-> gb_reads nb kl ku i j).
  Proof.
    intros i j [Hi Hj] HT. rewrite inb_true.
    destruct (pos_tile nb A _ S i n Hi) as (I1 & I2 & I3). destruct (pos_tile nb A _ S j n Hj) as (J1 & J2 & J3).
    assert (DL : i - j = (i / nb - j / nb) * nb + i mod nb - j mod nb) by (clear -I3 J3; revert I3 J3; generalize (i / nb), (i mod nb), (j / nb), (j mod nb); intros i1 i2 j1 j2 -> ->; ring).
    assert (KT : i / nb - j / nb <= (kl + nb - 1) / nb) by (clear -HT HA; destruct HT as [_ HT]; rewrite (gd_klt _ _ _ _ _ _ HA) in HT; unfold ntl in HT; lia).
    pose proof (gd_full A nb n n kl ku HA SQ _ _ HT) as FU. destruct (gd_views A nb n n kl ku HA _ _ HT) as (V1 & V2 & V3 & V4 & _).
    unfold gb_reads, bj_start, bj_end, bi_start, bi_end. cbn [Z.eqb PlasmaGeneral Pos.eqb].
    assert (P1 : j / nb < i / nb -> nb <= (i / nb - j / nb) * nb) by (clear -Hb; generalize (i / nb), (j / nb); intros; nia).
    assert (P2 : i / nb < j / nb -> (i / nb - j / nb) * nb <= - nb) by (clear -Hb; generalize (i / nb), (j / nb); intros; nia).
    pose proof (Z.mod_pos_bound i nb Hb) as MI. pose proof (Z.mod_pos_bound j nb Hb) as MJ.
    replace ((j / nb - i / nb) * nb) with (- ((i / nb - j / nb) * nb)) by ring.
    clear LD HT I1 I3 J1 J3 V1 V2 SQ S Hi Hj. subst Hb Hkl Hku. pose proof (gd_kl0 _ _ _ _ _ _ HA) as K1. pose proof (gd_ku0 _ _ _ _ _ _ HA) as K2. clear HA.
    revert I2 J2 V3 V4 FU KT DL P1 P2 MI MJ. generalize ((i / nb - j / nb) * nb).
    generalize ((kl + nb - 1) / nb), (tsz nb n (i / nb)), (tsz nb n (j / nb)), (i mod nb), (j mod nb).
    generalize (i / nb), (j / nb). intros i1 j1 kt ti tj i2 j2 D I2 J2 V3 V4 FU KT DL P1 P2 MI MJ.
    destruct (Z.leb_spec j1 i1) as [L|L]; destruct (Z.leb_spec i1 j1) as [L'|L']; try lia.
  Qed.

  Lemma gd_out_eq : forall i j, @pb_out N b A p ld i j =
    omp_tile2lapack PlasmaGeneral i j (tsz nb n i) (tsz nb n j) nb kl ku (tptr b A i j) (tile_mmain A i) (bandA p ld A i j) (ld - 1).
  Proof.
    intros i j. unfold pb_out, tile_mmain_band. rewrite !(gd_mmain _ _ _ _ _ _ HA), (gd_uplo _ _ _ _ _ _ HA), (sq_nb nb A _ S),
      (sq_mb nb A _ S), (gd_kl _ _ _ _ _ _ HA), (gd_ku _ _ _ _ _ _ HA), (gd_m _ _ _ _ _ _ HA), (gd_n _ _ _ _ _ _ HA).
    reflexivity.
  Qed.

  Lemma idx_out_in : idx_out A = idx_in A.
  Proof. unfold idx_out, idx_in, bm_start_out, bm_start. rewrite (gd_uplo _ _ _ _ _ _ HA). reflexivity. Qed.

  Lemma bandA_at : forall i j x y, at_ (bandA p ld A x y) (ld - 1) (i - x * nb) (j - y * nb) = gU i j.
  Proof.
    intros i j x y. unfold at_, bandA, gU, band_offset. cbn [fst snd].
    rewrite (gd_uplo _ _ _ _ _ _ HA), (sq_nb nb A _ S), (sq_mb nb A _ S), (gd_kl _ _ _ _ _ _ HA), (gd_ku _ _ _ _ _ _ HA).
    cbn [Z.eqb PlasmaGeneral PlasmaUpper PlasmaLower Pos.eqb]. f_equal. ring.
  Qed.

  (* the elements of tile (x,y) in the array *)
  Lemma tile_el : forall x y r c, in_tb A x y -> 0 <= r < tsz nb n x -> 0 <= c < tsz nb n y ->
    in_matrix n n (x * nb + r) (y * nb + c) /\ (x * nb + r) / nb = x /\ (x * nb + r) mod nb = r /\
    (y * nb + c) / nb = y /\ (y * nb + c) mod nb = c.
  Proof.
    intros x y r c HT Hr Hc. destruct (gd_views A nb n n kl ku HA _ _ HT) as (V1 & V2 & V3 & V4 & _). unfold tsz in *.
    assert (D : forall q s, 0 <= s < nb -> (q * nb + s) / nb = q /\ (q * nb + s) mod nb = s).
    { intros q s Hs. replace (q * nb + s) with (s + q * nb) by lia. rewrite Z.div_add, Z.mod_add, Z.div_small, Z.mod_small by lia. lia. }
    destruct (D x r ltac:(lia)) as [-> ->]. destruct (D y c ltac:(lia)) as [-> ->]. split; [split; nia|]. auto.
  Qed.

  Lemma cut_in : forall x y, in_tb A x y -> forall i j, inb PlasmaGeneral x y (tsz nb n x) (tsz nb n y) nb kl ku i j = true ->
    0 <= i < tsz nb n x /\ 0 <= j < tsz nb n y.
  Proof.
    intros x y HT i j HI. apply inb_true in HI. destruct (gd_cut A nb n n kl ku HA SQ x y HT) as (C1 & C2 & C3).
    destruct HI as [H1 H2]. destruct (C3 j H1). lia.
  Qed.

  Lemma tile_reads : forall x y i j, in_tb A x y -> inb PlasmaGeneral x y (tsz nb n x) (tsz nb n y) nb kl ku i j = true ->
    in_matrix n n (x * nb + i) (y * nb + j) /\ gb_reads nb kl ku (x * nb + i) (y * nb + j).
  Proof.
    intros x y i j HT HI. destruct (cut_in x y HT i j HI) as [H1 H2]. destruct (tile_el x y i j HT H1 H2) as (E1 & E2 & E3 & E4 & E5).
    split; [assumption|]. apply inb_reads; [assumption|rewrite E2, E4; assumption|]. rewrite E2, E3, E4, E5. assumption.
  Qed.

  Lemma out_windowed : forall x y, in_tb A x y ->
    windowed PlasmaGeneral x y (tsz nb n x) (tsz nb n y) nb kl ku (ld - 1) (- Z.max (kl + ku) (nb - 1) - (x - y) * nb).
  Proof.
    intros x y HT i j HI. destruct (tile_reads x y i j HT HI) as [_ R]. apply reads_window in R. lia.
  Qed.

  Lemma gd_out_kgood1 : forall x y, in_tb A x y -> kgood (@pb_out N b A p ld x y).
  Proof. intros x y H. rewrite gd_out_eq. eapply t2l_kgood; [exact HB|]. apply out_windowed. assumption. Qed.

  Lemma out_writes : forall x y l, in_tb A x y -> k_writes (@pb_out N b A p ld x y) l ->
    exists i j, in_matrix n n i j /\ gb_reads nb kl ku i j /\ i / nb = x /\ j / nb = y /\ l = gU i j.
  Proof.
    intros x y l HT HW. rewrite gd_out_eq in HW. cbn [omp_tile2lapack k_writes] in HW. destruct HW as (i & j & Hj & Hi & ->).
    assert (HI : inb PlasmaGeneral x y (tsz nb n x) (tsz nb n y) nb kl ku i j = true) by (apply inb_true; auto).
    destruct (tile_reads x y i j HT HI) as [R1 R2]. destruct (cut_in x y HT i j HI) as [H1 H2].
    destruct (tile_el x y i j HT H1 H2) as (E1 & E2 & E3 & E4 & E5).
    exists (x * nb + i), (y * nb + j). repeat (split; [assumption|]). rewrite <- (bandA_at _ _ x y). f_equal; ring.
  Qed.
  Lemma out_reads : forall x y l, in_tb A x y -> k_reads (@pb_out N b A p ld x y) l -> fst l = b.
  Proof. intros x y l HT HW. rewrite gd_out_eq in HW. cbn [omp_tile2lapack k_reads] in HW. destruct HW as (i & j & _ & _ & ->). reflexivity. Qed.

  Lemma gd_out_list : @pzdesc2pb N b A p ld = flat_map (fun km => [pb_out b A p ld (snd km) (fst km)]) (idx_in A).
  Proof. rewrite (pzdesc2pb_eq A), idx_out_in. reflexivity. Qed.

  Lemma gd_out_in : forall x, In x (@pzdesc2pb N b A p ld) -> exists i j, in_tb A i j /\ x = pb_out b A p ld i j.
  Proof.
    intros x Hx. rewrite gd_out_list in Hx. apply in_flat_map in Hx. destruct Hx as ([j i] & Hi & [<-|[]]).
    apply (gd_idx A nb n n kl ku HA) in Hi. exists i, j. auto.
  Qed.

  Lemma gd_out_kgood : Forall kgood (@pzdesc2pb N b A p ld).
  Proof. apply Forall_forall. intros x Hx. destruct (gd_out_in x Hx) as (i & j & H & ->). apply gd_out_kgood1. assumption. Qed.

  Lemma gd_out_frame : forall M l, (forall i j, in_matrix n n i j -> gb_reads nb kl ku i j -> l <> gU i j) ->
    krun (@pzdesc2pb N b A p ld) M l = M l.
  Proof.
    intros M l Hl. apply krun_frame.
    { eapply Forall_impl; [|apply gd_out_kgood]. intros x G. apply (kg_sound _ G). }
    intros (x & Hx & W). destruct (gd_out_in x Hx) as (i & j & H & ->). destruct (out_writes i j l H W) as (i' & j' & H1 & H2 & _ & _ & H3).
    exact (Hl i' j' H1 H2 H3).
  Qed.

  Lemma gd_out_spec : forall M i j, in_matrix n n i j -> gb_reads nb kl ku i j ->
    krun (@pzdesc2pb N b A p ld) M (gU i j) = el M b A i j.
  Proof.
    intros M i j HM HR. pose proof (reads_tb i j HM HR) as HT. pose proof (proj2 (inb_reads i j HM HT) HR) as HI. destruct HM as [Hi Hj].
    destruct (pos_tile nb A _ S i n Hi) as (I1 & I2 & I3). destruct (pos_tile nb A _ S j n Hj) as (J1 & J2 & J3).
    assert (EU : at_ (bandA p ld A (i / nb) (j / nb)) (ld - 1) (i mod nb) (j mod nb) = gU i j).
    { rewrite <- (bandA_at i j (i / nb) (j / nb)). f_equal; lia. }
    rewrite gd_out_list.
    rewrite (krun_groups N _ (fun km => [pb_out b A p ld (snd km) (fst km)]) (idx_in A) M (j / nb, i / nb)); cbn [fst snd].
    - rewrite gd_out_eq. cbn [krun fold_left]. cbn [k_fun omp_tile2lapack]. rewrite <- EU.
      rewrite (t2l_in PlasmaGeneral _ _ _ _ _ _ _ (bandA p ld A (i / nb) (j / nb)) (tptr b A (i / nb) (j / nb)) (ld - 1) (tile_mmain A (i / nb)) HB _ M _ _ (out_windowed _ _ HT) HI).
      unfold rd, el, elem_off, at_, tptr. rewrite (sq_mb nb A _ S), (sq_nb nb A _ S). reflexivity.
    - intros [y x] Hxy. apply (gd_idx A nb n n kl ku HA) in Hxy. cbn [fst snd]. pose proof (gd_out_kgood1 x y Hxy) as G.
      split; (constructor; [|constructor]); [apply (kg_sound _ G)|apply kgood_kdecw; assumption].
    - apply NoDup_pairs; intros; apply NoDup_zrange.
    - intros [k x] [k' x'] l H1 H2 Hne W. apply (gd_idx A nb n n kl ku HA) in H1, H2. cbn [fst snd] in *.
      destruct W as (y & [<-|[]] & W). destruct (out_writes _ _ _ H2 W) as (r & c & R1 & R2 & R3 & R4 & ->).
      split; intros (y & [<-|[]] & W').
      + destruct (out_writes _ _ _ H1 W') as (r' & c' & R1' & R2' & R3' & R4' & E). apply gU_inj in E; try assumption.
        destruct E; subst r' c'. congruence.
      + apply (out_reads _ _ _ H1) in W'. apply HB. exact W'.
    - apply (gd_idx A nb n n kl ku HA). assumption.
    - left. eexists. split; [left; reflexivity|]. rewrite gd_out_eq. cbn [omp_tile2lapack k_writes]. rewrite <- EU.
      apply inb_true in HI. exists (i mod nb), (j mod nb). tauto.
  Qed.

  Lemma gd_out_free : forall l1 x l2 y l3, @pzdesc2pb N b A p ld = l1 ++ x :: l2 ++ y :: l3 -> ~ kconflict x y.
  Proof.
    intros l1 x l2 y l3 E (l & HC). rewrite gd_out_list in E.
    assert (ND : NoDup (idx_in A)) by (apply NoDup_pairs; intros; apply NoDup_zrange).
    assert (EM : map (fun km => @pb_out N b A p ld (snd km) (fst km)) (idx_in A) = l1 ++ x :: l2 ++ y :: l3).
    { rewrite <- E. clear. induction (idx_in A) as [|a l IH]; cbn; [reflexivity|]. rewrite IH. reflexivity. }
    assert (IN : forall km, In km (idx_in A) -> in_tb A (snd km) (fst km)) by (intros [j i] H; apply (gd_idx A nb n n kl ku HA); assumption).
    clear E. apply map_eq_app in EM. destruct EM as (a1 & a2 & E1 & _ & E2). apply map_eq_cons in E2.
    destruct E2 as (kx & a3 & -> & Ex & E2). apply map_eq_app in E2. destruct E2 as (a4 & a5 & -> & _ & E3).
    apply map_eq_cons in E3. destruct E3 as (ky & a6 & -> & Ey & _). rewrite E1 in ND, IN.
    assert (NE : kx <> ky).
    { intros ->. apply NoDup_remove_2 in ND. apply ND. apply in_or_app. right. apply in_elt. }
    assert (TX : in_tb A (snd kx) (fst kx)) by (apply IN; apply in_elt).
    assert (TY : in_tb A (snd ky) (fst ky)).
    { apply IN. apply in_or_app. right. right. apply in_elt. }
    subst x y.
    assert (WW : k_writes (@pb_out N b A p ld (snd kx) (fst kx)) l -> k_writes (@pb_out N b A p ld (snd ky) (fst ky)) l -> False).
    { intros W W'. destruct (out_writes _ _ _ TX W) as (r & c & R1 & R2 & R3 & R4 & ->). destruct (out_writes _ _ _ TY W') as (r' & c' & R1' & R2' & R3' & R4' & E).
      apply gU_inj in E; try assumption. destruct E; subst r' c'. apply NE. destruct kx, ky; cbn [fst snd] in *; congruence. }
    assert (WB : forall i j, in_tb A i j -> k_writes (@pb_out N b A p ld i j) l -> fst l <> b).
    { intros i j H W. destruct (out_writes _ _ _ H W) as (r & c & _ & _ & _ & _ & ->). exact HB. }
    destruct HC as [[W [R|W']]|[R W]].
    - apply (WB _ _ TX W). apply (out_reads _ _ _ TY R).
    - exact (WW W W').
    - apply (WB _ _ TY W). apply (out_reads _ _ _ TX R).
  Qed.
End Out.
