From Coq Require Import ZArith List Bool Lia Ring.
From Verif Require Import Base NumModel NumProofs TaskModel TaskSpec TaskProofs DescModel DescSpec
  DescDriverModel DescProofs DescPackProofs DescProofs3 DescProofs4 MatModel MatSpec MatProofs RegionProofs
  LayoutModel LayoutProofs LayoutProofs2 DriverModel DriverSpec OpProofs GemmModel GemmProofs
  BandModel BandProofs BandLayoutProofs BandGbProofs GbmmModel.
Import ListNotations.
Open Scope Z_scope.

(* the tiles that plasma_pzgb2desc fills *)
Definition in_gb (nb kl ku : Z) (A : desc) (m n : Z) : Prop :=
  in_tiles A m n /\ m - n <= ntl nb kl /\ n - m <= ntl nb ku.

Record gb_ok (A : desc) (nb m n kl ku : Z) : Prop := {
  gb_sq : sq nb A (in_gb nb kl ku A);
  gb_type : d_type A = PlasmaGeneralBand;
  gb_m : d_m A = m; gb_n : d_n A = n; gb_kl : d_kl A = kl; gb_ku : d_ku A = ku;
  gb_klt : d_klt A = 1 + ntl nb kl; gb_mmain : forall k, tile_mmain A k = nb }.

Lemma gb_create_gb : forall nb m n kl ku A size, 0 <= kl -> 0 <= ku ->
  gb_create nb m n kl ku = CrOk A size -> gb_ok A nb m n kl ku.
Proof.
  intros nb m n kl ku A size Hl Hu E. pose proof (gb_create_ok nb m n kl ku A size Hl Hu E) as P.
  destruct P as (BK & P2 & P3 & P4 & P5 & P6 & P7 & P8 & P9 & P10 & P11).
  assert (SH : shape_ok A /\ d_kl A = kl /\ d_ku A = ku).
  { unfold gb_create, general_band_create in E. cbv zeta in E.
    destruct (desc_check _ =? PlasmaSuccess) eqn:EC in E; [|discriminate].
    apply Z.eqb_eq in EC. apply band_check_ok in EC; [|reflexivity].
    injection E as EA _. destruct EC as (_&E1&E2&E3&E4&E5&_&_&E8&E9&E10&E11&E12).
    cbn in E1,E2,E3,E4,E5,E8,E9,E10,E11,E12.
    split; [|rewrite <- EA; split; reflexivity].
    constructor; rewrite <- ?EA; cbn; auto; try lia.
    apply Z.mul_nonneg_nonneg; [|lia].
    assert (0 <= (ku + kl + nb - 1) / nb) by (apply Z.div_pos; lia).
    assert (0 <= (kl + nb - 1) / nb) by (apply Z.div_pos; lia). lia. }
  destruct SH as (SH & EL & EU).
  pose proof (band_tiled A BK SH) as T.
  assert (SUB : forall x y, in_gb nb kl ku A x y -> in_tb A x y).
  { intros x y (H1 & H2 & H3). split; [assumption|]. rewrite P6, P7. fold (ntl nb kl).
    assert (ntl nb ku <= (ku + kl + nb - 1) / nb) by (unfold ntl; apply Z.div_le_mono; lia). lia. }
  constructor; auto; [|apply (bk_type A BK)|intros k; unfold tile_mmain; rewrite (bk_type A BK); cbn; assumption].
  - constructor; auto. destruct T as [T1 T2 T3 T4]. constructor; [assumption| | |].
    + intros x y H. apply T2. apply SUB. assumption.
    + intros x y H. apply (T3 x y). apply SUB. assumption.
    + intros x y x' y' r c r' c' H H'. apply T4; apply SUB; assumption.
Qed.

(* ------------------------------------------------------------------ *)
(* plasma_pzgb2desc                                                      *)

Definition idx_gb (nb kl ku : Z) (A : desc) : list (Z * Z) :=
  filter (fun mn => (fst mn - snd mn <=? ntl nb kl) && (snd mn - fst mn <=? ntl nb ku)) (idx_all A).

Lemma flat_map_filter : forall X Y (c : X -> bool) (f : X -> list Y) l,
  flat_map (fun x => if c x then f x else []) l = flat_map f (filter c l).
Proof.
  intros X Y c f l. induction l as [|x l IH]; cbn; [reflexivity|]. rewrite IH.
  destruct (c x); reflexivity.
Qed.

Section Gb2desc.
  Context {N : numbers}.
  Variables (A : desc) (nb m n kl ku b : Z) (p : loc) (ld : Z).
  Hypothesis HA : gb_ok A nb m n kl ku.
  Hypotheses (Hnb : 0 < nb) (Hku : 0 <= ku).

  Lemma idx_gb_in : forall x y, In (x, y) (idx_gb nb kl ku A) <-> in_gb nb kl ku A x y.
  Proof.
    intros x y. unfold idx_gb, in_gb. rewrite filter_In, idx_all_in, andb_true_iff, !Z.leb_le. cbn. tauto.
  Qed.
  Lemma idx_gb_NoDup : NoDup (idx_gb nb kl ku A).
  Proof. apply NoDup_filter, idx_all_NoDup. Qed.

  Lemma copy_in_band_eq : forall x y, @copy_in_band N p ld b A x y = copy_in p ld b A x y.
  Proof.
    intros x y. unfold copy_in_band, copy_in, tile_mmain_band. rewrite !(gb_mmain _ _ _ _ _ _ HA). reflexivity.
  Qed.

  Lemma pzgb2desc_eq : @pzgb2desc N p ld b A = copy_in_all A b p ld (idx_gb nb kl ku A).
  Proof.
    unfold pzgb2desc, copy_in_all, idx_gb, idx_all.
    rewrite <- (flat_map_filter _ _ _ (fun mn => [copy_in p ld b A (fst mn) (snd mn)])).
    rewrite flat_map_pairs.
    apply flat_map_ext. intros [x y]. cbn [fst snd].
    rewrite copy_in_band_eq, (gb_klt _ _ _ _ _ _ HA), (gb_ku _ _ _ _ _ _ HA), (sq_nb _ _ _ (gb_sq _ _ _ _ _ _ HA)).
    rewrite Z.quot_div_nonneg by lia. fold (ntl nb ku).
    destruct (Z.leb_spec (1 + ntl nb kl) (x - y)); destruct (Z.leb_spec (x - y) (ntl nb kl)); try lia; cbn;
      destruct (Z.leb_spec (1 + ntl nb ku) (y - x)); destruct (Z.leb_spec (y - x) (ntl nb ku)); try lia; reflexivity.
  Qed.
End Gb2desc.

(* ------------------------------------------------------------------ *)
(* plasma_pzgemm for a band matrix                                       *)

Section Pzgbmm.
  Context {N : numbers}.
  Add Ring num_ring_gbmm : (nring N).
  Variables (nb am an kl ku : Z) (A B C : desc) (bA bB bC ta tb : Z) (alpha beta : N).
  Hypotheses (HGA : gb_ok A nb am an kl ku) (HB : dn nb B) (HC : dn nb C).
  Hypotheses (Hkl : 0 <= kl) (Hku : 0 <= ku).
  Hypotheses (CM : op_m ta A = d_m C) (CK : op_m tb B = op_n ta A) (CN : op_n tb B = d_n C).
  Let SA := in_gb nb kl ku A.
  Let HA : sq nb A SA := gb_sq _ _ _ _ _ _ HGA.
  Definition bK : Z := op_n ta A.
  Local Notation K := bK.
  Let Hb : 0 < nb := sq_pos nb C _ HC.
  Definition blo : Z := if ta =? PlasmaNoTrans then kl else ku.
  Local Notation lo := blo.
  Definition bhi : Z := if ta =? PlasmaNoTrans then ku else kl.
  Local Notation hi := bhi.
  Hypothesis HK : 0 < K.

  Definition ks (m : Z) : Z := Z.max 0 (m * nb - lo) / nb.
  Definition ke (m : Z) : Z := Z.min (K - 1) ((m + 1) * nb + hi - 1) / nb.

  Lemma lohi : 0 <= lo /\ 0 <= hi.
  Proof. unfold blo, bhi. destruct (ta =? PlasmaNoTrans); lia. Qed.

  (* tiles of the loop are tiles of the band *)
  Lemma ks_ke_in : forall m k, 0 <= m -> ks m <= k <= ke m ->
    0 <= k /\ k * nb < K /\ m - k <= ntl nb lo /\ k - m <= ntl nb hi.
  Proof.
    intros m k Hm [H1 H2]. destruct lohi as [L1 L2]. unfold ks, ke, ntl in *.
    destruct (div_mod_pos (Z.max 0 (m * nb - lo)) nb Hb) as [D1 D2].
    destruct (div_mod_pos (Z.min (K - 1) ((m + 1) * nb + hi - 1)) nb Hb) as [D3 D4].
    destruct (div_mod_pos (lo + nb - 1) nb Hb) as [D5 D6].
    destruct (div_mod_pos (hi + nb - 1) nb Hb) as [D7 D8].
    remember (Z.max 0 (m * nb - lo) / nb) as x. remember (Z.min (K - 1) ((m + 1) * nb + hi - 1) / nb) as y.
    remember ((lo + nb - 1) / nb) as u. remember ((hi + nb - 1) / nb) as v.
    assert (0 <= x) by nia. assert (K1 : 0 <= k) by lia. split; [assumption|].
    split; [nia|]. split; nia.
  Qed.

  (* columns before and behind the loop are outside of the band *)
  Lemma ks_out : forall m i l, 0 <= m -> m * nb <= i -> 0 <= l -> l < ks m * nb -> lo < i - l.
  Proof.
    intros m i l Hm Hi Hl H. destruct lohi as [L1 L2]. unfold ks in H.
    destruct (div_mod_pos (Z.max 0 (m * nb - lo)) nb Hb) as [D1 D2].
    remember (Z.max 0 (m * nb - lo) / nb) as x. nia.
  Qed.
  Lemma ke_out : forall m i l, 0 <= m -> i < (m + 1) * nb -> l < K -> (ke m + 1) * nb <= l -> hi < l - i.
  Proof.
    intros m i l Hm Hi Hl H. destruct lohi as [L1 L2]. unfold ke in H.
    destruct (div_mod_pos (Z.min (K - 1) ((m + 1) * nb + hi - 1)) nb Hb) as [D1 D2].
    remember (Z.min (K - 1) ((m + 1) * nb + hi - 1) / nb) as x. nia.
  Qed.

  Lemma gb_in : forall x y, SA x y <-> 0 <= x /\ x * nb < d_m A /\ 0 <= y /\ y * nb < d_n A /\
    x - y <= ntl nb kl /\ y - x <= ntl nb ku.
  Proof.
    intros x y. pose proof (td_shape _ _ (sq_t _ _ _ HA)) as SH.
    unfold SA, in_gb, in_tiles. rewrite (mt_aligned_ntl nb A SH (sq_mb _ _ _ HA)), (nt_aligned_ntl nb A SH (sq_nb _ _ _ HA)).
    pose proof (go_m A SH) as G1. pose proof (go_n A SH) as G2.
    split.
    - intros [[[X1 X2] [Y1 Y2]] Q]. apply ntl_spec in X2, Y2; lia.
    - intros (X1 & X2 & Y1 & Y2 & Q). apply ntl_spec in X2, Y2; lia.
  Qed.

  Lemma opS_gb : forall m k, 0 <= m -> m * nb < d_m C -> ks m <= k <= ke m -> op_S ta SA m k.
  Proof.
    intros m k Hm H1 H2. destruct (ks_ke_in m k Hm H2) as (Q1 & Q2 & Q3 & Q4).
    unfold op_S, bK, op_m, op_n, blo, bhi in *.
    destruct (ta =? PlasmaNoTrans); apply gb_in; repeat split; try lia.
  Qed.
  Lemma opS_gB : forall k n, 0 <= n -> n * nb < d_n C -> 0 <= k -> k * nb < K -> op_S tb (in_tiles B) k n.
  Proof.
    intros k n H1 H2 H3 H4. unfold bK, op_S, op_m, op_n in *.
    destruct (tb =? PlasmaNoTrans); apply (dn_in nb B); auto; lia.
  Qed.

  Definition btask (m n k : Z) : ktask N :=
    omp_zgemm ta tb (tile_mview C m) (tile_nview C n) (tsz nb K k) alpha
      (op_tile ta bA A m k) (op_ld ta A m k) (op_tile tb bB B k n) (op_ld tb B k n)
      (if k =? ks m then beta else n1) (tptr bC C m n) (tile_mmain C m).
  Definition bscale (m n : Z) : ktask N :=
    omp_zgemm ta tb (tile_mview C m) (tile_nview C n) 0 alpha (tptr bA A 0 0) (Z.max 1 (tile_mmain A 0))
      (tptr bB B 0 0) (Z.max 1 (tile_mmain B 0)) beta (tptr bC C m n) (tile_mmain C m).
  Definition bzero (m n : Z) : ktask N :=
    omp_zgemm_zero (tile_mview C m) (tile_nview C n) (op_tile ta bA A m 0) (op_tile tb bB B 0 n)
      beta (tptr bC C m n) (tile_mmain C m).

  Lemma band_tile_eq : forall m n, in_tiles C m n ->
    pzgemm_band_tile ta tb alpha bA A bB B beta bC C m n
    = if neqb alpha n0 || (K =? 0) then [bscale m n]
      else map (btask m n) (zrange (ks m) (ke m + 1)) ++ (if ke m <? ks m then [bzero m n] else []).
  Proof.
    intros m n HS. apply (dn_in nb C) in HS; [|assumption]. destruct HS as (M1 & M2 & N1 & N2).
    unfold pzgemm_band_tile. fold (bscale m n).
    assert (EK : (if ta =? PlasmaNoTrans then d_n A else d_m A) = K) by reflexivity.
    rewrite EK. destruct (neqb alpha n0 || (K =? 0)); [reflexivity|]. cbv zeta.
    assert (V : forall k, In k (zrange (ks m) (ke m + 1)) -> op_S ta SA m k).
    { intros k Hk. apply in_zrange in Hk. apply opS_gb; auto; lia. }
    rewrite (gb_kl _ _ _ _ _ _ HGA), (gb_ku _ _ _ _ _ _ HGA), (sq_mb _ _ _ HA), (sq_nb _ _ _ HA).
    unfold tile_mmain_band.
    destruct lohi as [L1 L2]. assert (K1 := HK).
    unfold btask, bzero, ks, ke, bK, blo, bhi, op_n, op_S, op_tile, op_ld in *.
    destruct (ta =? PlasmaNoTrans) eqn:TA; destruct (tb =? PlasmaNoTrans) eqn:TB;
      rewrite !Z.quot_div_nonneg by lia; apply f_equal2; try reflexivity;
      apply map_ext_in; intros k Hk; pose proof (V k Hk) as V1;
      rewrite !(gb_mmain _ _ _ _ _ _ HGA).
    - rewrite (sq_nv nb A _ HA m k V1). reflexivity.
    - rewrite (sq_nv nb A _ HA m k V1). reflexivity.
    - rewrite (sq_mv nb A _ HA k m V1). reflexivity.
    - rewrite (sq_mv nb A _ HA k m V1). reflexivity.
  Qed.

  Definition btile (m n : Z) : list (ktask N) := pzgemm_band_tile ta tb alpha bA A bB B beta bC C m n.

  Lemma pzgemm_band_eq : pzgemm_band ta tb alpha bA A bB B beta bC C
    = flat_map (fun mn => btile (fst mn) (snd mn)) (idx_all C).
  Proof. unfold pzgemm_band, idx_all. rewrite flat_map_pairs. reflexivity. Qed.

  Lemma btile_cases : forall (P : ktask N -> Prop) m n, in_tiles C m n ->
    P (bscale m n) -> P (bzero m n) -> (forall k, ks m <= k <= ke m -> P (btask m n k)) -> Forall P (btile m n).
  Proof.
    intros P m n HS H1 H2 H3. unfold btile. rewrite band_tile_eq by assumption.
    destruct (neqb alpha n0 || (K =? 0)).
    - constructor; [assumption|constructor].
    - apply Forall_app. split.
      + apply Forall_forall. intros x Hx. apply in_map_iff in Hx. destruct Hx as (k & <- & Hk).
        apply in_zrange in Hk. apply H3. lia.
      + destruct (ke m <? ks m); [constructor; [assumption|constructor]|constructor].
  Qed.

  Lemma zero_kgood : forall m n X Y (be : N) Z0 ld, m <= ld -> kgood (omp_zgemm_zero m n X Y be Z0 ld).
  Proof.
    intros m n X Y be Z0 ld H. apply mset_kgood; auto.
    - apply finite_reg.
    - intros M M' i j Hi Hj _ HM. apply f_equal. apply HM. exists i, j. auto.
  Qed.

  Lemma btile_kgood : forall m n, in_tiles C m n -> Forall kgood (btile m n).
  Proof.
    intros m n HS. pose proof (td_ld C _ (sq_t nb C _ HC) m n HS) as L. apply btile_cases; auto; intros.
    - apply omp_zgemm_kgood; assumption.
    - apply zero_kgood; assumption.
    - apply omp_zgemm_kgood; assumption.
  Qed.

  Lemma btile_writes : forall m n l, in_tiles C m n -> kwrites (btile m n) l ->
    reg (tptr bC C m n) (tile_mmain C m) (tile_mview C m) (tile_nview C n) everywhere l.
  Proof.
    intros m n l HS (k & Hk & W).
    assert (F : Forall (fun k => k_writes k l ->
      reg (tptr bC C m n) (tile_mmain C m) (tile_mview C m) (tile_nview C n) everywhere l) (btile m n)).
    { apply btile_cases; auto. }
    rewrite Forall_forall in F. apply (F k); auto.
  Qed.

  Lemma bconf_m : forall m n, in_tiles C m n -> tile_mview C m = tsz nb (op_m ta A) m.
  Proof. intros m n HS. rewrite (sq_mv nb C _ HC m n HS), CM. reflexivity. Qed.
  Lemma bconf_n : forall m n, in_tiles C m n -> tile_nview C n = tsz nb (op_n tb B) n.
  Proof. intros m n HS. rewrite (sq_nv nb C _ HC m n HS), CN. reflexivity. Qed.

  Lemma btile_kdecl : forall env m n, in_tiles C m n ->
    In (bA, homeD A SA) env -> In (bB, homeD B (in_tiles B)) env -> In (bC, homeD C (in_tiles C)) env ->
    Forall (kdecl (home_env env)) (btile m n).
  Proof.
    intros env m n HS EA EB EC. assert (HS' := HS). apply (dn_in nb C) in HS'; [|assumption].
    destruct HS' as (M1 & M2 & N1 & N2). apply btile_cases; auto.
    - apply kdecl_intro; cbn; intros l HR.
      + left. destruct HR as [HR|[HR|HR]].
        * exfalso. unfold op_reg in HR. destruct (_ =? _); destruct HR as (x & y & Hx & Hy & _); lia.
        * exfalso. unfold op_reg in HR. destruct (_ =? _); destruct HR as (x & y & Hx & Hy & _); lia.
        * eexists. split; [right; right; left; reflexivity|]. cbn. eapply home_tile; eauto.
      + eexists. split; [right; right; left; reflexivity|]. split; [|discriminate]. cbn. eapply home_tile; eauto.
    - apply kdecl_intro; cbn; intros l HR.
      + left. eexists. split; [right; right; left; reflexivity|]. cbn. eapply home_tile; eauto.
      + eexists. split; [right; right; left; reflexivity|]. split; [|discriminate]. cbn. eapply home_tile; eauto.
    - intros k Hk. destruct (ks_ke_in m k M1 Hk) as (Q1 & Q2 & _).
      apply (omp_zgemm_kdecl nb env A SA bA B (in_tiles B) bB C (in_tiles C)); auto.
      + apply opS_gb; auto.
      + apply opS_gB; auto.
      + rewrite (bconf_m m n HS). lia.
      + apply Z.le_refl.
      + rewrite CK. apply Z.le_refl.
      + rewrite (bconf_n m n HS). lia.
  Qed.

  Hypotheses (NA : bA <> bC) (NB : bB <> bC).

  Definition bterm (M : mem N) (i j l : Z) : N := nmul (op_el M ta bA A i l) (op_el M tb bB B l j).

  Lemma bgroup_other : forall m n k0 M l, fst l <> bC -> krun (map (btask m n) k0) M l = M l.
  Proof.
    intros m n k0. induction k0 as [|k k0 IH]; intros M l Hl; cbn [map krun]; [reflexivity|].
    rewrite IH by assumption. apply gemm_other. cbn. assumption.
  Qed.

  Lemma btask_el : forall k M i j, in_tiles C (i / nb) (j / nb) -> 0 <= i < d_m C -> 0 <= j < d_n C ->
    ks (i / nb) <= k <= ke (i / nb) ->
    el (k_fun (btask (i / nb) (j / nb) k) M) bC C i j
    = nadd (nmul alpha (nsum (bterm M i j) (k * nb) (Z.min ((k + 1) * nb) K)))
           (nmul (if k =? ks (i / nb) then beta else n1) (el M bC C i j)).
  Proof.
    intros k M i j HS Hi Hj Hk. assert (HS' := HS). apply (dn_in nb C) in HS'; [|assumption].
    destruct HS' as (M1 & M2 & N1 & N2).
    destruct (ks_ke_in _ k M1 Hk) as (K1 & K2 & _).
    destruct (pos_tile nb C _ HC i (d_m C) Hi) as (P1 & P2 & P3).
    destruct (pos_tile nb C _ HC j (d_n C) Hj) as (Q1 & Q2 & Q3).
    unfold btask. cbn [k_fun omp_zgemm].
    rewrite (gemm_el nb A SA bA B (in_tiles B) bB C (in_tiles C)); auto.
    - rewrite !Z.eqb_refl. cbn [andb]. f_equal. f_equal. rewrite <- P3, <- Q3.
      replace (k * nb + tsz nb K k) with (Z.min ((k + 1) * nb) K) by (unfold tsz; lia).
      apply nsum_ext. intros l Hl. unfold bterm. f_equal. f_equal. lia.
    - apply opS_gb; auto.
    - apply opS_gB; auto.
    - rewrite (bconf_m _ _ HS). lia.
    - apply Z.le_refl.
    - rewrite CK. apply Z.le_refl.
    - rewrite (bconf_n _ _ HS). lia.
  Qed.

  Lemma bgroup_el : forall M i j t, in_tiles C (i / nb) (j / nb) -> 0 <= i < d_m C -> 0 <= j < d_n C ->
    ks (i / nb) <= t <= ke (i / nb) + 1 ->
    el (krun (map (btask (i / nb) (j / nb)) (zrange (ks (i / nb)) t)) M) bC C i j
    = if t =? ks (i / nb) then el M bC C i j
      else nadd (nmul alpha (nsum (bterm M i j) (ks (i / nb) * nb) (Z.min (t * nb) K))) (nmul beta (el M bC C i j)).
  Proof.
    intros M i j t HS Hi Hj. pattern t. apply (zrange_ind_hi _ (ks (i / nb))); clear t.
    - intros t H1 H2. assert (t = ks (i / nb)) as -> by lia. rewrite zrange_nil by lia.
      rewrite Z.eqb_refl. reflexivity.
    - intros t H1 IH H2. rewrite zrange_snoc by lia. rewrite map_app, krun_app. cbn [map krun].
      assert (M1 : 0 <= i / nb) by (apply Z.div_pos; lia).
      destruct (ks_ke_in _ t M1) as (K1 & Kt & _); [lia|].
      assert (S0 : 0 <= ks (i / nb)) by (apply Z.div_pos; lia).
      rewrite btask_el; auto; [|lia]. rewrite IH by lia.
      replace (t + 1 =? ks (i / nb)) with false by (symmetry; apply Z.eqb_neq; lia).
      rewrite (nsum_ext N _ (bterm M i j)).
      2:{ intros l Hl. unfold bterm. f_equal; apply op_el_ext; intros x Hx; apply bgroup_other; congruence. }
      rewrite (nsum_app N _ (ks (i / nb) * nb) (t * nb) (Z.min ((t + 1) * nb) K)) by nia.
      destruct (Z.eqb_spec t (ks (i / nb))) as [E|E].
      + rewrite <- E. rewrite (nsum_nil N _ (t * nb) (t * nb)) by lia. ring.
      + replace (Z.min (t * nb) K) with (t * nb) by lia. ring.
  Qed.

  Lemma btile_el : forall M i j, in_tiles C (i / nb) (j / nb) -> 0 <= i < d_m C -> 0 <= j < d_n C ->
    el (krun (btile (i / nb) (j / nb)) M) bC C i j
    = nadd (nmul alpha (nsum (bterm M i j) (ks (i / nb) * nb) (Z.min ((ke (i / nb) + 1) * nb) K)))
           (nmul beta (el M bC C i j)).
  Proof.
    intros M i j HS Hi Hj. unfold btile. rewrite band_tile_eq by assumption.
    destruct (pos_tile nb C _ HC i (d_m C) Hi) as (P1 & P2 & P3).
    destruct (pos_tile nb C _ HC j (d_n C) Hj) as (Q1 & Q2 & Q3).
    destruct (neqb alpha n0 || (K =? 0)) eqn:E.
    - cbn [krun bscale k_fun omp_zgemm]. unfold core_zgemm.
      rewrite (sq_set nb C _ HC) by assumption. unfold everywhere. rewrite !Z.eqb_refl. cbn [andb].
      rewrite (sq_rd nb C _ HC) by assumption. rewrite <- P3, <- Q3.
      rewrite (nsum_nil N _ 0 0) by lia.
      rewrite orb_true_iff, Z.eqb_eq, neqb_eq in E. destruct E as [E|E]; [|lia].
      rewrite E. ring.
    - destruct (Z.ltb_spec (ke (i / nb)) (ks (i / nb))) as [L|L].
      + rewrite zrange_nil by lia. cbn [map app krun bzero k_fun omp_zgemm_zero].
        rewrite (sq_set nb C _ HC) by assumption. unfold everywhere. rewrite !Z.eqb_refl. cbn [andb].
        rewrite (sq_rd nb C _ HC) by assumption. rewrite <- P3, <- Q3.
        rewrite nsum_nil by nia. ring.
      + rewrite app_nil_r. rewrite bgroup_el by (auto; lia).
        replace (ke (i / nb) + 1 =? ks (i / nb)) with false by (symmetry; apply Z.eqb_neq; lia). reflexivity.
  Qed.

  Lemma pzgemm_band_kgood : Forall kgood (pzgemm_band ta tb alpha bA A bB B beta bC C).
  Proof.
    rewrite pzgemm_band_eq. apply Forall_flat_map_intro. intros [m n] Hmn. apply idx_all_in in Hmn.
    apply btile_kgood; assumption.
  Qed.

  Lemma pzgemm_band_kdecl : forall env,
    In (bA, homeD A SA) env -> In (bB, homeD B (in_tiles B)) env -> In (bC, homeD C (in_tiles C)) env ->
    Forall (kdecl (home_env env)) (pzgemm_band ta tb alpha bA A bB B beta bC C).
  Proof.
    intros. rewrite pzgemm_band_eq. apply Forall_flat_map_intro. intros [m n] Hmn. apply idx_all_in in Hmn.
    apply btile_kdecl; assumption.
  Qed.

  Lemma pzgemm_band_other : forall M l, fst l <> bC -> krun (pzgemm_band ta tb alpha bA A bB B beta bC C) M l = M l.
  Proof.
    intros M l Hl. rewrite pzgemm_band_eq. apply flat_map_frame.
    - intros [m n] Hmn. apply idx_all_in in Hmn. apply kgood_sound, btile_kgood; assumption.
    - intros [m n] Hmn W. apply idx_all_in in Hmn. apply btile_writes in W; [|assumption].
      apply reg_block in W. cbn in W. congruence.
  Qed.

  Lemma btile_reads : forall m n l, in_tiles C m n -> kreads (btile m n) l -> fst l = bC ->
    reg (tptr bC C m n) (tile_mmain C m) (tile_mview C m) (tile_nview C n) everywhere l.
  Proof.
    intros m n l HS (k & Hk & W) E.
    assert (Z0 : forall t p ld x y q, op_reg t p ld x y q -> fst q = fst p).
    { intros t p ld x y q H. unfold op_reg in H. destruct (_ =? _); apply reg_block in H; assumption. }
    assert (F : Forall (fun k => k_reads k l ->
      reg (tptr bC C m n) (tile_mmain C m) (tile_mview C m) (tile_nview C n) everywhere l) (btile m n)).
    { apply btile_cases; auto.
      - intros [R|[R|R]]; [exfalso|exfalso|assumption]; apply Z0 in R; cbn in R; congruence.
      - intros k' _ [R|[R|R]]; [exfalso|exfalso|assumption]; apply Z0 in R;
          unfold op_tile in R; destruct (_ =? _) in R; cbn in R; congruence. }
    rewrite Forall_forall in F. apply (F k); auto.
  Qed.

  Lemma pzgemm_band_el : forall M i j, 0 <= i < d_m C -> 0 <= j < d_n C ->
    el (krun (pzgemm_band ta tb alpha bA A bB B beta bC C) M) bC C i j
    = nadd (nmul alpha (nsum (bterm M i j) (ks (i / nb) * nb) (Z.min ((ke (i / nb) + 1) * nb) K)))
           (nmul beta (el M bC C i j)).
  Proof.
    intros M i j Hi Hj. pose proof (td_shape _ _ (sq_t nb C _ HC)) as SH.
    pose proof (in_tiles_pos C i j SH Hi Hj) as HS.
    rewrite (sq_mb nb C _ HC), (sq_nb nb C _ HC) in HS.
    rewrite <- btile_el by assumption. rewrite pzgemm_band_eq. unfold el.
    apply (krun_groups N _ (fun mn => btile (fst mn) (snd mn)) (idx_all C) M (i / nb, j / nb)).
    - intros [m n] Hmn. apply idx_all_in in Hmn. cbn [fst snd].
      split; [apply kgood_sound|apply kgood_decw]; apply btile_kgood; assumption.
    - apply idx_all_NoDup.
    - intros [m n] [m' n'] x H1 H2 Hne W. apply idx_all_in in H1, H2. cbn [fst snd] in *.
      apply btile_writes in W; [|assumption]. split.
      + intros W'. apply btile_writes in W'; [|assumption].
        destruct (reg_tile_apart C _ bC (sq_t nb C _ HC) m' n' m n _ _ x H2 H1 W W'). congruence.
      + intros R. apply btile_reads in R; [|assumption|apply reg_block in W; assumption].
        destruct (reg_tile_apart C _ bC (sq_t nb C _ HC) m' n' m n _ _ x H2 H1 W R). congruence.
    - apply idx_all_in. assumption.
    - left. cbn [fst snd]. unfold btile. rewrite band_tile_eq by assumption.
      assert (R : reg (tptr bC C (i / nb) (j / nb)) (tile_mmain C (i / nb)) (tile_mview C (i / nb))
                    (tile_nview C (j / nb)) everywhere (bC, elem_off C i j)).
      { exists (i mod nb), (j mod nb). 
        destruct (pos_tile nb C _ HC i (d_m C) Hi) as (P1 & P2 & P3).
        destruct (pos_tile nb C _ HC j (d_n C) Hj) as (Q1 & Q2 & Q3).
        rewrite (sq_mv nb C _ HC _ _ HS), (sq_nv nb C _ HC _ _ HS).
        repeat split; try lia. unfold elem_off. rewrite (sq_mb nb C _ HC), (sq_nb nb C _ HC). reflexivity. }
      destruct (neqb alpha n0 || (K =? 0)) eqn:E.
      + eexists. split; [left; reflexivity|]. exact R.
      + destruct (Z.ltb_spec (ke (i / nb)) (ks (i / nb))) as [L|L].
        * exists (bzero (i / nb) (j / nb)). split; [|exact R]. apply in_or_app. right. left. reflexivity.
        * rewrite app_nil_r. exists (btask (i / nb) (j / nb) (ks (i / nb))). split; [|exact R].
          apply in_map. apply in_zrange. lia.
  Qed.

  (* the columns outside of the loop contribute nothing *)
  Lemma band_sum : forall (f : Z -> N) i, 0 <= i < d_m C ->
    (forall l, 0 <= l < K -> lo < i - l \/ hi < l - i -> f l = n0) ->
    nsum f 0 K = nsum f (ks (i / nb) * nb) (Z.min ((ke (i / nb) + 1) * nb) K).
  Proof.
    intros f i Hi HZ. assert (M1 : 0 <= i / nb) by (apply Z.div_pos; lia).
    destruct (div_mod_pos i nb Hb) as [D1 D2].
    assert (S0 : 0 <= ks (i / nb)) by (apply Z.div_pos; lia).
    assert (E0 : 0 <= ke (i / nb)) by (destruct lohi; apply Z.div_pos; lia).
    assert (HL : forall l, 0 <= l < K -> l < ks (i / nb) * nb -> f l = n0).
    { intros l Hl H. apply HZ; [assumption|]. left. apply (ks_out (i / nb)); lia. }
    assert (HR : forall l, 0 <= l < K -> (ke (i / nb) + 1) * nb <= l -> f l = n0).
    { intros l Hl H. apply HZ; [assumption|]. right. apply (ke_out (i / nb)); lia. }
    destruct (Z.ltb_spec (ke (i / nb)) (ks (i / nb))) as [L|L].
    - rewrite (nsum_nil N f (ks (i / nb) * nb)) by nia. apply nsum_0. intros l Hl.
      destruct (Z_lt_dec l (ks (i / nb) * nb)) as [Q|Q]; [apply HL; auto; lia|apply HR; auto; nia].
    - destruct (ks_ke_in (i / nb) (ks (i / nb)) M1) as (_ & T2 & _); [lia|].
      rewrite (nsum_app N f 0 (ks (i / nb) * nb) K) by lia.
      rewrite (nsum_app N f (ks (i / nb) * nb) (Z.min ((ke (i / nb) + 1) * nb) K) K) by nia.
      rewrite (nsum_0 N f 0) by (intros l Hl; apply HL; lia).
      rewrite (nsum_0 N f (Z.min ((ke (i / nb) + 1) * nb) K)) by (intros l Hl; apply HR; nia). ring.
  Qed.

  (* elements that are used belong to the tiles that are filled *)
  Lemma used_stored : forall i l, 0 <= i < d_m C ->
    ks (i / nb) * nb <= l < Z.min ((ke (i / nb) + 1) * nb) K -> op_S ta SA (i / nb) (l / nb).
  Proof.
    intros i l Hi Hl. assert (M1 : 0 <= i / nb) by (apply Z.div_pos; lia).
    destruct (div_mod_pos i nb Hb) as [D1 D2]. destruct (div_mod_pos l nb Hb) as [D3 D4].
    apply opS_gb; auto; [nia|]. split; nia.
  Qed.
End Pzgbmm.
