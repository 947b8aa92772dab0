(* plasma_zungqr generates the leading columns of Q. *)
From Coq Require Import ZArith List Bool Lia Ring Sorted.
From Verif Require Import Base NumModel NumProofs FieldModel ControlModel TaskModel TaskSpec TaskProofs DescModel DescSpec DescDriverModel DescProofs DescProofs3 DescProofs4
  MatModel MatSpec MatProofs RegionProofs LayoutModel LayoutProofs LayoutProofs2 DriverModel DriverSpec OpProofs OperandProofs GemmProofs GemmDriverProofs RankDriverProofs
  TriModel TriSpec TriProofs SimProofs LasetModel LasetProofs
  QrModel QrSpec QrAlgProofs QrStepProofs QrKerProofs QrKerProofs2 QrMulProofs QrLiftProofs QrTaskProofs QrEffProofs QrUnmProofs QrFacProofs QrInvProofs QrListProofs QrDrvProofs QrDriverProofs
  LsModel LsSpec LsAlgProofs LsViewProofs LsProofs LsQrsProofs.
Import ListNotations.
Open Scope Z_scope.

Section Gqr.
  Context {N : numbers}.
  Add Ring num_ring_ls_gqr : (nring N).
  Variables nb ib m K : Z.
  Hypothesis Hnb : 0 < nb.
  Hypothesis Hib : 0 < ib.
  Hypothesis HK : 0 < K <= m.
  Variables (T : desc) (bT : Z).
  Hypothesis HT : tok nb ib m K T.
  Variables (A : desc) (bA : Z).
  Hypothesis HA : sq nb A (in_tiles A).
  Hypothesis EmA : d_m A = m.
  Hypothesis EnA : d_n A = K.
  Variables (B : desc) (bB : Z).
  Hypothesis HB : sq nb B (in_tiles B).
  Hypothesis EmB : d_m B = m.
  Hypothesis EmtB : d_mt B = d_mt A.
  Hypothesis BT : bB <> bT.
  Hypothesis BA : bB <> bA.

  Local Notation good M tau o := (s_good N nb m K ib (el M bA A) (tel T bT M) tau o).
  Local Notation ul_ := (utask_l nb ib m K T bT A bA B bB).
  Local Notation os := (olist (d_mt A) 0 (Z.min (d_mt A) (d_nt A))).

  (* a step does nothing to a vector that is zero from the first row of the step on *)
  Lemma s_f_skip : forall ib' El Tl tau o (x : Z -> N), s_ok nb m K o -> s_good N nb m K ib' El Tl tau o ->
    (forall i, fst o * nb <= i < m -> x i = n0) -> same N m (s_f N nb m K PlasmaNoTrans El tau o x) x.
  Proof.
    intros ib' El Tl tau o x HO (HU & _) HX. destruct (s_bounds nb m K Hnb ltac:(lia) o HO) as (B1 & B2 & B3 & B4 & B5 & B6).
    unfold s_f, lift. apply put_gath; auto; try lia.
    assert (GZ : forall r, 0 <= r < s_p1 nb m K o + s_p2 nb m o -> gath N (s_a nb o) (s_p1 nb m K o) (s_b nb m o) x r = n0).
    { intros r Hr. unfold gath. destruct (Z.ltb_spec r (s_p1 nb m K o)); apply HX; unfold s_a in *; lia. }
    intros r Hr. rewrite (GZ r Hr). unfold hF. change (PlasmaNoTrans =? PlasmaNoTrans) with true. cbv iota.
    pose proof (h_uop N (s_p1 nb m K o + s_p2 nb m o) (s_V N nb K El o) tau 0 (s_k nb K o) ltac:(intros c Hc; apply HU; lia)) as U.
    rewrite (uop_matrix N _ _ _ U) by assumption. apply nsum_0. intros s Hs. rewrite GZ by assumption. ring.
  Qed.

  Lemma steps_part : forall taus os' M, (forall o, In o os' -> s_ok nb m K o) ->
    (forall o, In o os' -> good M (taus o) o) ->
    StronglySorted (fun a b => fst b <= fst a) os' ->
    (forall o i j, In o os' -> 0 <= j < d_n B -> j / nb < fst o -> fst o * nb <= i < m -> el M bB B i j = n0) ->
    (forall i j, 0 <= i < m -> 0 <= j < d_n B ->
       el (krun (flat_map (fun o => map (ul_ PlasmaNoTrans o) (zrange (fst o) (d_nt B))) os') M) bB B i j
       = s_all N nb m K PlasmaNoTrans (el M bA A) taus os' (colv N (el M bB B) j) i) /\
    (forall l, fst l <> bB -> krun (flat_map (fun o => map (ul_ PlasmaNoTrans o) (zrange (fst o) (d_nt B))) os') M l = M l).
  Proof.
    intros taus os'. induction os' as [|o os' IH]; intros M HO HG HS HZ.
    - split; reflexivity.
    - cbn [flat_map]. rewrite krun_app. remember (krun (map (ul_ PlasmaNoTrans o) (zrange (fst o) (d_nt B))) M) as M1 eqn:E1.
      pose proof (HO o (or_introl eq_refl)) as HO1. assert (OK : s_ok nb m K o) by assumption.
      destruct OK as (O1 & O2 & O3 & O4). inversion_clear HS as [|? ? HS1 HS2]. rewrite Forall_forall in HS2.
      assert (NR : forall n, In n (zrange (fst o) (d_nt B)) -> 0 <= n /\ n * nb < d_n B).
      { intros n Hn. apply in_zrange in Hn.
        assert (Pn : d_n B > 0).
        { destruct (Z_lt_dec 0 (d_n B)); [lia|]. exfalso. pose proof (td_shape _ _ (sq_t _ _ _ HB)) as SH.
          destruct (nview_spec B n SH ltac:(lia)) as [X1 X2]. rewrite (sq_nb _ _ _ HB) in X1. nia. }
        assert (IN : in_tiles B (fst o) n).
        { split; [|lia]. assert (Z0 : in_tiles B (fst o * nb / nb) (0 / nb)) by (apply tile_of; auto; nia).
          destruct Z0 as [Z0 _]. rewrite Z.div_mul in Z0 by lia. assumption. }
        destruct (sq_in_n nb B (in_tiles B) HB (fst o) n IN) as [Q1 Q2]. unfold tsz in Q2. lia. }
      destruct (updates_l nb ib m K Hnb Hib ltac:(lia) T bT HT A bA HA EmA ltac:(lia) B bB HB BT PlasmaNoTrans o (taus o) (zrange (fst o) (d_nt B)) M HO1 EmB (or_introl BA))
        as [U1 U2]; auto.
      { apply NoDup_zrange. }
      { apply HG. left. reflexivity. }
      rewrite <- E1 in U1, U2.
      assert (EA : forall i j, el M1 bA A i j = el M bA A i j) by (intros; unfold el; apply U2; cbn; auto).
      assert (ET : forall q k a c, tel T bT M1 q k a c = tel T bT M q k a c) by (intros; unfold tel, rd; apply U2; cbn; auto).
      assert (UN : forall i j, 0 <= i < m -> 0 <= j < d_n B -> j / nb < fst o -> el M1 bB B i j = el M bB B i j).
      { intros i j Hi Hj L. rewrite U1 by assumption. destruct (in_dec Z.eq_dec (j / nb) (zrange (fst o) (d_nt B))) as [D|D]; [|reflexivity].
        apply in_zrange in D. lia. }
      destruct (IH M1) as [I1 I2]; auto.
      { intros; apply HO; right; assumption. }
      { intros o' Ho'. eapply s_good_cong; [assumption|lia|assumption|apply HO; right; assumption| | | |apply HG; right; exact Ho'].
        - intros. symmetry. apply EA.
        - intros. symmetry. apply ET.
        - auto. }
      { intros o' i j Ho' Hj L Hi. pose proof (HS2 o' Ho') as LE. rewrite UN; try lia.
        - apply (HZ o'); auto. right. assumption.
        - destruct (HO o' (or_intror Ho')) as (Y1 & _). nia. }
      split.
      + intros i j Hi Hj. rewrite I1 by assumption. unfold s_all at 2. cbn [fold_left].
        apply s_all_cong; auto; try lia.
        * intros; apply HO; right; assumption.
        * intros s Hs. unfold colv at 1. rewrite U1 by assumption.
          destruct (in_dec Z.eq_dec (j / nb) (zrange (fst o) (d_nt B))) as [D|D]; [reflexivity|].
          assert (L : j / nb < fst o).
          { destruct (Z_lt_dec (j / nb) (fst o)); [assumption|]. exfalso. apply D. apply in_zrange. split; [lia|].
            pose proof (tile_of nb B s j HB ltac:(lia) ltac:(lia)) as [_ X]. lia. }
          symmetry. apply (s_f_skip ib (el M bA A) (tel T bT M) (taus o) o (colv N (el M bB B) j)); auto.
          -- apply HG. left. reflexivity.
          -- intros i' Hi'. unfold colv. apply (HZ o); auto. left. reflexivity.
      + intros l Hl. rewrite I2 by assumption. apply U2. assumption.
  Qed.

  Lemma rev_olist_sorted : StronglySorted (fun a b : Z * Z => fst b <= fst a) (rev os).
  Proof.
    assert (G : forall l l' : list (Z * Z), StronglySorted (fun a b => fst b <= fst a) l -> StronglySorted (fun a b => fst b <= fst a) l' ->
      (forall a b, In a l -> In b l' -> fst b <= fst a) -> StronglySorted (fun a b : Z * Z => fst b <= fst a) (l ++ l')).
    { induction l as [|x l IHl]; intros l' S1 S2 S3; cbn [app]; [assumption|]. inversion_clear S1 as [|? ? S4 S5]. constructor.
      - apply IHl; auto. intros a b Ha Hb. apply S3; [right; assumption|assumption].
      - apply Forall_app. split; [assumption|]. apply Forall_forall. intros b Hb. apply S3; [left; reflexivity|assumption]. }
    assert (C : forall k (l : list Z), StronglySorted (fun a b : Z * Z => fst b <= fst a) (map (pair k) l)).
    { intros k l. induction l as [|x l IHl]; cbn [map]; constructor; [assumption|]. apply Forall_forall. intros b Hb.
      apply in_map_iff in Hb. destruct Hb as (y & <- & _). cbn. lia. }
    assert (H : forall c k0, StronglySorted (fun a b : Z * Z => fst b <= fst a) (rev (olist (d_mt A) k0 (k0 + Z.of_nat c)))).
    { induction c as [|c IHc]; intros k0.
      - unfold olist. rewrite zrange_nil by lia. constructor.
      - unfold olist. rewrite (zrange_cons k0) by lia. cbn [flat_map]. rewrite rev_app_distr. specialize (IHc (k0 + 1)).
        replace (k0 + 1 + Z.of_nat c) with (k0 + Z.of_nat (S c)) in IHc by lia. apply G.
        + exact IHc.
        + rewrite <- map_rev. apply C.
        + intros a b Ha Hb. apply in_rev in Ha, Hb. apply in_map_iff in Hb. destruct Hb as (y & <- & _).
          destruct a as [k q]. apply (proj1 (in_olist (d_mt A) (k0 + 1) (k0 + Z.of_nat (S c)) k q)) in Ha. cbn. lia. }
    destruct (Z_lt_dec 0 (Z.min (d_mt A) (d_nt A))) as [P|P].
    - specialize (H (Z.to_nat (Z.min (d_mt A) (d_nt A))) 0). rewrite Z2Nat.id in H by lia. exact H.
    - unfold olist. rewrite zrange_nil by lia. constructor.
  Qed.

  Lemma pzungqr_eq : pzungqr (N := N) bA A bT T bB B
    = flat_map (fun o => map (ul_ PlasmaNoTrans o) (zrange (fst o) (d_nt B))) (rev os).
  Proof.
    unfold pzungqr. cbv zeta. rewrite EmtB, (tk_mb _ _ _ _ _ HT).
    rewrite (rev_olist A), flat_map_flat_map. apply flat_map_ext_in. intros k Hk. apply in_rev in Hk. apply in_zrange in Hk.
    rewrite flat_map_app. cbn [flat_map]. rewrite app_nil_r, flat_map_map. f_equal.
    - apply flat_map_ext_in. intros q Hq. apply in_rev in Hq. apply in_zrange in Hq. cbn [fst].
      apply map_ext_in. intros n Hn. apply in_zrange in Hn. assert (I : in_tiles B q n) by (split; lia).
      unfold utask_l. cbn [fst snd]. destruct (Z.eqb_spec q k); [lia|]. rewrite (proj2 (A_view nb m K HK A HA EmA EnA k Hk)).
      rewrite (sq_mv _ _ _ HB q n I), (sq_nv _ _ _ HB q n I), EmB, (sq_mb _ _ _ HB), (tk_mb _ _ _ _ _ HT). reflexivity.
    - cbn [fst]. apply map_ext_in. intros n Hn. apply in_zrange in Hn. assert (I : in_tiles B k n) by (split; lia).
      unfold utask_l. cbn [fst snd]. rewrite Z.eqb_refl. rewrite (proj1 (A_view nb m K HK A HA EmA EnA k Hk)).
      rewrite (sq_mv _ _ _ HB k n I), (sq_nv _ _ _ HB k n I), EmB, (tk_mb _ _ _ _ _ HT). reflexivity.
  Qed.

  Lemma ungqr_ok : forall env,
    In (bA, homeD A (in_tiles A)) env -> In (bT, homeD T (in_tiles T)) env -> In (bB, homeD B (in_tiles B)) env ->
    Forall (fun k => kgood k /\ kdecl (home_env env) k) (pzungqr (N := N) bA A bT T bB B).
  Proof.
    intros env HEA HET HEB. rewrite pzungqr_eq. apply Forall_flat_map_intro. intros o Ho. apply in_rev in Ho.
    pose proof (os_ok nb m K Hnb HK A HA EmA EnA o Ho) as HO.
    apply Forall_forall. intros t Ht. apply in_map_iff in Ht. destruct Ht as (n' & <- & Hn'). apply in_zrange in Hn'.
    eapply utask_l_ok; eauto; try lia. destruct HO as (O1 & _). lia.
  Qed.
End Gqr.

Section Main.
  Context {N : numbers}.
  Add Ring num_ring_ls_gqrm : (nring N).

  Lemma ungqr_create_dn : forall nb m n k, 0 < nb -> 0 <= k <= n -> 0 <= m ->
    exists A size, ungqr_create nb m n k = CrOk A size /\ dn nb A /\ d_m A = m /\ d_n A = k /\ d_type A <> PlasmaGeneralBand.
  Proof.
    intros nb m n k Hnb Hk Hm. unfold ungqr_create.
    destruct (general_create PlasmaComplexDouble nb nb m n 0 0 m k) as [c|A size] eqn:E.
    - exfalso. rewrite general_create_succeeds in E; try lia; try reflexivity; discriminate.
    - exists A, size. split; [reflexivity|].
      destruct (general_create_ok _ _ _ _ _ _ _ _ _ _ _ (Z.le_refl 0) (Z.le_refl 0) E) as (G & -> & _).
      split; [constructor; [apply dense_tiled; assumption|reflexivity|reflexivity]|]. split; [reflexivity|]. split; [reflexivity|].
      cbn. unfold PlasmaGeneral, PlasmaGeneralBand. discriminate.
  Qed.

  Lemma zungqr_run : forall nb ib m K T bT El (M : mem N) taus, 0 < nb -> 0 < ib -> 0 < K <= m ->
    tok nb ib m K T -> holds_q nb ib m K T bT ((m - 1) / nb + 1) ((K - 1) / nb + 1) El M taus ->
    forall n pA lda pQ ldq bA bQ M2, K <= n <= m -> Z.max 1 m <= lda -> Z.max 1 m <= ldq ->
    NoDup [bT; bA; bQ] -> (forall b, In b [fst pA; fst pQ] -> ~ In b [bT; bA; bQ]) ->
    apart pA lda m K pQ ldq m K ->
    (forall i j, 0 <= i < m -> 0 <= j < K -> ul M2 pA lda i j = El i j) ->
    (forall l, fst l = bT -> M2 l = M l) ->
    driver_ensures (zungqr nb m n K pA lda bT T pQ ldq bA bQ) M2 (fun M3 =>
      (forall i j, 0 <= i < m -> 0 <= j < K -> ul M3 pQ ldq i j = qmat nb m K El taus i j) /\
      (forall l, fst l <> bA -> fst l <> bQ -> ~ in_user pQ ldq m K l -> M3 l = M2 l)).
  Proof.
    intros nb ib m K T bT El M taus Hnb Hib HK HT HQ n pA lda pQ ldq bA bQ M2 Hn Hlda Hldq HND HFr HAP HE HM.
    unfold zungqr.
    destruct (Z.ltb_spec m 0); [lia|]. destruct (Z.ltb_spec n 0); [lia|]. destruct (Z.ltb_spec m n); [lia|]. cbn [orb].
    destruct (Z.ltb_spec K 0); [lia|]. destruct (Z.ltb_spec n K); [lia|]. cbn [orb].
    destruct (Z.ltb_spec lda (Z.max 1 m)); [lia|]. destruct (Z.ltb_spec ldq (Z.max 1 m)); [lia|]. destruct (Z.leb_spec n 0); [lia|].
    destruct (ungqr_create_dn nb m n K Hnb ltac:(lia) ltac:(lia)) as (A & size & EA & DA & A1 & A2 & TA). rewrite EA. cbn [with_desc driver_ensures]. clear EA.
    rewrite A2. destruct (Z.leb_spec K 0); [lia|].
    assert (NAC : bA <> bQ /\ bT <> bA /\ bT <> bQ).
    { inversion_clear HND as [|? ? N1 N2]. inversion_clear N2 as [|? ? N3 N4]. cbn in *. intuition. }
    destruct NAC as (NAQ & NTA & NTQ).
    assert (FT : functionalZ (homeD T (in_tiles T))) by (apply homeD_functional; apply (tk_t _ _ _ _ _ HT)).
    eapply region_mono; [|apply (ext_region2 N nb bA A pA lda bQ A pQ ldq bT (homeD T (in_tiles T))); auto; rewrite ?A1, ?A2; auto; try lia].
    - intros M' (M3 & H1' & H2' & H3' & H4' & H5').
      rewrite A1, A2 in H1', H4', H5'. rewrite krun_app in H4', H5'.
      assert (X1 : forall i j, 0 <= i < m -> 0 <= j < K -> el M3 bA A i j = El i j) by (intros; rewrite H1' by lia; apply HE; lia).
      assert (X3 : forall l, fst l = bT -> M3 l = M l).
      { intros l Hl. rewrite H3' by congruence. apply HM. assumption. }
      assert (LS : forall i j, 0 <= i < m -> 0 <= j < K -> at_elem M3 bQ A i j (krun (pzlaset PlasmaGeneral n0 n1 bQ A) M3) (if i =? j then n1 else n0)).
      { intros i j Hi Hj. pose proof (pzlaset_at nb A bQ PlasmaGeneral n0 n1 DA TA (or_introl eq_refl) M3 i j) as X. rewrite A1, A2 in X.
        exact (X Hi Hj). }
      remember (krun (pzlaset PlasmaGeneral n0 n1 bQ A) M3) as M4 eqn:E4. clear E4.
      assert (X4 : forall l, fst l <> bQ -> M4 l = M3 l) by (apply (LS 0 0); lia).
      assert (X5 : forall i j, 0 <= i < m -> 0 <= j < K -> el M4 bQ A i j = if i =? j then n1 else n0) by (intros; apply (LS i j); assumption).
      clear LS.
      pose proof (td_shape _ _ (sq_t _ _ _ DA)) as SA.
      assert (MA : d_mt A = (m - 1) / nb + 1). { rewrite (mt_aligned A SA), A1, (sq_mb _ _ _ DA). destruct (Z.eqb_spec m 0); lia. }
      assert (NA : d_nt A = (K - 1) / nb + 1). { rewrite (nt_aligned A SA), A2, (sq_nb _ _ _ DA). destruct (Z.eqb_spec K 0); lia. }
      assert (LE : (K - 1) / nb <= (m - 1) / nb) by (apply Z.div_le_mono; lia).
      assert (OO : olist (d_mt A) 0 (Z.min (d_mt A) (d_nt A)) = olist ((m - 1) / nb + 1) 0 ((K - 1) / nb + 1)) by (rewrite MA, NA; f_equal; lia).
      assert (EL : forall o i j, s_ok nb m K o -> s_reads nb m K o i j -> El i j = el M4 bA A i j).
      { intros o i j HO R. destruct (s_reads_tile nb m K Hnb ltac:(lia) o i j HO R) as (R1 & R2 & R3). rewrite <- X1 by lia. unfold el. symmetry. apply X4. cbn. congruence. }
      assert (GD : forall o, In o (olist (d_mt A) 0 (Z.min (d_mt A) (d_nt A))) -> s_ok nb m K o /\ s_good N nb m K ib (el M4 bA A) (tel T bT M4) (taus o) o).
      { intros o Ho. rewrite OO in Ho. destruct (HQ o Ho) as [HO G]. split; [assumption|].
        eapply (s_good_cong N nb m K Hnb ltac:(lia)); [assumption|assumption| | | |exact G]; auto.
        - intros i j R. apply (EL o); assumption.
        - intros a c _ _. unfold tel, rd. rewrite X4, X3 by (cbn; auto). reflexivity. }
      rewrite (pzungqr_eq nb ib m K HK T bT HT A bA DA A1 A2 A bQ DA A1 eq_refl) in H4', H5'.
      destruct (steps_part nb ib m K Hnb Hib HK T bT HT A bA DA A1 A2 A bQ DA A1 ltac:(auto) ltac:(auto) taus (rev (olist (d_mt A) 0 (Z.min (d_mt A) (d_nt A)))) M4) as [S1 S2].
      { intros o Ho. apply in_rev in Ho. apply GD. assumption. }
      { intros o Ho. apply in_rev in Ho. apply GD. assumption. }
      { apply rev_olist_sorted. }
      { intros o i j Ho Hj L Hi. rewrite X5; try lia.
        - pose proof (Z.mod_pos_bound j nb Hnb). pose proof (Z.div_mod j nb ltac:(lia)). destruct (Z.eqb_spec i j); [nia|reflexivity].
        - apply in_rev in Ho. destruct (GD o Ho) as [(O1 & _) _]. nia. }
      split.
      + intros i j Hi Hj. rewrite H4' by lia. rewrite S1 by lia. unfold qmat, umat. rewrite OO.
        symmetry. apply (s_all_cong N nb m K Hnb ltac:(lia)); auto; try lia.
        * intros o Ho. apply in_rev in Ho. rewrite <- OO in Ho. apply GD. assumption.
        * intros o Ho i' j' R. apply (EL o); [|assumption]. apply in_rev in Ho. rewrite <- OO in Ho. apply GD. assumption.
        * intros s Hs. unfold ee, colv. rewrite X5 by lia. reflexivity.
      + intros l L1 L2 L3. rewrite H5' by assumption. rewrite S2, X4 by assumption. apply H3'; assumption.
    - intros env HEA HEB HET. apply Forall_app. split.
      + apply Forall_forall. intros t Ht. split.
        * pose proof (pzlaset_kgood nb A bQ PlasmaGeneral (n0 (n := N)) n1 DA TA) as X. rewrite Forall_forall in X. apply X. assumption.
        * pose proof (pzlaset_kdecl nb A bQ PlasmaGeneral (n0 (n := N)) n1 DA TA env HEB) as X. rewrite Forall_forall in X. apply X. assumption.
      + apply (ungqr_ok nb ib m K Hnb HK T bT HT A bA DA A1 A2 A bQ DA A1 eq_refl env); assumption.
  Qed.

  Lemma zungqr_main : forall (lg : N -> list N -> N * N * list N), larfg_ok lg ->
    forall nb ib m n pA lda bA bT M,
    0 < nb -> 0 < ib -> 0 <= m -> 0 <= n -> Z.max 1 m <= lda -> NoDup [fst pA; bA; bT] ->
    driver_ensures (zgeqrf lg nb ib m n pA lda bA bT) M (fun M' => exists Q,
      is_unitary m Q /\
      (forall i j, 0 <= i < m -> 0 <= j < n ->
         ul M pA lda i j = nsum (fun l => nmul (Q i l) (if l <=? j then ul M' pA lda l j else n0)) 0 m) /\
      forall T size qn pV ldv pQ ldq bV bQ M2,
        geqrf_T nb ib m n = CrOk T size ->
        Z.min m n <= qn <= m -> Z.max 1 m <= ldv -> Z.max 1 m <= ldq ->
        NoDup [bT; bV; bQ] -> (forall b, In b [fst pV; fst pQ] -> ~ In b [bT; bV; bQ]) ->
        apart pV ldv m (Z.min m n) pQ ldq m (Z.min m n) ->
        (forall i j, 0 <= i < m -> 0 <= j < Z.min m n -> ul M2 pV ldv i j = ul M' pA lda i j) ->
        (forall l, fst l = bT -> M2 l = M' l) ->
        driver_ensures (zungqr nb m qn (Z.min m n) pV ldv bT T pQ ldq bV bQ) M2 (fun M3 =>
          (forall i j, 0 <= i < m -> 0 <= j < Z.min m n -> ul M3 pQ ldq i j = Q i j) /\
          (forall l, fst l <> bV -> fst l <> bQ -> ~ in_user pQ ldq m (Z.min m n) l -> M3 l = M2 l))).
  Proof.
    intros lg LG nb ib m n pA lda bA bT M Hnb Hib Hm Hn Hlda HND.
    destruct (Z.eq_dec (Z.min m n) 0) as [EK|EK].
    - pose proof (zgeqrf_main lg LG nb ib m n pA lda bA bT M Hnb Hib Hm Hn Hlda HND) as X.
      eapply driver_mono; [|exact X]. intros M' (Q & Q1 & Q2 & Q3 & _). exists Q. split; [assumption|]. split; [assumption|].
      intros T size qn pV ldv pQ ldq bV bQ M2 HT Hqn Hldv Hldq HND2 HFr HAP HE HM. rewrite EK in *.
      unfold zungqr.
      destruct (Z.ltb_spec m 0); [lia|]. destruct (Z.ltb_spec qn 0); [lia|]. destruct (Z.ltb_spec m qn); [lia|]. cbn [orb].
      destruct (Z.ltb_spec 0 0); [lia|]. destruct (Z.ltb_spec qn 0); [lia|]. cbn [orb].
      destruct (Z.ltb_spec ldv (Z.max 1 m)); [lia|]. destruct (Z.ltb_spec ldq (Z.max 1 m)); [lia|]. destruct (Z.leb_spec qn 0).
      { cbn [driver_ensures]. split; [reflexivity|]. split; [intros; lia|reflexivity]. }
      destruct (ungqr_create_dn nb m qn 0 Hnb ltac:(lia) ltac:(lia)) as (A & sz & EA & DA & A1 & A2 & TA). rewrite EA. cbn [with_desc driver_ensures]. clear EA.
      rewrite A2. change (0 <=? 0) with true. cbv iota.
      assert (FT : functionalZ (fun _ _ : Z => False)) by (intros ? ? ? []).
      eapply region_mono; [|apply (ext_region2 N nb bV A pV ldv bQ A pQ ldq bT (fun _ _ => False)); auto; rewrite ?A1, ?A2; auto; try lia].
      intros M3 (M4 & _ & _ & H3' & _ & H5'). rewrite A1, A2 in H5'. split; [intros; lia|].
      intros l L1 L2 L3. rewrite H5' by assumption. apply H3'; assumption.
    - eapply driver_mono; [|apply (zgeqrf_core lg LG nb ib m n pA lda bA bT M); auto; lia].
      intros M' (T & size & taus & El & ET & HT & HE & HQ & HF & _).
      exists (qmat nb m (Z.min m n) El taus). split; [eapply qmat_unitary; [exact Hnb| |exact HQ]; lia|]. split.
      { intros i j Hi Hj. rewrite HF by assumption. apply nsum_ext. intros l Hl. destruct (l <=? j); [|reflexivity]. rewrite HE by lia. reflexivity. }
      intros T' size' qn pV ldv pQ ldq bV bQ M2 HT' Hqn Hldv Hldq HND2 HFr HAP HE2 HM.
      assert (T' = T) by congruence. subst T'.
      apply (zungqr_run nb ib m (Z.min m n) T bT El M' taus); auto; try lia.
      intros i j Hi Hj. rewrite HE2 by assumption. apply HE; lia.
  Qed.
End Main.

Section GeqrsMain.
  Context {F : fields}.
  Add Ring num_ring_ls_qrsm : (nring F).

  Lemma zgeqrs_main : forall (lg : F -> list F -> F * F * list F), larfg_ok lg -> (n1 : F) <> n0 ->
    forall nb ib m n pA lda bA bT M,
    0 < nb -> 0 < ib -> 0 <= n <= m -> Z.max 1 m <= lda -> NoDup [fst pA; bA; bT] ->
    full_column_rank m n (ul M pA lda) ->
    driver_ensures (zgeqrf lg nb ib m n pA lda bA bT) M (fun M' =>
      forall T size nrhs pV ldv pB ldb bV bB M2,
        geqrf_T nb ib m n = CrOk T size ->
        0 <= nrhs -> Z.max 1 m <= ldv -> Z.max 1 m <= ldb ->
        NoDup [bT; bV; bB] -> (forall b, In b [fst pV; fst pB] -> ~ In b [bT; bV; bB]) ->
        apart pV ldv m n pB ldb m nrhs ->
        (forall i j, 0 <= i < m -> 0 <= j < n -> ul M2 pV ldv i j = ul M' pA lda i j) ->
        (forall l, fst l = bT -> M2 l = M' l) ->
        driver_ensures (zgeqrs (F := F) nb m n nrhs pV ldv bT T pB ldb bV bB) M2 (fun M3 =>
          (forall j, 0 <= j < nrhs ->
             least_squares m n (ul M pA lda) (fun i => ul M2 pB ldb i j) (fun i => ul M3 pB ldb i j) /\
             sum_squares (fun i => nsub (ul M2 pB ldb i j) (mat_vec n (ul M pA lda) (fun i => ul M3 pB ldb i j) i)) 0 m
             = sum_squares (fun i => ul M3 pB ldb i j) n m) /\
          (forall l, fst l <> bV -> fst l <> bB -> ~ in_user pB ldb m nrhs l -> M3 l = M2 l))).
  Proof.
    intros lg LG NT nb ib m n pA lda bA bT M Hnb Hib Hn Hlda HND RK.
    destruct (Z.eq_dec n 0) as [EK|EK].
    - pose proof (zgeqrf_main lg LG nb ib m n pA lda bA bT M Hnb Hib ltac:(lia) ltac:(lia) Hlda HND) as X.
      eapply driver_mono; [|exact X]. clear X. intros M' _.
      intros T size nrhs pV ldv pB ldb bV bB M2 HT Hnr Hldv Hldq HND2 HFr HAP HE HM.
      unfold zgeqrs.
      destruct (Z.ltb_spec m 0); [lia|]. destruct (Z.ltb_spec n 0); [lia|]. destruct (Z.ltb_spec m n); [lia|]. cbn [orb].
      destruct (Z.ltb_spec nrhs 0); [lia|].
      destruct (Z.ltb_spec ldv (Z.max 1 m)); [lia|]. destruct (Z.ltb_spec ldb (Z.max 1 (Z.max 1 m))); [lia|].
      replace (n =? 0) with true by (symmetry; apply Z.eqb_eq; assumption). rewrite orb_true_r. cbn [orb driver_ensures].
      split; [reflexivity|]. split; [|reflexivity]. intros j Hj. rewrite EK. split.
      + intros r Hr. lia.
      + unfold sum_squares. apply nsum_ext. intros i Hi. unfold mat_vec. rewrite nsum_nil by lia. assert (Z0 : forall a : F, nsub a n0 = a) by (intros; ring). rewrite Z0. reflexivity.
    - eapply driver_mono; [|apply (zgeqrf_core lg LG nb ib m n pA lda bA bT M); auto; lia].
      intros M' (T & size & taus & El & ET & HT & HE & HQ & HF & _). rewrite Z.min_r in HT, HQ, HF by lia.
      intros T' size' nrhs pV ldv pB ldb bV bB M2 HT' Hnr Hldv Hldb HND2 HFr HAP HE2 HM.
      assert (T' = T) by congruence. subst T'.
      apply (zgeqrs_run nb ib m n T bT El M' taus (ul M pA lda) El); auto; try lia.
      intros i j Hi Hj. rewrite HE2 by assumption. apply HE; lia.
  Qed.
End GeqrsMain.
