(* plasma_zgbsv *)
From Coq Require Import ZArith List Bool Lia.
From Verif Require Import Base NumModel NumProofs FieldModel TaskModel TaskSpec TaskProofs DescModel DescSpec DescProofs
  DescPackProofs DescProofs3 DescProofs4 DescDriverModel MatModel MatSpec MatProofs RegionProofs LayoutModel DriverModel DriverSpec
  OpProofs OperandProofs GemmModel GemmProofs GemmDriverProofs RankDriverProofs LasetProofs TriSpec SwpModel SwpSpec SwpProofs SwpDriverProofs GuardModel GuardSpec GuardProofs
  GuardProofs2 BandModel BandProofs BandLayoutProofs NormSpec NormBandSpec NormGbLayoutProofs GetrfModel GetrfSpec GetrfProofs
  GesvModel GesvLiftProofs GbtrsModel GbtrsSpec GbtrsSwapProofs GbtrsProofs GbtrsDriverProofs GbtrfModel GbtrfMathProofs GbtrfTaskProofs
  GbtrfStepProofs GbtrfRunProofs GbtrfLinkProofs GbtrfCopyProofs GbtrfDriverModel GbtrfSpec GbtrfDriverProofs GbsvModel GbsvSpec.
Import ListNotations.
Open Scope Z_scope.

Lemma phases_app : forall V (p1 p2 : list (list (ktask V))) M Q,
  phases_ensures p1 M (fun M' => phases_ensures p2 M' Q) -> phases_ensures (p1 ++ p2) M Q.
Proof.
  intros V p1. induction p1 as [|ks p1 IH]; intros p2 M Q H; cbn [app phases_ensures] in *; [assumption|].
  eapply region_mono; [|exact H]. intros M'. apply IH.
Qed.

Definition lift_item {F : fields} (i : item F) : item (cell F) :=
  match i with Task k => Task (on_cells k) | Alone k => Alone (on_cells k) end.
Lemma waits_lift : forall (F : fields) (items : list (item F)) cur,
  map (map on_cells) (waits cur items) = waits (map on_cells cur) (map lift_item items).
Proof.
  intros F items. induction items as [|[k|k] items IH]; intros cur; cbn [waits map lift_item].
  - reflexivity.
  - rewrite IH, map_app. reflexivity.
  - rewrite IH. reflexivity.
Qed.
Lemma it_task_lift : forall (F : fields) (items : list (item F)), map it_task (map lift_item items) = map on_cells (map it_task items).
Proof. intros F items. rewrite !map_map. apply map_ext. intros [k|k]; reflexivity. Qed.

Lemma korders_app : forall V (l1 l2 : list (ktask V)), korders l1 -> korders l2 ->
  (forall x y, In x l1 -> In y l2 -> ~ kconflict x y) -> korders (l1 ++ l2).
Proof.
  intros V l1 l2 H1 H2 HC. induction H1 as [|k ks HK H1 IH]; cbn [app]; [assumption|]. constructor.
  - intros k' Hk' C. apply in_app_iff in Hk'. destruct Hk' as [Hk'|Hk']; [apply HK; assumption|].
    exfalso. apply (HC k k'); [left; reflexivity|assumption|assumption].
  - apply IH. intros x y Hx Hy. apply HC; [right; assumption|assumption].
Qed.

Section Gbsv.
  Context {F : fields}.
  Variable bigger : F -> F -> bool.

  (* the solves of cells *)
  Lemma cells_waits : forall home, functional home -> forall (items : list (item F)) (M : mem (cell F)) (Q : mem (cell F) -> Prop),
    Forall kgood (map it_task items) -> Forall (it_decl home) items ->
    (forall M', (forall l, M' l = (krun (map it_task items) (nums M) l, snd (M l))) -> Q M') ->
    phases_ensures (map (map on_cells) (waits [] items)) M Q.
  Proof.
    intros home HF items M Q HG HD HQ. rewrite waits_lift. cbn [map]. apply (waits_ensures home HF); [constructor| |constructor| |].
    - rewrite it_task_lift. apply Forall_map. eapply Forall_impl; [|exact HG]. intros k. apply on_cells_kgood.
    - apply Forall_map. eapply Forall_impl; [|exact HD]. intros [k|k]; cbn [it_decl lift_item]; [apply on_cells_kdecl|auto].
    - intros M' HM. apply HQ. intros l. rewrite HM. cbn [app]. rewrite it_task_lift, krun_on_cells. reflexivity.
  Qed.

  Section Region.
    Variables (nb n kl ku : Z) (A B : desc) (bA bB : Z) (pA : loc) (ld : Z) (pB : loc) (ldb : Z) (pI : loc).
    Hypothesis HA : gd_ok A nb n n kl ku.
    Hypothesis G : gen_ok B.
    Hypothesis Bmb : d_mb B = nb.
    Hypothesis Bnb : d_nb B = nb.
    Hypothesis Bm : d_m B = n.
    Hypothesis LB : d_m B <= ldb.
    Hypothesis NB : bA <> bB.
    Hypothesis HF : forall b, In b [fst pA; fst pB] -> ~ In b [bA; bB].
    Hypothesis NP : fst pA <> fst pB.
    Hypothesis LD : Z.max (kl + ku) (nb - 1) + ((kl + nb - 1) / nb + 1) * nb <= ld.
    Let Hb := gd_pos _ _ _ _ _ _ HA.
    Let FA1 : fst pA <> bA.
    Proof. intros E. apply (HF (fst pA)); cbn; auto. Qed.
    Let FA2 : fst pA <> bB.
    Proof. intros E. apply (HF (fst pA)); cbn; auto. Qed.
    Let FB1 : fst pB <> bA.
    Proof. intros E. apply (HF (fst pB)); cbn; auto. Qed.
    Let FB2 : fst pB <> bB.
    Proof. intros E. apply (HF (fst pB)); cbn; auto. Qed.
    Let HF' := gs_functional nb n kl ku A B bA bB pA pB ldb HA G Bmb Bnb LB NB HF.

    Lemma sv_first : forall (M : mem (cell F)) (Q : mem (cell F) -> Prop),
      (forall M', meq M' (krun (map on_cells (gs_in A B bA bB pA ld pB ldb)) M) -> Q M') ->
      region_ensures (map on_cells (pzpb2desc pA ld bA A ++ pzge2desc pB ldb bB B)) M Q.
    Proof.
      intros M Q HQ. fold (gs_in (F := F) A B bA bB pA ld pB ldb). apply region_intro; [| |exact HQ].
      - apply Forall_map. eapply Forall_impl; [|apply (gs_in_kgood nb n kl ku A B bA bB pA ld pB ldb HA G Bmb Bnb LB HF)].
        intros k. apply on_cells_kgood.
      - apply korders_klinked. apply on_cells_korders. apply (kdecl_korders _ _ _ HF').
        apply (gs_in_kdecl nb n kl ku A B bA bB pA ld pB ldb HA G Bmb Bnb LB HF NP).
    Qed.

    Lemma pb_blocks : forall k : ktask F, In k (pzdesc2pb bA A pA ld) -> forall l,
      (k_reads k l -> fst l = bA) /\ (k_writes k l -> fst l = fst pA).
    Proof.
      intros k Hk l. destruct (gd_out_in A nb n kl ku bA pA ld HA k Hk) as (i & j & H & ->). split; intros W.
      - apply (out_reads A nb n kl ku bA pA ld HA i j l H W).
      - destruct (out_writes A nb n kl ku bA pA ld HA i j l H W) as (i' & j' & _ & _ & _ & _ & ->). reflexivity.
    Qed.
    Lemma ge_blocks : forall k : ktask F, In k (pzdesc2ge bB B pB ldb) -> forall l,
      (k_reads k l -> fst l = bB) /\ (k_writes k l -> fst l = fst pB).
    Proof.
      intros k Hk l. unfold pzdesc2ge in Hk. apply in_flat_map in Hk. destruct Hk as (m & _ & Hk).
      apply in_flat_map in Hk. destruct Hk as (q & _ & [<-|[]]). split; intros W; apply reg_block in W; exact W.
    Qed.

    Lemma sv_last : forall (M : mem (cell F)) (Q : mem (cell F) -> Prop),
      (forall M', 
         (forall i j, in_matrix n n i j -> gb_reads nb kl ku i j -> fst (M' (gU kl ku pA ld i j)) = el (nums M) bA A i j) ->
         (forall i j, 0 <= i < d_m B -> 0 <= j < d_n B -> ul (nums M') pB ldb i j = el (nums M) bB B i j) ->
         (forall l, ~ in_band_array nb n kl ku pA ld l -> ~ in_user pB ldb (d_m B) (d_n B) l -> M' l = M l) ->
         (forall l, snd (M' l) = snd (M l)) -> Q M') ->
      region_ensures (map on_cells (pzdesc2pb bA A pA ld ++ pzdesc2ge bB B pB ldb)) M Q.
    Proof.
      intros M Q HQ. apply region_intro.
      - rewrite map_app. apply Forall_app. split; apply Forall_map; eapply Forall_impl; [intros k; apply on_cells_kgood| |intros k; apply on_cells_kgood|].
        + apply (gd_out_kgood A nb n kl ku bA pA ld HA FA1 LD).
        + apply (gs_out_kgood nb B bB pB ldb G Bmb Bnb LB).
      - apply korders_klinked. apply on_cells_korders. apply korders_app.
        + apply free_korders. intros l1 x l2 y l3. apply (gd_out_free A nb n kl ku bA pA ld HA FA1 LD).
        + apply (kdecl_korders _ _ _ HF'). apply (gs_out_kdecl nb A B bA bB pB ldb G Bmb Bnb LB).
        + intros x y Hx Hy (l & C). destruct (pb_blocks x Hx l) as [X1 X2]. destruct (ge_blocks y Hy l) as [Y1 Y2]. intuition congruence.
      - intros M' E.
        assert (E' : forall l, M' l = (krun (pzdesc2ge bB B pB ldb) (krun (pzdesc2pb bA A pA ld) (nums M)) l, snd (M l))).
        { intros l. rewrite E, krun_on_cells. unfold on_nums. rewrite krun_app. reflexivity. }
        clear E. remember (krun (pzdesc2pb bA A pA ld) (nums M)) as N1 eqn:EN.
        assert (FR : forall l, fst l <> fst pB -> krun (pzdesc2ge bB B pB ldb) N1 l = N1 l).
        { intros l Hl. apply (gs_out_frame nb B bB pB ldb G Bmb Bnb LB). intros (i & j & _ & _ & ->). apply Hl. reflexivity. }
        assert (FN : forall l, fst l <> fst pA -> N1 l = nums M l).
        { intros l Hl. rewrite EN. apply (gd_out_frame A nb n kl ku bA pA ld HA FA1 LD). intros i j _ _ ->. apply Hl. reflexivity. }
        apply HQ.
        + intros i j HM HR. rewrite E'. cbn [fst]. rewrite FR by (unfold gU; cbn; assumption). rewrite EN.
          apply (gd_out_spec A nb n kl ku bA pA ld HA FA1 LD); assumption.
        + intros i j Hi Hj. unfold ul, nums at 1. rewrite E'. cbn [fst].
          change (ul (krun (pzdesc2ge bB B pB ldb) N1) pB ldb i j = el (nums M) bB B i j).
          rewrite (gs_out_spec nb B bA bB pA pB ldb G Bmb Bnb LB HF) by assumption. unfold el. apply FN. cbn. congruence.
        + intros l H1 H2. rewrite E'. rewrite (gs_out_frame nb B bB pB ldb G Bmb Bnb LB) by assumption.
          rewrite EN. rewrite (gd_out_frame A nb n kl ku bA pA ld HA FA1 LD).
          * unfold nums. symmetry. apply surjective_pairing.
          * intros i j HM HR ->. apply H1. exists i, j. auto.
        + intros l. rewrite E'. reflexivity.
    Qed.
  End Region.

  Lemma zeros_factors : forall (M : mem F) nb n kl ku p ld, 0 < nb -> 0 <= kl -> 0 <= ku -> gb_zeros M nb n n kl ku p ld ->
    band_factors nb n M kl ku p ld (gb_fill_el M kl ku p ld).
  Proof.
    intros M nb n kl ku p ld Hb Hkl Hku HZ. split.
    - intros i j HM HR. unfold gb_fill_el. destruct ((j - ku <=? i) && (i <=? j + kl)) eqn:E; [reflexivity|].
      apply HZ; [assumption|exact HR|]. apply andb_false_iff in E. rewrite !Z.leb_gt in E. lia.
    - intros i j HM HO. unfold gb_fill_el. destruct ((j - ku <=? i) && (i <=? j + kl)) eqn:E; [|reflexivity]. exfalso.
      apply andb_true_iff in E. rewrite !Z.leb_le in E. destruct (div_mod_pos j nb Hb) as [J1 J2].
      revert HO J1 J2. generalize (j / nb), (j mod nb). intros; nia.
  Qed.

  Lemma zgbsv_main : forall nb ib mpt n kl ku nrhs pA ld pI pB ldb bA bB (M : mem (cell F)),
    0 < nb -> 0 < ib -> 0 < mpt -> 0 <= kl < n -> 0 <= ku < n -> 0 < nrhs ->
    Z.max (kl + ku) (nb - 1) + ((kl + nb - 1) / nb + 1) * nb <= ld -> n <= ldb ->
    NoDup [bA; bB; fst pA; fst pB; fst pI] -> gb_zeros (nums M) nb n n kl ku pA ld ->
    sdriver_ensures (zgbsv bigger nb ib mpt n kl ku nrhs pA ld pI pB ldb bA bB) M (fun M' code =>
      0 <= code <= n /\
      (code = 0 ->
         (forall i j, in_matrix n nrhs i j ->
            nsum (fun l => nmul (gb_fill_el (nums M) kl ku pA ld i l) (ul (nums M') pB ldb l j)) 0 n = ul (nums M) pB ldb i j) /\
         exists a, band_factors nb n (nums M') kl ku pA ld a /\
           band_lu bigger nb n kl (gb_fill_el (nums M) kl ku pA ld) a (pivots M' pI)) /\
      (code <> 0 -> comparison bigger -> column_depends n (gb_fill_el (nums M) kl ku pA ld) (code - 1)) /\
      (forall l, ~ In (fst l) [bA; bB] -> (code = 0 -> ~ in_band_array nb n kl ku pA ld l /\ ~ in_user pB ldb n nrhs l) ->
         (forall t, 0 <= t < n -> l <> (fst pI, snd pI + t)) -> M' l = M l)).
  Proof.
    intros nb ib mpt n kl ku nrhs pA ld pI pB ldb bA bB M Hb Hib Hmpt Hl Hu Hr LD LB ND HZ.
    assert (LD1 : 1 + kl + ku <= ld).
    { assert (0 <= (kl + nb - 1) / nb) by (apply Z.div_pos; lia). revert LD H. generalize ((kl + nb - 1) / nb). intros y LD H. nia. }
    unfold zgbsv.
    replace (n <? 0) with false by (symmetry; apply Z.ltb_ge; lia).
    replace (kl <? 0) with false by (symmetry; apply Z.ltb_ge; lia).
    replace (ku <? 0) with false by (symmetry; apply Z.ltb_ge; lia).
    replace (nrhs <? 0) with false by (symmetry; apply Z.ltb_ge; lia).
    replace (ld <? Z.max 1 (1 + kl + ku)) with false by (symmetry; apply Z.ltb_ge; lia).
    replace (ldb <? Z.max 1 n) with false by (symmetry; apply Z.ltb_ge; lia).
    replace (Z.min n nrhs =? 0) with false by (symmetry; apply Z.eqb_neq; lia).
    destruct (gb_create_succeeds nb n n kl ku Hb) as (A & sz & EA); [lia..|]. rewrite EA.
    pose proof (gb_create_gd nb n n kl ku A sz ltac:(lia) ltac:(lia) EA) as HA.
    pose proof (gb_create_ok nb n n kl ku A sz ltac:(lia) ltac:(lia) EA) as [BK _]. clear EA.
    destruct (ge_create_succeeds nb n nrhs Hb ltac:(lia) ltac:(lia)) as (B & EB & _). rewrite EB.
    destruct (ge_create_gen _ _ _ _ _ EB) as (GB & B3 & B4 & B1 & B2). clear EB.
    assert (NDS : bA <> bB /\ (forall b, In b [fst pA; fst pB] -> ~ In b [bA; bB]) /\ fst pA <> fst pB /\
      fst pI <> bA /\ fst pI <> bB /\ fst pI <> fst pA /\ fst pI <> fst pB /\ fst pA <> bA /\ fst pB <> bB /\ fst pB <> bA).
    { inversion_clear ND as [|? ? X1 Y1]. inversion_clear Y1 as [|? ? X2 Y2]. inversion_clear Y2 as [|? ? X3 Y3]. inversion_clear Y3 as [|? ? X4 Y4].
      cbn in X1, X2, X3, X4. cbn. intuition congruence. }
    destruct NDS as (N1 & HF & NP & I1 & I2 & I3 & I4 & P1 & P2 & P3). clear ND.
    assert (SEC : forall l, (forall t, 0 <= t < n -> l <> (fst pI, snd pI + t)) -> ~ ipiv_sec pI 0 n l).
    { intros l H (t & Ht & E). exact (H t Ht E). }
    assert (LB' : d_m B <= ldb) by lia.
    cbn [sdriver_ensures].
    apply (sv_first nb n kl ku A B bA bB pA ld pB ldb HA GB B3 B4 LB' N1 HF NP). intros M1 EM.
    pose proof (zeros_factors (nums M) nb n kl ku pA ld Hb ltac:(lia) ltac:(lia) HZ) as BF.
    destruct (gs_in_spec nb n kl ku A B bA bB pA ld pB ldb HA GB B3 B4 LB' N1 HF NP (nums M) _ BF) as (G1 & G2 & G3). clear BF.
    pose proof (krun_on_cells (gs_in A B bA bB pA ld pB ldb) M) as KC.
    remember (krun (map on_cells (gs_in A B bA bB pA ld pB ldb)) M) as M1' eqn:E1'.
    remember (gb_fill_el (nums M) kl ku pA ld) as A0 eqn:EA0.
    assert (HO : forall i j, j + kl < i \/ i + ku < j -> A0 i j = n0) by (intros i j; rewrite EA0; apply (fill_out nb n)).
    assert (HE : forall i j, tbe A nb n i j -> fst (M1' (gE A bA i j)) = A0 i j).
    { intros i j TB. apply (tbe_tb A nb n kl ku HA) in TB. destruct TB as [T1 T2]. rewrite KC. unfold on_nums. cbn [fst]. apply G1; assumption. }
    assert (FR1 : forall l, ~ In (fst l) [bA; bB] -> M1' l = M l).
    { intros l Hl'. rewrite KC. unfold on_nums. rewrite G3 by assumption. unfold nums. symmetry. apply surjective_pairing. }
    assert (EB1 : forall i j, in_matrix n nrhs i j -> fst (M1' (bB, elem_off B i j)) = ul (nums M) pB ldb i j).
    { intros i j [Hi Hj]. rewrite KC. unfold on_nums. cbn [fst]. apply G2; lia. }
    clear G1 G2 G3 KC E1'.
    apply (main_region bigger A nb n kl ku bA pI ib mpt HA BK Hib Hmpt I1 A0 M1' HE HO M1 EM).
    - intros M2 Mk E2 FR GI. cbn [Z.eqb].
      assert (GI' : ginv bigger nb n kl ku (matf A nb bA M1) (ntl nb n) (matf A nb bA Mk) (pivots M2 pI)).
      { apply (ginv_ext bigger nb n kl ku (matf A nb bA M1) Hb (ntl nb n) (matf A nb bA Mk) (pivots Mk pI)); [unfold ntl; apply Z.div_pos; lia| |assumption].
        intros t _ _. unfold pivots. rewrite E2. reflexivity. }
      destruct (ginv_lu bigger A nb n kl ku bA HA A0 M1' HE HO M1 (matf A nb bA Mk) (pivots M2 pI) EM GI') as [LU LZ]. clear GI.
      assert (HP : legal_pivots (ipiv_rd M2 pI) n).
      { intros t Ht. destruct LU as [L1 _]. specialize (L1 t Ht). unfold pivots in L1. unfold ipiv_rd. lia. }
      assert (AH : forall i j, in_matrix n n i j -> in_tb A (i / nb) (j / nb) -> el (nums M2) bA A i j = matf A nb bA Mk i j).
      { intros i j HM HI. rewrite (matf_in A nb n 0 bA) by (apply (tbe_tb A nb n kl ku HA); auto). unfold el, nums, gE. rewrite E2. reflexivity. }
      assert (EQ : gbsv_solves bA A (ipiv_rd M2 pI) bB B = solves (F := F) nb n kl A B bA bB (ipiv_rd M2 pI) PlasmaNoTrans).
      { rewrite <- (omp_zgbtrs_eq nb n kl ku) by (try assumption; lia). unfold omp_zgbtrs.
        rewrite (gd_n _ _ _ _ _ _ HA), B2. replace (n =? 0) with false by (symmetry; apply Z.eqb_neq; lia).
        replace (nrhs =? 0) with false by (symmetry; apply Z.eqb_neq; lia). reflexivity. }
      rewrite EQ. apply phases_app.
      apply (cells_waits (home_env (gs_env A B bA bB pB ldb)) (gs_functional nb n kl ku A B bA bB pA pB ldb HA GB B3 B4 LB' N1 HF)).
      + apply (solves_good nb n kl ku); assumption.
      + apply (solves_decl nb n kl ku); try assumption; [left; reflexivity|right; left; reflexivity].
      + intros M3 E3.
        destruct (solves_at nb n kl ku A B bA bB (ipiv_rd M2 pI) HA GB B3 B4 B1 HP N1 (matf A nb bA Mk) LZ (proj1 (proj2 (proj2 LU)))
          PlasmaNoTrans (nums M2) (or_introl eq_refl) AH ltac:(lia)) as [X V].
        remember (krun (map it_task (solves nb n kl A B bA bB (ipiv_rd M2 pI) PlasmaNoTrans)) (nums M2)) as N3 eqn:EN3.
        cbn [phases_ensures].
        apply (sv_last nb n kl ku A B bA bB pA ld pB ldb HA GB B3 B4 LB' N1 HF NP LD).
        intros M' O1 O2 O3 O4.
        assert (EP : forall t, pivots M' pI t = pivots M2 pI t).
        { intros t. unfold pivots. rewrite O4, E3. reflexivity. }
        split; [lia|]. split; [|split; [lia|]].
        * intros _. split.
          -- intros i j [Hi Hj]. rewrite <- EB1 by (split; assumption). rewrite <- FR; [|cbn; congruence|intros (t & _ & E); apply (f_equal fst) in E; cbn in E; congruence].
             transitivity (el (nums M2) bB B i j); [|reflexivity]. rewrite <- V by lia. apply (nsum_ext F). intros l Hl'.
             rewrite O2 by lia. unfold op_of. cbn [Z.eqb PlasmaNoTrans].
             change (ntl nb n) with ((n + nb - 1) / nb).
             f_equal.
             ++ symmetry. apply (proj1 (proj2 LU)). split; assumption.
             ++ unfold el, nums. rewrite E3. reflexivity.
          -- exists (matf A nb bA Mk). split; [split; [|exact LZ]|].
             ++ intros i j HM HR. unfold gb_row. change (fst (M' (gU kl ku pA ld i j)) = matf A nb bA Mk i j). rewrite O1 by assumption.
                rewrite <- AH; [|assumption|apply (reads_tb A nb n kl ku HA); assumption]. unfold el, nums at 1. rewrite E3. cbn [fst]. apply X. exact N1.
             ++ apply (ginv_lu bigger A nb n kl ku bA HA A0 M1' HE HO M1 (matf A nb bA Mk) (pivots M' pI) EM).
                apply (ginv_ext bigger nb n kl ku (matf A nb bA M1) Hb (ntl nb n) (matf A nb bA Mk) (pivots M2 pI)); [unfold ntl; apply Z.div_pos; lia| |assumption].
                intros t _ _. symmetry. apply EP.
        * intros l H1 H2 H3. destruct (H2 eq_refl) as [H4 H5]. rewrite O3 by (rewrite ?B1, ?B2; assumption).
          rewrite E3. rewrite X by (cbn in H1; intuition). transitivity (M2 l); [unfold nums; symmetry; apply surjective_pairing|].
          rewrite FR; [apply FR1; assumption|cbn in H1; intuition|apply SEC; assumption].
    - intros M2 st NZ [C1 C2] FR. apply Z.eqb_neq in NZ. rewrite NZ. apply Z.eqb_neq in NZ.
      split; [lia|]. split; [intros E; contradiction|]. split; [auto|]. intros l H1 _ H3.
      rewrite FR; [apply FR1; assumption|cbn in H1; intuition|apply SEC; assumption].
  Qed.
End Gbsv.

Lemma zgbsv_no_rhs : exists nb n kl ku nrhs ldab ldb,
  0 < nb /\ 0 < n /\ 0 <= kl /\ 0 <= ku /\ 0 <= nrhs /\ Z.max 1 (1 + kl + ku) <= ldab /\ Z.max 1 n <= ldb /\
  forall (F : fields) bigger ib mpt pA pI pB bA bB,
    zgbsv (F := F) bigger nb ib mpt n kl ku nrhs pA ldab pI pB ldb bA bB = SReturns 0.
Proof. exists 2, 3, 1, 1, 0, 6, 3. repeat (split; [cbn; reflexivity || lia|]). reflexivity. Qed.

Lemma zgbsv_wide_band : exists nb n kl ku nrhs ldab ldb,
  0 < nb /\ 0 < n /\ 0 <= kl /\ 0 <= ku /\ 0 <= nrhs /\ Z.max 1 (1 + kl + ku) <= ldab /\ Z.max 1 n <= ldb /\
  forall (F : fields) bigger ib mpt pA pI pB bA bB,
    zgbsv (F := F) bigger nb ib mpt n kl ku nrhs pA ldab pI pB ldb bA bB = SReturns PlasmaErrorIllegalValue.
Proof. exists 2, 1, 1, 0, 1, 2, 1. repeat (split; [cbn; reflexivity || lia|]). reflexivity. Qed.
