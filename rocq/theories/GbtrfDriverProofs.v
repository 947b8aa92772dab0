(* plasma_zgbtrf *)
From Coq Require Import ZArith List Bool Lia.
From Verif Require Import Base NumModel NumProofs FieldModel TaskModel TaskSpec TaskProofs DescModel DescSpec DescProofs
  DescPackProofs DescProofs3 DescProofs4 DescDriverModel MatModel MatSpec MatProofs RegionProofs LayoutModel OperandProofs OpProofs GemmModel GemmProofs
  LasetProofs SwpModel SwpSpec SwpProofs GuardModel GuardSpec GuardProofs GuardProofs2 BandModel BandProofs BandLayoutProofs NormSpec NormBandSpec
  NormGbLayoutProofs GetrfModel GetrfSpec GetrfProofs GesvModel GesvLiftProofs GbtrsSpec GbtrfModel GbtrfMathProofs GbtrfTaskProofs
  GbtrfStepProofs GbtrfRunProofs GbtrfLinkProofs GuardAnyProofs GbtrfDiagProofs GbtrfCopyProofs GbtrfDriverModel GbtrfSpec.
Import ListNotations.
Open Scope Z_scope.

Lemma on_cells_korders : forall (F : fields) (ks : list (ktask F)), korders ks -> korders (map on_cells ks).
Proof.
  intros F ks H. induction H as [|k ks H HK IH]; cbn [map]; constructor; [|assumption].
  intros k' Hk' (l & HC). apply in_map_iff in Hk'. destruct Hk' as (x & <- & Hx).
  cbn [on_cells k_deps]. apply (H x Hx). exists l. cbn [on_cells k_reads k_writes] in HC. tauto.
Qed.

Lemma free_korders : forall V (ks : list (ktask V)),
  (forall l1 x l2 y l3, ks = l1 ++ x :: l2 ++ y :: l3 -> ~ kconflict x y) -> korders ks.
Proof.
  intros V ks. induction ks as [|k ks IH]; intros H; constructor.
  - intros k' Hk' HC. exfalso. apply in_split in Hk'. destruct Hk' as (a & c & ->). apply (H [] k a k' c); [reflexivity|assumption].
  - apply IH. intros l1 x l2 y l3 ->. apply (H (k :: l1) x l2 y l3). reflexivity.
Qed.

Section Driver.
  Context {F : fields}.
  Variable bigger : F -> F -> bool.

  Section Tiles.
    Variables (A : desc) (nb n kl ku b : Z) (pI : loc) (ib mpt : Z) (p : loc) (ld : Z).
    Hypothesis HA : gd_ok A nb n n kl ku.
    Hypothesis BK : band_ok A.
    Hypothesis Hib : 0 < ib.
    Hypothesis Hmpt : 0 < mpt.
    Hypothesis Hpi : fst pI <> b.
    Hypothesis HB : fst p <> b.
    Hypothesis LD : Z.max (kl + ku) (nb - 1) + ((kl + nb - 1) / nb + 1) * nb <= ld.
    Let Hb := gd_pos _ _ _ _ _ _ HA.
    Let T := ntl nb n.

    Lemma tbe_tb : forall i j, tbe A nb n i j <-> in_matrix n n i j /\ in_tb A (i / nb) (j / nb).
    Proof.
      intros i j. unfold tbe, in_tb, in_tiles, in_matrix. rewrite (gd_mt _ _ _ _ _ _ HA), (gd_nt _ _ _ _ _ _ HA).
      split; [|intros ((H1 & H2) & _ & H3); repeat split; lia]. intros (H1 & H2 & H3 & H4). split; [auto|]. split; [|lia].
      split; (split; [apply Z.div_pos; lia|]); apply ntl_spec; try lia; try (apply Z.div_pos; lia);
        pose proof (Z.mul_div_le i nb Hb); pose proof (Z.mul_div_le j nb Hb); lia.
    Qed.

    Lemma band_tbe : forall i j, in_matrix n n i j -> - (kl + ku) <= i - j <= kl -> tbe A nb n i j.
    Proof.
      intros i j HM HK. apply tbe_tb. split; [assumption|]. apply (reads_tb A nb n kl ku HA); [assumption|].
      split; [right; lia|]. destruct HM as [Hi Hj]. destruct (div_mod_pos i nb Hb) as [I1 I2]. destruct (div_mod_pos j nb Hb) as [J1 J2].
      change ((kl + nb - 1) / nb) with (ntl nb kl).
      apply (le_ntl A nb n n kl ku HA); [pose proof (gd_kl0 _ _ _ _ _ _ HA); lia|].
      replace ((i / nb - j / nb) * nb) with (i - j - i mod nb + j mod nb)
        by (clear -I1 J1; revert I1 J1; generalize (i / nb), (i mod nb), (j / nb), (j mod nb); intros; nia). lia.
    Qed.

    (* after the copy, whatever else was copied *)
    Section Main.
      Variables (A0 : Z -> Z -> F) (M1 : mem (cell F)).
      Hypothesis HE : forall i j, tbe A nb n i j -> fst (M1 (gE A b i j)) = A0 i j.
      Hypothesis HO : forall i j, j + kl < i \/ i + ku < j -> A0 i j = n0.

      Lemma start_matf : forall i j, in_matrix n n i j -> matf A nb b M1 i j = A0 i j.
      Proof.
        intros i j HM. unfold matf. destruct (tbb A nb i j) eqn:E.
        - apply HE. apply (tbb_tbe A nb n 0 0); try assumption; apply HM.
        - symmetry. apply HO. destruct (Z_lt_le_dec (j + kl) i); [auto|]. destruct (Z_lt_le_dec (i + ku) j); [auto|]. exfalso.
          pose proof (gd_kl0 _ _ _ _ _ _ HA). pose proof (gd_ku0 _ _ _ _ _ _ HA).
          assert (TB : tbe A nb n i j) by (apply band_tbe; [assumption|lia]).
          apply (tbb_tbe A nb n 0 0) in TB; [congruence|apply HM|apply HM].
      Qed.

      (* the codes of the factorization *)
      Definition gb_bad (st : Z) : Prop := 1 <= st <= n /\ (comparison bigger -> column_depends n A0 (st - 1)).

      Lemma main_region : forall Ms, meq Ms M1 -> forall Q : mem (cell F) -> Z -> Prop,
        (forall M2 Mk, meq M2 Mk -> (forall l, fst l <> b -> ~ ipiv_sec pI 0 n l -> M2 l = M1 l) ->
           ginv bigger nb n kl ku (matf A nb b Ms) T (matf A nb b Mk) (pivots Mk pI) -> Q M2 0) ->
        (forall M2 st, st <> 0 -> gb_bad st -> (forall l, fst l <> b -> ~ ipiv_sec pI 0 n l -> M2 l = M1 l) -> Q M2 st) ->
        gregion_ensures (pzgbtrf bigger b A pI ib mpt) Ms Q.
      Proof.
        intros Ms EM Q Q0 Q1. destruct (gbtrf_sound bigger A nb n kl ku b pI ib mpt HA BK Hib Hmpt Hpi) as [KG CS].
        pose proof (gd_kl0 _ _ _ _ _ _ HA) as Hkl. pose proof (gd_ku0 _ _ _ _ _ _ HA) as Hku.
        assert (HBd : forall i j, tbe A nb n i j -> j + kl < i \/ i + ku < j -> fst (Ms (gE A b i j)) = n0).
        { intros i j TB HI. rewrite EM, HE by assumption. apply HO. assumption. }
        pose proof (gbtrf_runs bigger A nb n kl ku b pI ib mpt HA BK Hib Hmpt Ms ltac:(lia) ltac:(lia) HBd) as RUN. cbv zeta in RUN.
        fold T in RUN.
        assert (FR0 : forall M2 : mem (cell F), (forall l, (forall k, In k (pzgbtrf bigger b A pI ib mpt) -> ~ k_writes (ck_task k) l) -> M2 l = Ms l) ->
          forall l, fst l <> b -> ~ ipiv_sec pI 0 n l -> M2 l = M1 l).
        { intros M2 FR l H1 H2. rewrite FR; [apply EM|]. intros k Hk HW.
          destruct (gbtrf_writes bigger A nb n kl ku b pI ib mpt HA BK k l Hk HW) as [(i & j & _ & ->)|S]; [apply H1; reflexivity|contradiction]. }
        destruct (Z.eq_dec (d_kut A) 1) as [K1|K1].
        { (* the panels are independent *)
          assert (K0 : kl = 0 /\ ku = 0).
          { rewrite (gd_kut _ _ _ _ _ _ HA) in K1. destruct (Z_le_gt_dec (kl + ku) 0); [lia|].
            assert (1 <= ntl nb (ku + kl)) by (unfold ntl; apply Z.div_le_lower_bound; lia). lia. }
          destruct K0 as [Kl Ku].
          apply gregion_intro_any; [assumption|assumption|apply (gbtrf_klinked bigger A nb n kl ku b pI ib mpt HA BK Hpi)|].
          intros M2 st E0 EN FR. pose proof (FR0 M2 FR) as FR'. destruct (Z.eq_dec st 0) as [Z0|NZ].
          - destruct (E0 Z0) as [CZ E2]. rewrite (first_code_zero _ CZ) in RUN. rewrite Z0.
            destruct RUN as [[_ GI]|[BR _]]; [|lia].
            apply (Q0 M2 (krun (map ck_task (pzgbtrf bigger b A pI ib mpt)) Ms)); assumption.
          - apply Q1; [assumption| |assumption].
            pose proof HA as HA'. rewrite Kl, Ku in HA'.
            apply (diag_guilty bigger A nb n b pI ib mpt HA' BK Hib Hmpt Hpi K1 A0 Ms); [|intros i j NE; apply HO; lia|assumption|apply EN; assumption].
            intros i j TB. rewrite EM. apply HE. assumption. }
        assert (HK : 1 < d_kut A) by (pose proof (gf_kut1 A BK); lia).
        apply gregion_intro; [assumption|assumption|apply (gbtrf_klinked bigger A nb n kl ku b pI ib mpt HA BK Hpi)|
          apply (gbtrf_fail_chain bigger A nb n kl ku b pI ib mpt HA HK)|].
        intros M2 st ES E0 FR. rewrite gseq_codes in ES. rewrite <- ES in RUN. pose proof (FR0 M2 FR) as FR'.
        destruct RUN as [[E GI]|BD].
        - rewrite E. apply (Q0 M2 (krun (map ck_task (pzgbtrf bigger b A pI ib mpt)) Ms)); [apply E0; assumption|assumption|assumption].
        - destruct BD as [BR BC]. apply Q1; [lia| |assumption]. split; [assumption|]. intros CO. destruct (BC CO) as (x & Hx).
          assert (EA : forall i j, in_matrix n n i j -> matf A nb b Ms i j = A0 i j).
          { intros i j HM. rewrite <- start_matf by assumption. unfold matf. rewrite EM. reflexivity. }
          exists x. intros i Hi. rewrite <- EA by (split; lia). rewrite (Hx i Hi). apply (nsum_ext F). intros j Hj.
          rewrite EA by (split; lia). reflexivity.
      Qed.

      (* the end of the invariant is what is promised *)
      Lemma ginv_lu : forall Ms X ipiv, meq Ms M1 -> ginv bigger nb n kl ku (matf A nb b Ms) T X ipiv ->
        band_lu bigger nb n kl A0 X ipiv /\
        (forall i j, in_matrix n n i j -> kl + ku < j - i \/ (j / nb + 1) * nb + kl <= i -> X i j = n0).
      Proof.
        intros Ms X ipiv EM GI. pose proof (gd_kl0 _ _ _ _ _ _ HA) as Hkl. pose proof (gd_ku0 _ _ _ _ _ _ HA) as Hku.
        pose proof (gf_T_ge A nb n kl ku HA) as TG. fold T in TG.
        pose proof (ginv_factored bigger nb n kl ku (matf A nb b Ms) Hb T X ipiv TG GI) as GF.
        destruct GI as [G1 G2 G3 G4 G5 G6 G7 G8]. split; [split; [|split; [|split]]|].
        - intros t Ht. apply G7; lia.
        - intros i j HM. change ((n + nb - 1) / nb) with T. rewrite GF by apply HM.
          rewrite <- start_matf by assumption. unfold matf. rewrite EM. reflexivity.
        - intros t Ht. apply G5; lia.
        - intros CO i t Ht Hi. rewrite Z.min_id in Ht. unfold factor_L, factor_U. rewrite Z.leb_refl.
          replace (i =? t) with false by (symmetry; apply Z.eqb_neq; lia). replace (t <? i) with true by (symmetry; apply Z.ltb_lt; lia).
          apply (G6 CO); lia.
        - intros i j [Hi Hj] [H|H]; [apply G4; lia|apply G3; lia].
      Qed.
    End Main.

    Section Start.
      Variable M : mem (cell F).
      Hypothesis HZ : gb_zeros (nums M) nb n n kl ku p ld.
      Let A0 := gb_fill_el (nums M) kl ku p ld.
      Let M1 := krun (map on_cells (pzpb2desc p ld b A)) M.

      Lemma start_el : forall i j, tbe A nb n i j -> fst (M1 (gE A b i j)) = A0 i j.
      Proof.
        intros i j TB. apply tbe_tb in TB. destruct TB as [HM HT]. unfold M1. rewrite krun_on_cells. unfold on_nums. cbn [fst].
        change (el (krun (pzpb2desc p ld b A) (nums M)) b A i j = A0 i j).
        apply (gd_copy_spec A nb n n kl ku b p ld HA HB); try assumption; [left; lia| |].
        - intros i' j' HM' HR. unfold A0, gb_fill_el. change (gd_src kl ku p ld (nums M) i' j') with (gb_row (nums M) kl ku p ld i' j').
          destruct ((j' - ku <=? i') && (i' <=? j' + kl)) eqn:E; [reflexivity|]. apply HZ; [assumption|exact HR|].
          apply andb_false_iff in E. rewrite !Z.leb_gt in E. lia.
        - intros i' j' HM' HN. unfold A0, gb_fill_el. destruct ((j' - ku <=? i') && (i' <=? j' + kl)) eqn:E; [|reflexivity].
          exfalso. apply HN. apply andb_true_iff in E. rewrite !Z.leb_le in E. pose proof (gd_kl0 _ _ _ _ _ _ HA). lia.
      Qed.
      Lemma start_frame : forall l, fst l <> b -> M1 l = M l.
      Proof.
        intros l Hl. unfold M1. rewrite krun_on_cells. unfold on_nums.
        rewrite (gd_copy_frame A nb n n kl ku b p ld HA HB) by (try assumption; left; lia). unfold nums. symmetry. apply surjective_pairing.
      Qed.
      Lemma fill_out : forall i j, j + kl < i \/ i + ku < j -> A0 i j = n0.
      Proof.
        intros i j H. unfold A0, gb_fill_el. destruct ((j - ku <=? i) && (i <=? j + kl)) eqn:E; [|reflexivity].
        apply andb_true_iff in E. rewrite !Z.leb_le in E. lia.
      Qed.

      Lemma start_region : forall Q : mem (cell F) -> Prop, (forall M', meq M' M1 -> Q M') ->
        region_ensures (map on_cells (pzpb2desc p ld b A)) M Q.
      Proof.
        intros Q HQ. apply region_intro.
        - apply Forall_map. eapply Forall_impl; [|apply (gd_copy_kgood A nb n n kl ku b p ld HA HB); left; lia].
          intros k. apply on_cells_kgood.
        - apply korders_klinked. apply on_cells_korders.
          apply (kdecl_korders _ (home_env [(b, homeD A (in_tb A))])).
          + apply home_env_functional2. intros b' h h' x a a' [E|[]] [E'|[]] H H'. injection E as _ <-. injection E' as _ <-.
            apply (homeD_functional A (in_tb A) (sq_t nb A _ (gd_sq _ _ _ _ _ _ HA)) x a a'); assumption.
          + apply (gd_copy_kdecl A nb n n kl ku); try assumption; try (left; lia); try (left; reflexivity). cbn. intuition congruence.
        - exact HQ.
      Qed.

      Lemma last_region : forall Ms M2 Mk, meq Ms M1 -> meq M2 Mk ->
        (forall l, fst l <> b -> ~ ipiv_sec pI 0 n l -> M2 l = M1 l) ->
        ginv bigger nb n kl ku (matf A nb b Ms) T (matf A nb b Mk) (pivots Mk pI) ->
        region_ensures (map on_cells (pzdesc2pb b A p ld)) M2 (fun M' =>
          (exists a, band_factors nb n (nums M') kl ku p ld a /\ band_lu bigger nb n kl A0 a (pivots M' pI)) /\
          (forall l, fst l <> b -> ~ in_band_array nb n kl ku p ld l -> ~ ipiv_sec pI 0 n l -> M' l = M l)).
      Proof.
        intros Ms M2 Mk EM E2 FR GI. pose proof (gd_kl0 _ _ _ _ _ _ HA) as Hkl. pose proof (gd_ku0 _ _ _ _ _ _ HA) as Hku.
        apply region_intro.
        - apply Forall_map. eapply Forall_impl; [|apply (gd_out_kgood A nb n kl ku b p ld HA HB LD)]. intros k. apply on_cells_kgood.
        - apply korders_klinked. apply on_cells_korders. apply free_korders. intros l1 x l2 y l3. apply (gd_out_free A nb n kl ku b p ld HA HB LD).
        - intros M' E3.
          assert (EU : forall i j, in_matrix n n i j -> gb_reads nb kl ku i j -> fst (M' (gU kl ku p ld i j)) = matf A nb b Mk i j).
          { intros i j HM HR. rewrite E3, krun_on_cells. unfold on_nums. cbn [fst].
            rewrite (gd_out_spec A nb n kl ku b p ld HA HB LD) by assumption.
            rewrite (matf_in A nb n 0 b) by (apply tbe_tb; split; [assumption|apply (reads_tb A nb n kl ku HA); assumption]).
            unfold el, nums, gE. rewrite E2. reflexivity. }
          assert (ES : forall l, snd (M' l) = snd (Mk l)).
          { intros l. rewrite E3, krun_on_cells. unfold on_nums. cbn [snd]. rewrite E2. reflexivity. }
          assert (GI' : ginv bigger nb n kl ku (matf A nb b Ms) T (matf A nb b Mk) (pivots M' pI)).
          { apply (ginv_ext bigger nb n kl ku (matf A nb b Ms) Hb T (matf A nb b Mk) (pivots Mk pI)); [unfold T, ntl; apply Z.div_pos; lia| |assumption].
            intros t _ _. unfold pivots. symmetry. apply ES. }
          destruct (ginv_lu A0 M1 start_el fill_out Ms (matf A nb b Mk) (pivots M' pI) EM GI') as [LU LZ].
          split.
          + exists (matf A nb b Mk). split; [split; [|exact LZ]|exact LU]. intros i j HM HR. exact (EU i j HM HR).
          + intros l H1 H2 H3. rewrite E3, krun_on_cells. unfold on_nums.
            rewrite (gd_out_frame A nb n kl ku b p ld HA HB LD).
            * unfold nums. rewrite FR by assumption. rewrite start_frame by assumption. symmetry. apply surjective_pairing.
            * intros i j HM HR ->. apply H2. exists i, j. auto.
      Qed.
    End Start.
  End Tiles.

  Lemma zgbtrf_main : forall nb ib mpt n kl ku pA ld pI bA M,
    0 < nb -> 0 < ib -> 0 < mpt -> 0 <= kl < n -> 0 <= ku < n ->
    Z.max (kl + ku) (nb - 1) + ((kl + nb - 1) / nb + 1) * nb <= ld ->
    NoDup [bA; fst pA; fst pI] -> gb_zeros (nums M) nb n n kl ku pA ld ->
    bdriver_ensures (zgbtrf bigger nb ib mpt n n kl ku pA ld pI bA) M (fun M' code =>
      0 <= code <= n /\
      (code = 0 -> exists a, band_factors nb n (nums M') kl ku pA ld a /\
         band_lu bigger nb n kl (gb_fill_el (nums M) kl ku pA ld) a (pivots M' pI)) /\
      (code <> 0 -> comparison bigger -> column_depends n (gb_fill_el (nums M) kl ku pA ld) (code - 1)) /\
      (forall l, fst l <> bA -> (code = 0 -> ~ in_band_array nb n kl ku pA ld l) ->
         (forall t, 0 <= t < n -> l <> (fst pI, snd pI + t)) -> M' l = M l)).
  Proof.
    intros nb ib mpt n kl ku pA ld pI bA M Hb Hib Hmpt Hl Hu LD ND HZ.
    assert (LD1 : 1 + kl + ku <= ld).
    { assert (0 <= (kl + nb - 1) / nb) by (apply Z.div_pos; lia). revert LD H. generalize ((kl + nb - 1) / nb). intros y LD H. nia. }
    unfold zgbtrf.
    replace (n <? 0) with false by (symmetry; apply Z.ltb_ge; lia).
    replace (kl <? 0) with false by (symmetry; apply Z.ltb_ge; lia).
    replace (ku <? 0) with false by (symmetry; apply Z.ltb_ge; lia).
    replace (ld <? Z.max 1 (1 + kl + ku)) with false by (symmetry; apply Z.ltb_ge; lia).
    destruct (gb_create_succeeds nb n n kl ku Hb) as (A & sz & EA); [lia..|]. rewrite EA.
    pose proof (gb_create_gd nb n n kl ku A sz ltac:(lia) ltac:(lia) EA) as HA.
    pose proof (gb_create_ok nb n n kl ku A sz ltac:(lia) ltac:(lia) EA) as [BK _]. clear EA.
    replace (d_m A =? 0) with false by (symmetry; apply Z.eqb_neq; rewrite (gd_m _ _ _ _ _ _ HA); lia).
    replace (d_n A =? 0) with false by (symmetry; apply Z.eqb_neq; rewrite (gd_n _ _ _ _ _ _ HA); lia). cbn [orb bdriver_ensures].
    assert (NDS : fst pI <> bA /\ fst pA <> bA /\ fst pI <> fst pA).
    { inversion_clear ND as [|? ? X1 Y1]. inversion_clear Y1 as [|? ? X2 Y2]. cbn in X1, X2. intuition congruence. }
    destruct NDS as (N1 & N2 & N3).
    assert (SEC : forall l, (forall t, 0 <= t < n -> l <> (fst pI, snd pI + t)) -> ~ ipiv_sec pI 0 n l).
    { intros l H (t & Ht & E). exact (H t Ht E). }
    apply (start_region A nb n kl ku bA pA ld HA N2). intros M1 EM.
    apply (main_region A nb n kl ku bA pI ib mpt HA BK Hib Hmpt N1 (gb_fill_el (nums M) kl ku pA ld)
      (krun (map on_cells (pzpb2desc pA ld bA A)) M) (start_el A nb n kl ku bA pA ld HA N2 M HZ) (fill_out nb n kl ku pA ld M) M1 EM).
    - intros M2 Mk E2 FR GI. cbn [Z.eqb].
      eapply region_mono; [|apply (last_region A nb n kl ku bA pI pA ld HA N2 LD M HZ M1 M2 Mk EM E2 FR GI)].
      intros M' [X1 X2]. split; [lia|]. split; [auto|]. split; [lia|]. intros l H1 H2 H3. apply X2; auto.
    - intros M2 st NZ [B1 B2] FR. apply Z.eqb_neq in NZ. rewrite NZ. apply Z.eqb_neq in NZ.
      split; [lia|]. split; [intros E; contradiction|]. split; [auto|]. intros l H1 _ H3. rewrite FR by auto.
      apply (start_frame A nb n kl ku bA pA ld HA N2). assumption.
  Qed.
End Driver.

(* the leading dimension of test/test_zgbtrf.c is large enough *)
Lemma ld_of_tests : forall nb kl ku ld, 0 < nb -> 0 <= kl -> 0 <= ku -> 0 < kl + ku ->
  ((ku + kl + nb - 1) / nb + (kl + nb - 1) / nb + 1) * nb <= ld ->
  Z.max (kl + ku) (nb - 1) + ((kl + nb - 1) / nb + 1) * nb <= ld.
Proof.
  intros nb kl ku ld Hb Hl Hu Hlu LD0.
  destruct (div_mod_pos (ku + kl + nb - 1) nb Hb) as [U1 U2]. assert (1 <= (ku + kl + nb - 1) / nb) by (apply Z.div_le_lower_bound; lia).
  revert LD0 U1 H. generalize ((ku + kl + nb - 1) / nb), ((kl + nb - 1) / nb). intros x y LD0 U1 H. nia.
Qed.

Lemma zgbtrf_empty : exists nb m n kl ku ldab,
  0 < nb /\ 0 <= m /\ 0 <= n /\ 0 <= kl /\ 0 <= ku /\ Z.max 1 (1 + kl + ku) <= ldab /\ n = 0 /\
  forall (F : fields) bigger ib mpt pA pI bA,
    zgbtrf (F := F) bigger nb ib mpt m n kl ku pA ldab pI bA = BReturns PlasmaErrorIllegalValue.
Proof. exists 2, 0, 0, 0, 0, 1. repeat (split; [cbn; reflexivity || lia|]). reflexivity. Qed.

Lemma zgbtrf_wide_band : exists nb n kl ku ldab,
  0 < nb /\ 0 < n /\ 0 <= kl /\ 0 <= ku /\ Z.max 1 (1 + kl + ku) <= ldab /\
  forall (F : fields) bigger ib mpt pA pI bA,
    zgbtrf (F := F) bigger nb ib mpt n n kl ku pA ldab pI bA = BReturns PlasmaErrorIllegalValue.
Proof. exists 2, 1, 1, 0, 2. repeat (split; [cbn; reflexivity || lia|]). reflexivity. Qed.
