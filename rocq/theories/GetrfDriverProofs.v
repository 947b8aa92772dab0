(* plasma_zgetrf: the translation to tiles, the factorization and the translation back, as
   far as the dependencies order the translation and the factorization. *)
From Coq Require Import ZArith List Bool Lia.
From Verif Require Import Base NumModel NumProofs FieldModel TaskModel TaskSpec TaskProofs DescModel DescSpec DescProofs DescProofs3 DescProofs4
  DescDriverModel MatModel MatSpec MatProofs RegionProofs LayoutModel LayoutProofs LayoutProofs2 OpProofs OperandProofs GemmProofs
  SwpModel SwpSpec SwpProofs GuardModel GuardSpec GuardProofs GuardProofs2 DriverModel
  GroupProofs PanelProofs PotrfDriverProofs SwpDriverProofs GetrfModel GetrfSpec GetrfProofs GetrfLinkProofs GetrfRegionProofs.
Import ListNotations.
Open Scope Z_scope.

Lemma lu_outcome_ext : forall (F : fields) (bigger : F -> F -> bool) m n (A A' X X' : Z -> Z -> F) ipiv ipiv' st,
  0 <= m -> 0 <= n ->
  (forall i j, in_matrix m n i j -> A' i j = A i j) ->
  (st = 0 -> forall i j, in_matrix m n i j -> X' i j = X i j) ->
  (forall t, 0 <= t < Z.min m n -> ipiv' t = ipiv t) ->
  lu_outcome bigger m n A X ipiv st -> lu_outcome bigger m n A' X' ipiv' st.
Proof.
  intros F bigger m n A A' X X' ipiv ipiv' st Hm Hn HA HX HI (R & S & D). split; [assumption|]. split.
  - intros E. specialize (HX E). destruct (S E) as ((P1 & P2) & U & W).
    assert (EL : forall i l, 0 <= i < m -> 0 <= l < Z.min m n -> factor_L X' i l = factor_L X i l).
    { intros i l Hi Hl. unfold factor_L. destruct (i =? l); [reflexivity|]. destruct (l <? i); [|reflexivity].
      apply HX. split; lia. }
    assert (EU : forall l j, 0 <= l < Z.min m n -> 0 <= j < n -> factor_U X' l j = factor_U X l j).
    { intros l j Hl Hj. unfold factor_U. destruct (l <=? j); [|reflexivity]. apply HX. split; lia. }
    assert (EI : interchanges ipiv' (Z.to_nat (Z.min m n)) = interchanges ipiv (Z.to_nat (Z.min m n))).
    { rewrite !interchanges_z by lia. apply map_ext_in. intros t Ht. apply in_zrange in Ht. rewrite HI by assumption. reflexivity. }
    split; [split|split].
    + intros t Ht. rewrite HI by assumption. apply P1. assumption.
    + intros i j [Hi Hj]. rewrite EI. rewrite HA.
      * rewrite P2 by (split; assumption). apply nsum_ext. intros l Hl. rewrite EL, EU by lia. reflexivity.
      * split; [|assumption]. apply source_range; [|assumption]. rewrite interchanges_z by lia. unfold swaps_in.
        apply Forall_forall. intros p Hp. apply in_map_iff in Hp. destruct Hp as (t & <- & Ht). apply in_zrange in Ht.
        specialize (P1 t Ht). cbn [fst snd]. lia.
    + intros t Ht. rewrite EU by lia. apply U. assumption.
    + intros C i t Ht Hi. rewrite EL, EU by lia. apply W; assumption.
  - intros N C. destruct (D N C) as (x & Hx). exists x. intros i Hi. rewrite HA by (split; lia). rewrite (Hx i Hi).
    apply nsum_ext. intros j Hj. rewrite HA by (split; lia). reflexivity.
Qed.

Section Translated.
  Context {F : fields}.
  Variable bigger : F -> F -> bool.
  Variables (nb b : Z) (A : desc) (pI : loc) (ib mpt : Z).
  Hypothesis G : gen_ok A.
  Hypothesis HD : dn nb A.
  Hypothesis Emb : d_mb A = nb.
  Hypothesis Enb : d_nb A = nb.
  Hypothesis Hm : 0 < d_m A.
  Hypothesis Hn : 0 < d_n A.
  Hypothesis Hib : 0 < ib.
  Hypothesis Hmpt : 0 < mpt.
  Hypothesis Hpi : fst pI <> b.
  Variables (pA : loc) (lda : Z).
  Hypothesis HpA : fst pA <> b.
  Hypothesis HpI : fst pI <> fst pA.

  Let m := d_m A.
  Let n := d_n A.
  Let T := Z.min (d_mt A) (d_nt A).
  Let HT := sq_t nb A (in_tiles A) HD.
  Let ins : list (ktask (cell F)) := copy_in_all A b pA lda (idx_all A).
  Let KS := map ck_task (pzgetrf bigger b A pI ib mpt).

  Notation ptask k := (ck_task (panel_task bigger b A pI ib mpt k)).
  Notation utask k c := (@update_task F b A pI k c).

  Lemma in_ins : forall x, In x ins -> exists r c, 0 <= r < d_mt A /\ 0 <= c < d_nt A /\
    In (dep_out (tptr b A r c)) (k_deps x) /\
    (forall l, k_writes x l -> incol nb b A l c) /\ (forall l, k_reads x l -> fst l = fst pA).
  Proof.
    intros x Hx. apply in_flat_map in Hx. destruct Hx as ([r c] & Hrc & [<-|[]]). apply idx_all_in in Hrc. cbn [fst snd].
    rewrite (copy_in_eq A (in_tiles A) b pA lda HT r c Hrc). destruct Hrc as [Hr Hc].
    exists r, c. split; [assumption|]. split; [assumption|]. split; [right; left; reflexivity|]. split.
    - intros l (i & j & Hi & Hj & _ & E). apply (incol_col nb b A G Emb Enb Hm Hn 0 c); try lia.
      exists r. split; [lia|]. exists i, j. auto.
    - intros l Hl. apply reg_block in Hl. exact Hl.
  Qed.

  Lemma ins_klinked : klinked ins.
  Proof.
    apply korders_klinked. apply (kdecl_korders _ (home_env [(b, homeD A (in_tiles A))])).
    - apply home_env_functional2. intros b' h h' x a a' [E|[]] [E'|[]] H H'. injection E as _ <-. injection E' as _ <-.
      apply (homeD_functional A (in_tiles A) HT x a a'); assumption.
    - eapply copy_in_kdecl; [exact HT|left; reflexivity|apply idx_all_in|]. left. intros l Hl.
      apply in_user_block in Hl. apply no_home_block. cbn. intros [E|[]]. congruence.
  Qed.

  (* the first task of the factorization that touches tile column c *)
  Definition first_on (c : Z) : ktask (cell F) := if c =? 0 then ptask 0 else utask 0 c.
  Definition before (c : Z) : list (ktask (cell F)) :=
    if c =? 0 then fakes b A 0 else fakes b A 0 ++ ptask 0 :: map (fun n => utask 0 n) (zrange 1 c).

  Lemma T_pos : 0 < T.
  Proof. unfold T. pose proof (mt_pos nb A G Emb Hm Hn). pose proof (nt_pos nb A G Emb Enb Hm Hn). lia. Qed.

  Lemma KS_split : forall c, 0 <= c < d_nt A -> exists g, KS = before c ++ first_on c :: g.
  Proof.
    intros c Hc. unfold KS. rewrite (pzgetrf_tasks (F := F)). unfold partF. fold T. rewrite (zrange_cons 0 T) by apply T_pos.
    cbn [flat_map]. rewrite <- !app_assoc. unfold before, first_on. destruct (Z.eqb_spec c 0) as [->|N].
    - cbn [app]. eexists. reflexivity.
    - cbn [app]. unfold updates. rewrite (zrange_app (0 + 1) c (d_nt A)) by lia. rewrite (zrange_cons c) by lia.
      rewrite map_app. cbn [map].
      rewrite <- !app_assoc. cbn [app]. eexists. rewrite <- app_assoc. cbn [app]. reflexivity.
  Qed.

  Lemma before_other : forall c y l, 0 <= c < d_nt A -> In y (before c) -> k_reads y l \/ k_writes y l -> ~ incol nb b A l c.
  Proof.
    intros c y l Hc Hy Hl HI. unfold before in Hy.
    assert (FK : forall y, In y (fakes (F := F) b A 0) -> ~ (k_reads y l \/ k_writes y l)).
    { intros z Hz. apply in_map_iff in Hz. destruct Hz as (x & <- & _). cbn. tauto. }
    assert (SEC : forall lo hi, ipiv_sec pI lo hi l -> False).
    { intros lo hi (t & _ & E). apply incol_block in HI. rewrite E in HI. cbn in HI. contradiction. }
    pose proof (T_pos) as TP. unfold T in TP.
    assert (COL : forall x, col_from b A 0 x l -> 0 <= x < d_nt A -> x = c).
    { intros x H1 Hx. apply (incol_fun nb b A G Emb Enb Hn l); [|assumption]. apply (incol_col nb b A G Emb Enb Hm Hn 0 x); auto; lia. }
    destruct (Z.eqb_spec c 0) as [->|N]; [exact (FK y Hy Hl)|].
    apply in_app_or in Hy. destruct Hy as [Hy|[<-|Hy]]; [exact (FK y Hy Hl)| |].
    - assert (Hl' : col_from b A 0 0 l).
      { destruct Hl as [[Hl|Hl]|[Hl|Hl]]; try assumption; exfalso; apply (SEC _ _ Hl). }
      apply COL in Hl'; lia.
    - apply in_map_iff in Hy. destruct Hy as (x & <- & Hx). apply in_zrange in Hx.
      assert (Hl' : col_from b A 0 0 l \/ col_from b A 0 x l).
      { destruct Hl as [[Hl|[Hl|Hl]]|Hl]; auto; exfalso; apply (SEC _ _ Hl). }
      destruct Hl' as [Hl'|Hl']; apply COL in Hl'; lia.
  Qed.

  Lemma first_dep : forall c, 0 <= c < d_nt A -> In (dep_inout (tptr b A (d_mt A - 1) c)) (k_deps (first_on c)).
  Proof.
    intros c Hc. unfold first_on. destruct (Z.eqb_spec c 0) as [->|N].
    - right. left. reflexivity.
    - do 5 right. left. reflexivity.
  Qed.

  (* tile (r,c) is translated before the first task that touches tile column c *)
  Lemma into_first : forall r c x l2, 0 <= r < d_mt A -> 0 <= c < d_nt A -> d_mt A <= 3 \/ d_nt A <= 1 ->
    In (dep_out (tptr b A r c)) (k_deps x) -> linked x (l2 ++ before c) (first_on c).
  Proof.
    intros r c x l2 Hr Hc HS Hx. unfold before, first_on. destruct (Z.eqb_spec c 0) as [->|N].
    - destruct (Z.eq_dec r 0) as [->|N0]; [|destruct (Z.eq_dec r (d_mt A - 1)) as [->|N1]].
      + apply ln_direct. apply (deps_by _ _ (dep_out (tptr b A 0 0)) (dep_inout (tptr b A 0 0)));
          [assumption|left; reflexivity|reflexivity|left; discriminate].
      + apply ln_direct. apply (deps_by _ _ (dep_out (tptr b A (d_mt A - 1) 0)) (dep_inout (tptr b A (d_mt A - 1) 0)));
          [assumption|right; left; reflexivity|reflexivity|left; discriminate].
      + unfold fakes. rewrite (zrange_app (0 + 1) r (d_mt A - 1)) by lia. rewrite (zrange_cons r) by lia. rewrite map_app. cbn [map].
        rewrite app_assoc. apply linked_via.
        * apply (deps_by _ _ (dep_out (tptr b A r 0)) (dep_in (tptr b A r 0))); [assumption|left; reflexivity|reflexivity|left; discriminate].
        * apply (deps_by _ _ (dep_inout (tptr b A 0 0)) (dep_inout (tptr b A 0 0)));
            [right; left; reflexivity|left; reflexivity|reflexivity|left; discriminate].
    - apply ln_direct. assert (R : r = 0 \/ r = 0 + 1 \/ r = d_mt A - 1) by lia. destruct R as [->|[->| ->]].
      + apply (deps_by _ _ (dep_out (tptr b A 0 c)) (dep_inout (tptr b A 0 c)));
          [assumption|do 3 right; left; reflexivity|reflexivity|left; discriminate].
      + apply (deps_by _ _ (dep_out (tptr b A (0 + 1) c)) (dep_inout (tptr b A (0 + 1) c)));
          [assumption|do 4 right; left; reflexivity|reflexivity|left; discriminate].
      + apply (deps_by _ _ (dep_out (tptr b A (d_mt A - 1) c)) (dep_inout (tptr b A (d_mt A - 1) c)));
          [assumption|do 5 right; left; reflexivity|reflexivity|left; discriminate].
  Qed.

  Lemma KS_cdecl : forall y, In y KS -> cdecl nb b A y.
  Proof.
    intros y Hy. unfold KS in Hy. rewrite (pzgetrf_tasks (F := F)) in Hy.
    apply in_app_or in Hy. destruct Hy as [Hy|Hy]; [|apply in_app_or in Hy; destruct Hy as [Hy|Hy]].
    - apply (partF_cdecl bigger nb b A pI ib mpt G Emb Enb Hm Hn Hpi y Hy).
    - apply idle_cdecl. pose proof (gathers_idle (F := F) A pI) as GI. rewrite Forall_forall in GI. apply GI. assumption.
    - apply (partL_cdecl nb b A pI G Emb Enb Hm Hn Hpi y Hy).
  Qed.

  Lemma KS_writes_user : forall y l, In y KS -> k_writes y l -> fst l <> fst pA.
  Proof.
    intros y l Hy HW. unfold KS in Hy. apply in_map_iff in Hy. destruct Hy as (k & <- & Hk).
    destruct (pzgetrf_writes bigger nb b A pI ib mpt G Emb Enb Hm Hn k l Hk HW) as [(i & j & _ & ->)|(t & _ & ->)]; cbn; congruence.
  Qed.

  Lemma all_klinked : d_mt A <= 3 \/ d_nt A <= 1 -> klinked (ins ++ KS).
  Proof.
    intros HS. apply klinked_app.
    - apply ins_klinked.
    - apply (pzgetrf_klinked bigger nb b A pI ib mpt G Emb Enb Hm Hn Hpi).
    - intros l1 x l2 m1 y m2 EX EY (l & HC).
      assert (IX : In x ins) by (rewrite EX; apply in_elt). assert (IY : In y KS) by (rewrite EY; apply in_elt).
      destruct (in_ins x IX) as (r & c & Hr & Hc & DX & WX & RX).
      assert (HW : k_writes x l /\ (k_reads y l \/ k_writes y l)).
      { destruct HC as [HC|[HC1 HC2]]; [assumption|]. exfalso. apply (KS_writes_user y l IY HC2). apply RX. assumption. }
      clear HC. destruct HW as [HW HY]. pose proof (WX l HW) as IC.
      destruct (KS_split c Hc) as (g & EK). rewrite EY in EK.
      pose proof (into_first r c x l2 Hr Hc HS DX) as FI.
      destruct (app_mid _ _ _ _ _ _ (eq_sym EK)) as [(h & E1 & E2)|(h & E1 & E2)].
      + exfalso. apply (before_other c y l Hc); try assumption. rewrite E1. apply in_elt.
      + destruct h as [|z h].
        * injection E1 as E1 _. rewrite app_nil_r in E2. rewrite E2, <- E1. exact FI.
        * injection E1 as E1 E3. rewrite E2. rewrite app_assoc. subst z.
          apply (ln_trans _ (l2 ++ before c) (first_on c) h); [exact FI|]. apply ln_direct.
          destruct (KS_cdecl y IY) as [Y1 Y2].
          assert (DY : exists d, In d (k_deps y) /\ dep_addr d = tptr b A (d_mt A - 1) c).
          { destruct HY as [HY|HY].
            - destruct (Y1 l HY (incol_block nb b A l c IC)) as (c' & I' & d & D1 & D2).
              rewrite (incol_fun nb b A G Emb Enb Hn l c c' IC I'). eauto.
            - destruct (Y2 l HY (incol_block nb b A l c IC)) as (c' & I' & d & D1 & D2 & _).
              rewrite (incol_fun nb b A G Emb Enb Hn l c c' IC I'). eauto. }
          destruct DY as (d & D1 & D2). apply (deps_by _ _ (dep_inout (tptr b A (d_mt A - 1) c)) d);
            [apply first_dep; assumption|assumption|symmetry; assumption|left; discriminate].
  Qed.

  Lemma first_region : d_mt A <= 3 \/ d_nt A <= 1 -> forall M,
    gregion_ensures (map sure ins ++ pzgetrf bigger b A pI ib mpt) M (fun M' st =>
      lu_outcome bigger m n (lul M pA lda) (lel M' b A) (pivots M' pI) st /\
      (forall l, fst l <> b -> (forall t, 0 <= t < Z.min m n -> l <> (fst pI, snd pI + t)) -> M' l = M l)).
  Proof.
    intros HS M. destruct (pzgetrf_sound bigger nb b A pI ib mpt G Emb Enb Hm Hn Hib Hmpt Hpi) as [K1 K2].
    apply gregion_intro.
    - rewrite map_app, map_sure. apply Forall_app. split; [|assumption].
      apply (copy_in_kgood A (in_tiles A) b pA lda HT). apply idx_all_in.
    - apply Forall_app. split; [|assumption]. apply cksound_sure.
    - rewrite map_app, map_sure. apply all_klinked. assumption.
    - apply (ch_fail_chain _ None). apply ch_sure_none. rewrite <- (app_nil_r (pzgetrf bigger b A pI ib mpt)).
      apply pzgetrf_ch. intros [[a l]|]; exact I.
    - intros M' st0 E HM HF. rewrite gseq_codes, kcodes_app, first_code_app in E.
      rewrite kcodes_sure in E. rewrite map_app, map_sure, krun_app in HM. rewrite map_sure in E. cbn [Z.eqb] in E.
      set (M3 := krun ins M) in *. split.
      + assert (HM' : st0 = 0 -> meq M' (krun (map ck_task (pzgetrf bigger b A pI ib mpt)) M3)) by exact HM.
        subst st0. pose proof (outcome bigger nb b A pI ib mpt G Emb Enb Hm Hn Hib Hmpt M3 M' HM') as O.
        fold m n in O.
        assert (EL : forall i j, in_matrix m n i j -> lel M3 b A i j = lul M pA lda i j).
        { intros i j [Hi Hj]. unfold lel, lul. f_equal. unfold M3, ins.
          apply (copy_in_spec A (in_tiles A) b pA lda HT (idx_all A)); auto.
          - apply idx_all_in.
          - apply idx_all_NoDup.
          - apply in_tiles_pos; auto. apply (td_shape _ _ HT). }
        apply (lu_outcome_ext F bigger m n (lel M3 b A) _ (lel M' b A) _ (pivots M' pI)); auto; try (unfold m, n; lia).
        intros i j Hij. symmetry. apply EL. assumption.
      + intros l H1 H2. apply HF. intros k Hk HW. apply in_app_or in Hk. destruct Hk as [Hk|Hk].
        * apply in_map_iff in Hk. destruct Hk as (x & <- & Hx). destruct (in_ins x Hx) as (r & c & _ & _ & _ & WX & _).
          apply H1. apply (incol_block nb b A l c). apply WX. exact HW.
        * destruct (pzgetrf_writes bigger nb b A pI ib mpt G Emb Enb Hm Hn k l Hk HW) as [(i & j & _ & ->)|(t & Ht & ->)].
          -- apply H1. reflexivity.
          -- apply (H2 t Ht). reflexivity.
  Qed.
End Translated.

Lemma few_tiles : forall nb A, dn nb A -> 0 < d_m A -> 0 < d_n A -> d_m A <= 3 * nb \/ d_n A <= nb ->
  d_mt A <= 3 \/ d_nt A <= 1.
Proof.
  intros nb A HD Hm Hn HS. pose proof (proj2 (dn_in nb A 0 0 HD) ltac:(lia)) as [H1 H2].
  destruct (Z_le_gt_dec (d_mt A) 3) as [|G1]; [auto|]. destruct (Z_le_gt_dec (d_nt A) 1) as [|G2]; [auto|]. exfalso.
  pose proof (proj1 (dn_in nb A 3 1 HD) ltac:(split; lia)). lia.
Qed.

(* plasma_zgetrf, for matrices of at most three tile rows or a single tile column *)
Lemma zgetrf_driver : forall (F : fields) (bigger : F -> F -> bool) nb ib mpt m n pA lda pI b,
  0 < nb -> 0 < ib -> 0 < mpt -> 0 <= m -> 0 <= n -> Z.max 1 m <= lda ->
  fst pA <> b -> fst pI <> b -> fst pI <> fst pA ->
  m <= 3 * nb \/ n <= nb ->
  forall M, rdriver_ensures (zgetrf bigger nb ib mpt m n pA lda pI b) M
    (getrf_result bigger m n pA lda pI b M).
Proof.
  intros F bigger nb ib mpt m n pA lda pI b Hnb Hib Hmpt Hm Hn Hlda HpA Hpi HpI HS M. unfold zgetrf.
  destruct (Z.ltb_spec m 0); [lia|]. destruct (Z.ltb_spec n 0); [lia|].
  destruct (Z.ltb_spec lda (Z.max 1 m)); [lia|].
  destruct (Z.eqb_spec (Z.min m n) 0) as [E|E].
  { cbn [rdriver_ensures]. exists 0. split; [reflexivity|]. split; [|auto].
    unfold lu_outcome, factored, U_regular, well_pivoted. rewrite E. split; [lia|]. split; [|intros H'; contradiction].
    intros _. split; [|split; intros; lia]. split; [intros; lia|]. intros i j [Hi Hj]. lia. }
  destruct (ge_create_succeeds nb m n Hnb Hm Hn) as (A & EA & _). rewrite EA. cbn [with_rdesc rdriver_ensures].
  destruct (ge_create_gen _ _ _ _ _ EA) as (G & E1 & E2 & E3 & E4).
  destruct (ge_create_dn _ _ _ _ _ EA) as (HD & _). clear EA.
  assert (HS' : d_mt A <= 3 \/ d_nt A <= 1) by (apply (few_tiles nb A HD); lia).
  assert (HT := sq_t nb A (in_tiles A) HD).
  unfold omp_async_zgetrf. rewrite E3, E4. destruct (Z.eqb_spec m 0); [lia|]. destruct (Z.eqb_spec n 0); [lia|]. cbn [orb].
  rewrite pzge2desc_eq. eapply gregion_mono; [|apply (first_region bigger nb b A pI ib mpt G HD E1 E2) with (pA := pA) (lda := lda); auto; lia].
  rewrite E3, E4. intros M1 st (O & FR). destruct (Z.eqb_spec st 0) as [->|NS].
  - rewrite pzdesc2ge_eq. eapply region_mono; [|eapply (copy_out_ensures A (in_tiles A)); eauto].
    + rewrite E3, E4. intros M' (U & FU). exists 0. split; [reflexivity|].
      assert (UI : forall l, fst l <> fst pA -> M' l = M1 l).
      { intros l Hl. apply FU. intros i j _ _ _ ->. apply Hl. reflexivity. }
      split.
      * apply (lu_outcome_ext F bigger m n (lul M pA lda) _ (lel M1 b A) _ (pivots M1 pI)); auto.
        -- intros _ i j [Hi Hj]. unfold lul, lel. rewrite U; auto. apply in_tiles_pos; [apply (td_shape _ _ HT)|lia|lia].
        -- intros t _. unfold pivots. rewrite UI; auto.
      * intros l Hl HU HP. rewrite FU; [apply FR; assumption|]. intros i j Hi Hj _ EL. apply (HU eq_refl).
        exists i, j. auto.
    + apply idx_all_in.
    + apply idx_all_NoDup.
    + lia.
  - exists st. destruct (Z.eqb_spec st 0); [contradiction|]. split; [reflexivity|]. split.
    + apply (lu_outcome_ext F bigger m n (lul M pA lda) _ (lel M1 b A) _ (pivots M1 pI)); auto. intros; contradiction.
    + intros l Hl _ HP. apply FR; assumption.
Qed.
