(* What plasma_zpbsv leaves behind when the matrix is not positive definite. *)
From Coq Require Import ZArith List Bool Lia Ring.
From Verif Require Import Base NumModel NumProofs FieldModel TaskModel TaskSpec TaskProofs DescModel DescSpec
  DescDriverModel DescProofs DescPackProofs DescProofs3 DescProofs4 MatModel MatSpec MatProofs RegionProofs
  GuardModel GuardSpec GuardProofs GuardProofs2 GuardAnyProofs GuardTraceProofs
  LayoutModel LayoutProofs LayoutProofs2 DriverModel DriverSpec OpProofs SimProofs OperandProofs GOperandProofs GAnyProofs GTraceProofs
  GemmModel GemmProofs GemmDriverProofs RankModel RankProofs RankDriverProofs LasetModel LasetProofs
  TriModel TriSpec TriVecProofs TriProofs TrmmProofs TrmmDriverProofs TrsmProofs TrsmDriverProofs PanelProofs
  PotrfModel PotrfSpec CholProofs HpdProofs PotrfDriverProofs InvDriverProofs2 InvDriverProofs3
  BandModel BandSpec BandProofs BandLayoutProofs BandRegionProofs PbtrfProofs PbtrfDriverProofs PbtrfMainProofs
  PbtrsModel PbtrsProofs PbtrsDriverProofs PbsvProofs EwModel EwProofs EwDriverProofs FailLinkProofs GesvLiftProofs PosvFailProofs.
Import ListNotations.
Open Scope Z_scope.

Section Regions.
  Context {F : numbers}.
  Variables (A : desc) (uplo nb n kd : Z).
  Hypothesis HP : pb_ok A uplo nb n kd.
  Variable B : desc.
  Hypothesis HB : dn nb B.
  Variables (bA : Z) (pA : loc) (ld bB : Z) (pB : loc) (ldb : Z).
  Hypothesis HL : kd < ld.
  Hypothesis LB : d_m B <= ldb.
  Hypothesis NB : bA <> bB.
  Hypothesis HF : forall b, In b [fst pA; fst pB] -> ~ In b [bA; bB].
  Hypothesis AP : forall l, in_user_band uplo kd pA ld n l -> ~ in_user pB ldb (d_m B) (d_n B) l.

  Lemma bb_gregion_trace : forall comp : list (cktask F),
    Forall kgood (map ck_task comp) -> Forall cksound comp ->
    (forall env, In (bA, homeD A (in_tb A)) env -> In (bB, homeD B (in_tiles B)) env ->
       Forall (kdecl (home_env env)) (map ck_task comp)) ->
    (forall k l, In k comp -> k_writes (ck_task k) l -> In (fst l) [bA; bB]) ->
    forall M, gregion_ensures (map sure (bb_in A B bA pA ld bB pB ldb) ++ comp ++ map sure (pzdesc2pb bA A pA ld ++ pzdesc2ge bB B pB ldb)) M
      (fun M' st =>
        (st <> 0 -> guilty comp (krun (bb_in A B bA pA ld bB pB ldb) M) st) /\
        (forall i j, 0 <= i < d_m B -> 0 <= j < d_n B ->
           ul M' pB ldb i j = ul M pB ldb i j \/
           exists qs, forall a x b, comp = a ++ x :: b ->
             linked (ck_task x) (map ck_task b ++ qs) (copy_out bB B pB ldb (i / nb) (j / nb)) ->
             ck_info x (krun (map ck_task a) (krun (bb_in A B bA pA ld bB pB ldb) M)) = 0) /\
        (forall l, ~ In (fst l) [bA; bB] -> ~ in_user_band uplo kd pA ld n l -> ~ in_user pB ldb (d_m B) (d_n B) l ->
           M' l = M l)).
  Proof.
    intros comp CG CS CD CW M.
    assert (OB : ook nb (ge_opnd bB B pB ldb)) by (apply ge_opnd_ok; assumption).
    assert (FA1 : fst pA <> bA) by (intros E; apply (HF (fst pA)); cbn; auto).
    apply gregion_intro_trace.
    - rewrite !map_app, !map_sure, !Forall_app. split; [apply (bb_in_kgood A uplo nb n kd); assumption|]. split; [assumption|].
      split; [apply (pzdesc2pb_kgood A uplo nb n kd HP); assumption|apply (ge_out_kgood nb); assumption].
    - rewrite !Forall_app. split; [apply cksound_sure|]. split; [assumption|apply cksound_sure].
    - rewrite !map_app, !map_sure. apply korders_klinked.
      apply (kdecl_korders F (home_env (bb_env A uplo nb n kd B bA pA ld bB pB ldb))); [apply bb_functional; assumption|].
      rewrite !Forall_app. split; [apply (bb_in_kdecl A uplo nb n kd); assumption|]. split; [apply CD; [left; reflexivity|right; left; reflexivity]|].
      split; [|apply (ge_out_kdecl A uplo nb n kd); assumption].
      apply (pzdesc2pb_kdecl A uplo nb n kd HP); [left; reflexivity|right; right; left; reflexivity].
    - intros M' st E0 EN HFR HLA. split; [|split].
      + intros NZ. eapply guilty_inner; eauto.
      + intros i j Hi Hj. clear E0 EN HFR.
        remember (fst pB, snd pB + i + j * ldb) as l eqn:El.
        assert (IU : in_user pB ldb (d_m B) (d_n B) l) by (exists i, j; auto).
        assert (NI : forall k, In k (map sure (bb_in (F := F) A B bA pA ld bB pB ldb)) -> ~ k_writes (ck_task k) l).
        { intros k Hk W. apply in_map_iff in Hk. destruct Hk as (x & <- & Hx).
          apply (HF (fst pB)); [right; left; reflexivity|]. replace (fst pB) with (fst l) by (rewrite El; reflexivity).
          eapply (bb_in_writes A uplo nb n kd); eauto. }
        assert (NC : forall k, In k comp -> ~ k_writes (ck_task k) l).
        { intros k Hk W. apply (HF (fst pB)); [right; left; reflexivity|]. replace (fst pB) with (fst l) by (rewrite El; reflexivity).
          eapply CW; eauto. }
        assert (NP : forall k : ktask F, In k (pzdesc2pb bA A pA ld) -> ~ k_writes k l).
        { intros k Hk W. apply (AP l); [|assumption]. eapply (pzdesc2pb_writes A uplo nb n kd HP); eauto. }
        destruct (HLA l) as [H|(l1 & k & l2 & E & W & HV & HZ)].
        * intros k Hk. rewrite !in_app_iff in Hk. destruct Hk as [Hk|[Hk|Hk]]; [right; auto|right; auto|].
          apply in_map_iff in Hk. destruct Hk as (x & <- & Hx). cbn. apply in_app_or in Hx. destruct Hx as [Hx|Hx]; [right; auto|].
          rewrite <- ge_opnd_out in Hx. apply in_flat_map in Hx. destruct Hx as ([m n'] & Hmn & [<-|[]]). cbn [fst snd].
          destruct OB as [Q1 Q2 Q3 Q4]. apply Q2 in Hmn.
          rewrite (copy_out_eq (V := F) B (in_tiles B) bB pB ldb) by (auto; apply (sq_t nb); assumption).
          apply omp_zlacpy_kdecw. apply (tile_m_le_lda B (in_tiles B) ldb (sq_t nb _ _ Q1) Q4 m n' Hmn).
        * left. unfold ul. rewrite <- El. assumption.
        * right. rewrite map_app in E. rewrite (app_assoc _ comp) in E.
          destruct (app3_cons _ _ _ _ _ _ _ E) as (s & -> & E2).
          { intros Z. apply in_app_or in Z. destruct Z as [Z|Z]; [apply (NI k)|apply (NC k)]; auto. }
          { intros Z. apply in_map_iff in Z. destruct Z as (y & <- & Hy). apply (NP y); auto. }
          apply map_eq_app in E2. destruct E2 as (qs & rs & E2 & <- & E3). destruct rs as [|c rs]; [discriminate E3|].
          cbn in E3. injection E3 as <- _. cbn [ck_task sure] in *.
          assert (Hc : In c (o_out (ge_opnd bB B pB ldb))).
          { rewrite ge_opnd_out, E2. apply in_or_app; right; left; reflexivity. }
          rewrite El in W.
          destruct (o_out_task F nb (ge_opnd bB B pB ldb) c i j OB (ge_opnd_el nb bB B pB ldb i j HB Hi Hj) Hc W) as [Ec _].
          cbn in Ec. rewrite (sq_mb nb _ _ HB), (sq_nb nb _ _ HB) in Ec.
          exists (pzdesc2pb bA A pA ld ++ qs). rewrite <- Ec. intros a x b Eab HLk. subst comp.
          specialize (HZ (map sure (bb_in A B bA pA ld bB pB ldb) ++ a) x (b ++ map sure (pzdesc2pb bA A pA ld ++ qs))).
          rewrite !map_app, !map_sure, krun_app in HZ. apply HZ; [|assumption].
          rewrite <- !app_assoc. cbn [app]. reflexivity.
      + intros l H1 H2 H3. apply HFR. intros k Hk W. rewrite !in_app_iff in Hk. destruct Hk as [Hk|[Hk|Hk]].
        * apply in_map_iff in Hk. destruct Hk as (x & <- & Hx). apply H1. eapply (bb_in_writes A uplo nb n kd); eauto.
        * apply H1. eapply CW; eauto.
        * apply in_map_iff in Hk. destruct Hk as (x & <- & Hx). apply in_app_or in Hx. destruct Hx as [Hx|Hx].
          -- apply H2. eapply (pzdesc2pb_writes A uplo nb n kd HP); eauto.
          -- apply H3. rewrite <- ge_opnd_out in Hx. apply (ge_opnd_user bB B pB ldb). exact (o_out_writes F nb _ x l OB Hx W).
  Qed.
End Regions.

Section Fail.
  Context {F : fields}.
  Variables (R : roots F) (rp : F -> F).

  (* a task of the computation that fails is the factorization of a diagonal tile *)
  Lemma pblist_fails : forall nb n kd A bA uplo ks x a b M,
    plist nb n kd A bA uplo R rp ++ map sure ks = a ++ x :: b -> ck_info x M <> 0 ->
    exists k b', 0 <= k < ntl nb n /\ b = b' ++ map sure ks /\ In (dep_inout (tptr bA A k k)) (k_deps (ck_task x)).
  Proof.
    intros nb n kd A bA uplo ks x a b M E NZ.
    destruct (app_cons_cases _ _ _ _ _ _ E) as [(b' & E1 & E2)|(a' & E1 & E2)].
    - assert (HI : In x (plist nb n kd A bA uplo R rp)) by (rewrite E1; apply in_or_app; right; left; reflexivity).
      unfold plist in HI. apply in_flat_map in HI. destruct HI as (k & Hk & [HI|HI]).
      + exists k, b'. split; [apply in_zrange in Hk; exact Hk|]. split; [assumption|]. rewrite <- HI. left.
        unfold ptask, tp, tm, tn. destruct (low uplo); reflexivity.
      + apply in_map_iff in HI. destruct HI as (y & <- & _). exfalso. apply NZ. reflexivity.
    - exfalso. assert (HI : In x (map sure ks)) by (rewrite E2; apply in_or_app; right; left; reflexivity).
      apply in_map_iff in HI. destruct HI as (y & <- & _). apply NZ. reflexivity.
  Qed.

  Lemma zpbsv_fails : forall nb uplo n kd nrhs pA ld pB ldb bA bB M,
    0 < nb -> valid_uplo uplo -> 0 < kd < n -> 0 <= nrhs -> kd < ld -> n <= ldb ->
    NoDup [bA; bB] -> (forall b, In b [fst pA; fst pB] -> ~ In b [bA; bB]) ->
    (forall l, in_user_band uplo kd pA ld n l -> ~ in_user pB ldb n nrhs l) ->
    gdriver_ensures (zpbsv R rp nb uplo n kd nrhs pA ld pB ldb bA bB) M (fun M' st =>
      st <> 0 -> forall l, ~ In (fst l) [bA; bB] -> ~ in_user_band uplo kd pA ld n l -> M' l = M l).
  Proof.
    intros nb uplo n kd nrhs pA ld pB ldb bA bB M Hb Hu Hk Hr HL LB ND HF AP. unfold zpbsv.
    assert (E1 : (uplo =? PlasmaUpper) || (uplo =? PlasmaLower) = true) by (destruct Hu as [->| ->]; reflexivity).
    rewrite E1. cbn [negb].
    replace (n <? 0) with false by (symmetry; apply Z.ltb_ge; lia).
    replace (kd <? 0) with false by (symmetry; apply Z.ltb_ge; lia).
    replace (nrhs <? 0) with false by (symmetry; apply Z.ltb_ge; lia).
    replace (ld <? kd + 1) with false by (symmetry; apply Z.ltb_ge; lia).
    replace (ldb <? Z.max 1 n) with false by (symmetry; apply Z.ltb_ge; lia).
    destruct (Z.eqb_spec (Z.min n nrhs) 0) as [E0|E0].
    { cbn. intros NZ. exfalso. apply NZ. reflexivity. }
    destruct (pb_create_succeeds uplo nb n kd Hu Hb ltac:(lia)) as (A & sz & EA). rewrite EA. cbn [with_gdesc].
    assert (Hk0 : 0 <= kd) by lia. pose proof (pb_create_pb _ _ _ _ _ _ Hk0 Hu EA) as TA. clear EA.
    destruct (ld_create nb ldb n nrhs Hb ltac:(lia) ltac:(lia)) as (B & sz' & EB & DB & B1 & B2). rewrite EB. cbn [with_gdesc]. clear EB.
    pose proof (pk_m _ _ _ _ _ TA) as DM. pose proof (pk_n _ _ _ _ _ TA) as DN.
    replace (d_m A =? 0) with false by (symmetry; apply Z.eqb_neq; lia).
    replace (d_n A =? 0) with false by (symmetry; apply Z.eqb_neq; lia).
    replace (d_n B =? 0) with false by (symmetry; apply Z.eqb_neq; lia). cbn [orb].
    assert (N1 : bA <> bB) by (inversion_clear ND as [|? ? X Y]; cbn in X; intuition).
    rewrite (pzpbtrf_eq nb n kd A bA uplo TA R rp). fold (plist nb n kd A bA uplo R rp).
    fold (bb_in (F := F) A B bA pA ld bB pB ldb).
    assert (LB' : d_m B <= ldb) by lia.
    assert (AP' : forall l, in_user_band uplo kd pA ld n l -> ~ in_user pB ldb (d_m B) (d_n B) l) by (rewrite B1, B2; exact AP).
    assert (KG : Forall (@kgood F) (map ck_task (plist nb n kd A bA uplo R rp ++ map sure (two_band_solves uplo bA A bB B)))).
    { rewrite map_app, map_sure. apply Forall_app. split; [apply plist_kgood; assumption|].
      apply (two_band_kgood nb n kd A B); assumption. }
    assert (KS : Forall cksound (plist nb n kd A bA uplo R rp ++ map sure (two_band_solves uplo bA A bB B))).
    { apply Forall_app. split; [apply plist_sound; assumption|apply cksound_sure]. }
    eapply gregion_mono; [|apply (bb_gregion_trace A uplo nb n kd TA B DB bA pA ld bB pB ldb HL LB' N1 HF AP'
      (plist nb n kd A bA uplo R rp ++ map sure (two_band_solves uplo bA A bB B))); auto].
    - intros M' st (HG & HBB & HFR) NZ l Hl HT.
      rewrite B1, B2 in HBB, HFR.
      destruct (in_user_dec pB ldb n nrhs l ltac:(lia)) as [IU|NU]; [|apply HFR; assumption].
      destruct IU as (i & j & Hi & Hj & ->). destruct (HBB i j Hi Hj) as [H|(qs & H)]; [exact H|]. exfalso.
      destruct (HG NZ) as (l1 & x & l2 & EC & EI & _).
      remember (krun (bb_in A B bA pA ld bB pB ldb) M) as M3 eqn:EM3.
      assert (NX : ck_info x (krun (map ck_task l1) M3) <> 0) by congruence.
      destruct (pblist_fails nb n kd A bA uplo _ x l1 l2 _ EC NX) as (k & b' & Hk' & E2 & HD).
      apply NX. apply (H l1 x l2 EC). rewrite E2, map_app, map_sure, <- app_assoc.
      apply (linked_sub F (ck_task x) (two_band_solves uplo bA A bB B)); [|apply sub_in].
      assert (MT : d_mt B = ntl nb n).
      { rewrite <- B1. apply mt_aligned_ntl; [apply (td_shape _ _ (sq_t nb _ _ DB))|apply (sq_mb nb _ _ DB)]. }
      assert (NT : d_nt B = ntl nb nrhs).
      { rewrite <- B2. apply nt_aligned_ntl; [apply (td_shape _ _ (sq_t nb _ _ DB))|apply (sq_nb nb _ _ DB)]. }
      assert (Hm : 0 <= i / nb < d_mt B) by (rewrite MT; apply div_ntl; lia).
      assert (Hc : 0 <= j / nb < d_nt B) by (rewrite NT; apply div_ntl; lia).
      apply two_band_solves_linked with (k := k) (m := i / nb) (n := j / nb); auto; [lia| | |].
      + rewrite MT. apply (tb_mt A uplo nb n kd TA).
      + pose proof (ktl_bounds A uplo nb n kd TA) as KB. unfold ktl in KB. rewrite (pk_klt _ _ _ _ _ TA), (pk_kut _ _ _ _ _ TA).
        assert (1 <= (kd + nb - 1) / nb) by nia. destruct (uplo =? PlasmaUpper); lia.
      + unfold uses. rewrite (copy_out_eq (V := F) B (in_tiles B) bB pB ldb (sq_t nb _ _ DB)) by (split; assumption).
        left. reflexivity.
    - intros env HE1 HE2. rewrite map_app, map_sure. apply Forall_app. split.
      + apply (plist_kdecl nb n kd A bA uplo TA R rp); assumption.
      + apply (two_band_kdecl nb n kd A B); assumption.
    - intros k l Hk' HW. apply in_app_or in Hk'. destruct Hk' as [Hk'|Hk'].
      + left. symmetry. eapply plist_writes; eauto.
      + right. left. symmetry. apply in_map_iff in Hk'. destruct Hk' as (x & <- & Hx).
        eapply (two_band_writes nb n kd A B); eauto.
  Qed.
End Fail.
