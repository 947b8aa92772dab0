(* plasma_zpotri: the inverse from the Cholesky factor. *)
From Coq Require Import ZArith List Bool Lia Ring.
From Verif Require Import Base NumModel NumProofs FieldModel TaskModel TaskSpec TaskProofs DescModel DescSpec
  DescDriverModel DescProofs DescPackProofs DescProofs3 DescProofs4 MatModel MatSpec MatProofs RegionProofs
  GuardModel GuardSpec GuardProofs GuardProofs2 GuardAnyProofs
  LayoutModel LayoutProofs LayoutProofs2 DriverModel DriverSpec OpProofs SimProofs OperandProofs GOperandProofs GAnyProofs
  GemmModel GemmProofs GemmDriverProofs RankModel RankProofs RankDriverProofs LasetModel LasetProofs EwDriverProofs
  TriModel TriSpec TriVecProofs TriProofs TrmmProofs TrsmProofs PotrfModel PotrfSpec CholProofs PotrfProofs PotrfDriverProofs
  InvSpec InvProofs ViewProofs TrtriModel TrtriTaskProofs TrtriStepProofs TrtriProofs TrtriCodeProofs TrtriDriverProofs
  LauumTaskProofs LauumProofs InvDriverProofs.
Import ListNotations.
Open Scope Z_scope.

Lemma kcodes_sure0 : forall V (ks : list (ktask V)) M c, In c (kcodes (map sure ks) M) -> c = 0.
Proof.
  intros V ks. induction ks as [|k ks IH]; intros M c H; cbn in H; [contradiction|].
  destruct H as [<-|H]; [reflexivity|]. apply (IH _ _ H).
Qed.

Section Driver.
  Context {F : fields}.
  Add Ring num_ring_inv_driver2 : (nring F).
  Variable rp : F -> F.
  Hypothesis HRP : forall x, nconj x = x -> rp x = x.

  Section Steps.
    Variables (nb n : Z) (A : desc) (SA : Z -> Z -> Prop) (bA uplo : Z).
    Hypothesis Hu : valid_uplo uplo.
    Hypothesis HQ : sq nb A SA.
    Hypotheses (DM : d_m A = n) (DN : d_n A = n).
    Hypothesis HSA : forall i j, 0 <= i < ntl nb n -> 0 <= j < ntl nb n -> uplo_sel uplo i j = true -> SA i j.

    (* the tasks of pztrtri and pzlauum on the factor *)
    Definition ilist : list (cktask F) := tlist nb n A bA uplo PlasmaNonUnit ++ map sure (llist nb n A bA uplo rp).

    Lemma ilist_kgood : Forall kgood (map ck_task ilist).
    Proof.
      unfold ilist. rewrite map_app, map_sure, Forall_app. split.
      - apply (tlist_kgood nb n A SA bA uplo PlasmaNonUnit Hu HQ DM DN HSA).
      - apply (llist_kgood nb n A SA bA uplo Hu HQ DM HSA rp).
    Qed.

    Lemma ilist_sound : Forall cksound ilist.
    Proof.
      unfold ilist. rewrite Forall_app. split; [|apply cksound_sure].
      apply (tlist_sound nb n A SA bA uplo PlasmaNonUnit Hu HQ DM DN HSA).
    Qed.

    Lemma ilist_kdecl : forall env, In (bA, homeD A SA) env -> Forall (kdecl (home_env env)) (map ck_task ilist).
    Proof.
      intros env HE. unfold ilist. rewrite map_app, map_sure, Forall_app. split.
      - apply (tlist_kdecl nb n A SA bA uplo PlasmaNonUnit Hu HQ DM DN HSA). assumption.
      - apply (llist_kdecl nb n A SA bA uplo Hu HQ DM DN HSA). assumption.
    Qed.

    Lemma ilist_writes : forall k l, In k ilist -> k_writes (ck_task k) l -> fst l = bA.
    Proof.
      intros k l Hk. apply in_app_or in Hk. destruct Hk as [Hk|Hk].
      - revert Hk. apply tlist_writes.
      - apply in_map_iff in Hk. destruct Hk as (x & <- & Hx). cbn. apply (llist_writes nb n A bA uplo rp x l Hx).
    Qed.

    Lemma ilist_opp : forall (M : mem F) i j, 0 <= i < n -> 0 <= j < n ->
      SA (i / nb) (j / nb) -> (if vlow uplo then i / nb < j / nb else j / nb < i / nb) ->
      el (krun (map ck_task ilist) M) bA A i j = el M bA A i j.
    Proof.
      intros M i j Hi Hj HS HO. unfold ilist. rewrite map_app, map_sure, krun_app.
      rewrite (llist_opp nb n A SA bA uplo Hu HQ DM DN HSA rp) by assumption.
      apply (tlist_opp nb n A SA bA uplo PlasmaNonUnit Hu HQ DM DN HSA); assumption.
    Qed.

    Lemma TS_diag : forall (SS : Z -> Z -> F) i, TS PlasmaNonUnit SS i i = SS i i.
    Proof. intros SS i. unfold TS. change (PlasmaNonUnit =? PlasmaUnit) with false. cbn [andb]. rewrite Z.leb_refl. reflexivity. Qed.

    Lemma TS_low : forall (SS : Z -> Z -> F) i l, 0 <= i < n -> i < l < n -> TS PlasmaNonUnit SS i l = n0.
    Proof.
      intros SS i l Hi Hl. unfold TS. change (PlasmaNonUnit =? PlasmaUnit) with false. cbn [andb].
      replace (l <=? i) with false by (symmetry; apply Z.leb_gt; lia). reflexivity.
    Qed.

    Lemma ilist_step : forall M0 SS, (forall i, 0 <= i < n -> SS i i <> n0) ->
      (forall i, 0 <= i < n -> nconj (SS i i) = SS i i) ->
      gh (vrel nb n A bA uplo M0 SS) ilist 0
         (vrel nb n A bA uplo M0 (fun i j => if j <=? i then whw n (inverse n (TS PlasmaNonUnit SS)) i j else SS i j)).
    Proof.
      intros M0 SS HD HC.
      assert (HD' : forall i, 0 <= i < n -> TS PlasmaNonUnit SS i i <> n0) by (intros i Hi; rewrite TS_diag; auto).
      pose proof (TS_low SS) as HLo.
      remember (fun i j => if tsel PlasmaNonUnit i j then inverse n (TS PlasmaNonUnit SS) i j else SS i j) as S2 eqn:E2.
      assert (V2 : forall i j, S2 i j = if j <=? i then inverse n (TS PlasmaNonUnit SS) i j else SS i j).
      { intros i j. rewrite E2. unfold tsel. change (PlasmaNonUnit =? PlasmaUnit) with false. cbn [andb negb].
        rewrite andb_true_r. reflexivity. }
      assert (L2 : forall i j, 0 <= i < n -> 0 <= j < n -> LL S2 i j = inverse n (TS PlasmaNonUnit SS) i j).
      { intros i j Hi Hj. unfold LL. rewrite V2. destruct (Z.leb_spec j i); [reflexivity|].
        symmetry. apply (inverse_low n (TS PlasmaNonUnit SS) HD' HLo); lia. }
      assert (R2 : forall i, 0 <= i < n -> nconj (S2 i i) = S2 i i).
      { intros i Hi. rewrite V2, Z.leb_refl. pose proof (inverse_diag n (TS PlasmaNonUnit SS) HD' HLo i Hi) as E.
        rewrite TS_diag in E. apply (cancel_l (SS i i)); [auto|]. rewrite E. rewrite <- (HC i Hi) at 1.
        rewrite <- nconj_mul, E. apply nconj_1. }
      unfold ilist. apply (gh_app _ (vrel nb n A bA uplo M0 S2) _ _ _ 0 0); [| |reflexivity].
      - rewrite E2. apply (tlist_step nb n A SA bA uplo PlasmaNonUnit Hu HQ DM DN HSA M0 SS HD').
      - eapply gh_mono; [intros M HM; exact HM| |apply (llist_step nb n A SA bA uplo Hu HQ DM DN HSA rp HRP M0 S2 R2)].
        intros M [G1 G2]. split; [exact G1|]. intros i j Hij. rewrite G2 by assumption.
        destruct (Z.leb_spec j i) as [LE|GT].
        + unfold whw. destruct Hij as (Hi & Hj & _). apply nsum_ext. intros l Hl. rewrite !L2 by assumption. reflexivity.
        + rewrite V2. replace (j <=? i) with false by (symmetry; apply Z.leb_gt; lia). reflexivity.
    Qed.
  End Steps.

  (* the inverse from the lower view, as a matrix *)
  Lemma view_hermitian : forall uplo n (M' : mem F) pA lda (W : Z -> Z -> F), valid_uplo uplo ->
    (forall i j, 0 <= j <= i -> i < n -> uview M' uplo pA lda i j = whw n W i j) ->
    is_hermitian M' uplo pA lda n (whw n W).
  Proof.
    intros uplo n M' pA lda W Hu HU. split.
    - intros i j [Hi Hj] HS. apply (selects_view uplo i j Hu) in HS. unfold uview in HU. destruct (uplo =? PlasmaLower).
      + symmetry. apply HU; lia.
      + rewrite <- (nconj_conj F (ul M' pA lda i j)), HU by lia. symmetry. apply whw_conj.
    - intros i j _. symmetry. apply whw_conj.
  Qed.

  (* the product of the factor with its conjugate transpose, from the lower view *)
  Lemma view_factor : forall uplo n (S T : Z -> Z -> F),
    (forall i j, 0 <= i < n -> 0 <= j < n -> S i j = unview uplo T i j) ->
    forall i j, 0 <= i < n -> 0 <= j < n -> factor_product uplo n S i j = vvh n T i j.
  Proof.
    intros uplo n S T HS i j Hi Hj. unfold factor_product, vvh, unview in *. destruct (uplo =? PlasmaLower).
    - apply nsum_ext. intros l Hl. rewrite !HS by assumption. reflexivity.
    - apply nsum_ext. intros l Hl. rewrite !HS by assumption. rewrite nconj_conj. reflexivity.
  Qed.

  Lemma zpotri_main : forall (S : Z -> Z -> F) nb uplo n pA lda bA M, @n1 F <> n0 ->
    0 < nb -> valid_uplo uplo -> 0 <= n -> Z.max 1 n <= lda -> fst pA <> bA ->
    is_triangle M uplo PlasmaNonUnit pA lda n S -> (forall i, 0 <= i < n -> nconj (S i i) = S i i) ->
    gdriver_ensures (zpotri rp nb uplo n pA lda bA) M (fun M' st =>
      (st = 0 <-> forall i, 0 <= i < n -> S i i <> n0) /\
      (st = 0 -> exists X, is_hermitian M' uplo pA lda n X /\ is_inverse n (factor_product uplo n S) X /\
        forall l, fst l <> bA -> ~ in_triangle uplo pA lda n l -> M' l = M l) /\
      (st <> 0 -> 0 < st <= n /\ S (st - 1) (st - 1) = n0 /\
        forall i, (st - 1) / nb * nb <= i < st - 1 -> S i i <> n0) /\
      (forall l, fst l <> bA -> ~ in_user pA lda n n l -> M' l = M l)).
  Proof.
    intros S nb uplo n pA lda bA M N10 Hb Hu Hn HL HP HS HR. unfold zpotri.
    assert (E1 : negb (uplo =? PlasmaUpper) && negb (uplo =? PlasmaLower) = false) by (destruct Hu as [->| ->]; reflexivity).
    rewrite E1. replace (n <? 0) with false by (symmetry; apply Z.ltb_ge; lia).
    replace (lda <? Z.max 1 n) with false by (symmetry; apply Z.ltb_ge; lia).
    pose proof (triangle_view M uplo PlasmaNonUnit pA lda n S Hu (or_intror eq_refl) HS) as SV.
    remember (uview M uplo pA lda) as SS eqn:ESS.
    assert (SD : forall i, 0 <= i < n -> (S i i = n0 <-> SS i i = n0)).
    { intros i Hi. rewrite SV by assumption. unfold unview. rewrite TS_diag.
      destruct (uplo =? PlasmaLower); [reflexivity|]. split; intros E.
      - rewrite <- (nconj_conj F (SS i i)), E. apply nconj_0.
      - rewrite E. apply nconj_0. }
    assert (RS : forall i, 0 <= i < n -> nconj (SS i i) = SS i i).
    { intros i Hi. specialize (HR i Hi). rewrite SV in HR by assumption. unfold unview in HR. rewrite TS_diag in HR.
      destruct (uplo =? PlasmaLower); [assumption|]. rewrite nconj_conj in HR. symmetry. assumption. }
    destruct (Z.eqb_spec (Z.max n 0) 0) as [E0|E0].
    { cbn. assert (n = 0) as -> by lia. split; [split; [intros; lia|reflexivity]|]. split; [|split; [|auto]].
      - intros _. exists (fun _ _ => n0). split; [split; intros i j [Hi _]; lia|]. split; [intros i j [Hi _]; lia|auto].
      - intros H. exfalso. apply H. reflexivity. }
    destruct (ge_create_succeeds nb n n Hb ltac:(lia) ltac:(lia)) as (A & EA & _). rewrite EA. cbn [with_gdesc].
    destruct (ge_create_dn _ _ _ _ _ EA) as (HQ & DM & DN & _). unfold dn in HQ. clear EA.
    replace (d_n A =? 0) with false by (symmetry; apply Z.eqb_neq; lia).
    destruct (dense_tiles nb n A uplo HQ DM DN) as [HSA HIN].
    rewrite (pztrtri_eq nb n A (in_tiles A) bA uplo PlasmaNonUnit Hu HQ DM DN HSA).
    rewrite (pzlauum_eq nb n A (in_tiles A) bA uplo Hu HQ DM DN HSA rp).
    rewrite <- (ge_opnd_in F bA A pA lda), <- (ge_opnd_out F bA A pA lda).
    fold (ilist nb n A bA uplo).
    eapply gregion_mono2; [|apply (one_region_any F nb (ge_opnd bA A pA lda) (ilist nb n A bA uplo))].
    - cbn [o_b o_p o_ld o_A ge_opnd]. intros M' st (M3 & H1 & H2 & H3 & H4 & H5).
      assert (EL : forall i j, 0 <= i < n -> 0 <= j < n -> el M3 bA A i j = ul M pA lda i j).
      { intros i j Hi Hj. apply H1. apply (ge_opnd_el nb); auto; rewrite ?DM, ?DN; assumption. }
      assert (VW : forall i j, 0 <= i < n -> 0 <= j < n -> vview A bA uplo M3 i j = SS i j).
      { intros i j Hi Hj. rewrite ESS. unfold vview, vlow, uview. destruct (uplo =? PlasmaLower); [|apply f_equal]; apply EL; assumption. }
      assert (PD0 : PD nb n A bA uplo SS 0 M3) by (intros i Hi; apply VW; lia).
      assert (FR : forall l, fst l <> bA -> ~ in_user pA lda n n l -> M' l = M l).
      { intros l Hl HN. apply H5; [assumption|]. intros HO. apply HN. apply ge_opnd_user in HO. rewrite DM, DN in HO. exact HO. }
      assert (GC : st <> 0 -> 0 < st <= n /\ SS (st - 1) (st - 1) = n0 /\
        forall i, (st - 1) / nb * nb <= i < st - 1 -> SS i i <> n0).
      { intros NZ. pose proof (guilty_code _ _ _ _ (H3 NZ)) as GC. unfold ilist in GC. rewrite kcodes_app in GC.
        apply in_app_or in GC. destruct GC as [GC|GC]; [|exfalso; apply NZ; apply (kcodes_sure0 _ _ _ _ GC)].
        destruct (tlist_code_in nb n A (in_tiles A) bA uplo PlasmaNonUnit Hu HQ DM DN HSA SS M3 st PD0 GC NZ) as (_ & C1 & C2 & C3).
        auto. }
      assert (ST0 : st = 0 <-> forall i, 0 <= i < n -> S i i <> n0).
      { split.
        - intros Z0 i Hi. rewrite SD by assumption. destruct (H4 Z0) as (K & _).
          apply kcodes_all0 in K. destruct K as [K _].
          apply (tlist_codes0 nb n A (in_tiles A) bA uplo PlasmaNonUnit Hu HQ DM DN HSA SS M3 PD0 K ltac:(discriminate) i Hi).
        - intros HN. destruct (Z.eq_dec st 0) as [|NZ]; [assumption|]. exfalso.
          destruct (GC NZ) as (C1 & C2 & _). apply (HN (st - 1)); [lia|]. apply SD; [lia|]. assumption. }
      split; [exact ST0|]. split; [|split; [|exact FR]].
      + intros Z0. pose proof (proj1 ST0 Z0) as HN. destruct (H4 Z0) as (_ & H6 & H7).
        assert (HD : forall i, 0 <= i < n -> SS i i <> n0).
        { intros i Hi E. apply (HN i Hi). apply SD; assumption. }
        assert (HD' : forall i, 0 <= i < n -> TS PlasmaNonUnit SS i i <> n0) by (intros i Hi; rewrite TS_diag; auto).
        pose proof (TS_low n SS) as HLo.
        destruct (ilist_step nb n A (in_tiles A) bA uplo Hu HQ DM DN HSA M3 SS HD RS M3) as [[R1 R2] _].
        { split; [reflexivity|]. intros i j (Hi & Hj & _). apply VW; assumption. }
        destruct (user_view nb n A bA uplo M M' M3 (krun (map ck_task (ilist nb n A bA uplo)) M3) pA lda
          (fun i j => if j <=? i then whw n (inverse n (TS PlasmaNonUnit SS)) i j else SS i j)
          Hu HQ DM DN ltac:(lia) EL) as [U1 U2].
        * intros i j Hi Hj. apply H6. apply (ge_opnd_el nb); auto; rewrite ?DM, ?DN; assumption.
        * exact R2.
        * intros i j Hi Hj HO. apply (ilist_opp nb n A (in_tiles A) bA uplo Hu HQ DM DN HSA); auto.
        * intros i j Hi Hj. replace (j <=? i) with false by (symmetry; apply Z.leb_gt; lia). rewrite ESS. reflexivity.
        * exact FR.
        * exists (whw n (inverse n (TS PlasmaNonUnit SS))). split; [|split; [|exact U2]].
          -- apply view_hermitian; [assumption|]. intros i j Hj Hi. rewrite U1 by assumption.
             replace (j <=? i) with true by (symmetry; apply Z.leb_le; lia). reflexivity.
          -- intros i j [Hi Hj].
             destruct (whw_inverse n (TS PlasmaNonUnit SS) (inverse n (TS PlasmaNonUnit SS))) with (i := i) (j := j) as [G1 G2].
             { intros a b Ha Hb'. apply (inverse_r n (TS PlasmaNonUnit SS) HD' HLo); assumption. }
             { intros a b Ha Hb'. apply (inverse_l n (TS PlasmaNonUnit SS) HD' HLo); assumption. }
             { split; assumption. }
             split.
             ++ rewrite <- G1. apply nsum_ext. intros l Hl. rewrite (view_factor uplo n S _ SV) by assumption. reflexivity.
             ++ rewrite <- G2. apply nsum_ext. intros l Hl. rewrite (view_factor uplo n S _ SV) by assumption. reflexivity.
      + intros NZ. destruct (GC NZ) as (C1 & C2 & C3). split; [assumption|]. split; [apply SD; [lia|assumption]|].
        intros i Hi. assert (0 <= i). { assert (0 <= (st - 1) / nb) by (apply Z.div_pos; lia). nia. }
        rewrite SD by lia. apply C3. assumption.
    - apply ge_opnd_ok; [assumption|lia].
    - assumption.
    - apply (ilist_kgood nb n A (in_tiles A) bA uplo Hu HQ DM DN HSA).
    - apply (ilist_sound nb n A (in_tiles A) bA uplo Hu HQ DM DN HSA).
    - intros env HE. apply (ilist_kdecl nb n A (in_tiles A) bA uplo Hu HQ DM DN HSA). assumption.
    - intros k l. apply ilist_writes.
  Qed.
End Driver.
