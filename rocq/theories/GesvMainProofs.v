(* plasma_zgesv solves the system. *)
From Coq Require Import ZArith List Bool Lia.
From Verif Require Import Base NumModel NumProofs FieldModel TaskModel TaskSpec TaskProofs GuardModel GuardSpec GuardProofs GuardProofs2 GuardAnyProofs DescModel DescSpec DescProofs DescProofs3 DescProofs4 DescDriverModel
  MatModel MatSpec MatProofs RegionProofs LayoutModel LayoutProofs LayoutProofs2 TriModel TriSpec DriverModel DriverSpec SwpModel SwpSpec GroupProofs PanelProofs SwpDriverProofs GemmProofs PotrfModel PotrfSpec GetrfModel GetrfSpec GetrfProofs
  GetrfLinkProofs GetrfRegionProofs GetrfDriverProofs GetrsModel GetrsProofs OperandProofs GOperandProofs GAnyProofs PotrfDriverProofs TrtriCodeProofs
  GesvModel GesvLiftProofs GesvSwpProofs GesvFlushProofs GesvLinkProofs GLinked2Proofs GesvDriverProofs.
Import ListNotations.
Open Scope Z_scope.

Section Main.
  Context {F : fields}.
  Variable bigger : F -> F -> bool.
  Variables (nb : Z) (A B : desc) (bA bB n : Z) (pI : loc) (ib mpt : Z).
  Hypothesis GA : gen_ok A.
  Hypothesis GB : gen_ok B.
  Hypothesis DA : dn nb A.
  Hypothesis DB : dn nb B.
  Hypothesis Amb : d_mb A = nb.
  Hypothesis Anb : d_nb A = nb.
  Hypothesis Am : d_m A = n.
  Hypothesis An : d_n A = n.
  Hypothesis Bm : d_m B = n.
  Hypothesis Hn : 0 < n.
  Hypothesis Hr : 0 < d_n B.
  Hypothesis NAB : bA <> bB.
  Let SW := pzgeswp_mem (F := F) PlasmaRowwise bB B pI 1.
  Let t12 := pztrsm (F := F) PlasmaLeft PlasmaLower PlasmaNoTrans PlasmaUnit n1 bA A bB B
        ++ pztrsm PlasmaLeft PlasmaUpper PlasmaNoTrans PlasmaNonUnit n1 bA A bB B.

  Lemma t12_kgood : Forall kgood (map on_cells t12).
  Proof.
    unfold t12. rewrite map_app. apply Forall_app. split; apply Forall_forall; intros k Hk; apply in_map_iff in Hk; destruct Hk as (k0 & <- & Hk);
      apply on_cells_kgood; revert k0 Hk; apply Forall_forall; apply (left_kgood nb A B bA bB n); auto; [right|left]; reflexivity.
  Qed.

  (* the interchanges and the two solves are those of plasma_omp_zgetrs *)
  Lemma solve_run : forall M l, legal_pivots (ipiv_rd M pI) n ->
    krun (SW ++ map on_cells t12) M l = (krun (omp_async_zgetrs PlasmaNoTrans bA A pI (ipiv_rd M pI) bB B) (nums M) l, snd (M l)).
  Proof.
    intros M l HL. rewrite krun_app.
    assert (E : meq (krun SW M) (on_nums (krun (pzgeswp PlasmaRowwise bB B pI (ipiv_rd M pI) 1)) M)).
    { intros q. apply pzgeswp_mem_run. unfold swp_len. cbn. rewrite Bm. assumption. }
    rewrite (krun_meq _ (map on_cells t12) _ _ t12_kgood E l). rewrite krun_on_cells. unfold on_nums at 1. cbn [snd].
    unfold omp_async_zgetrs. rewrite An. destruct (Z.eqb_spec n 0); [lia|]. destruct (Z.eqb_spec (d_n B) 0); [lia|]. cbn [orb].
    change (PlasmaNoTrans =? PlasmaNoTrans) with true. cbv iota. rewrite krun_app. reflexivity.
  Qed.

  Lemma solves : forall (A0 : Z -> Z -> F) M,
    factored n n A0 (lel M bA A) (pivots M pI) -> U_regular n n (lel M bA A) ->
    let M' := krun (SW ++ map on_cells t12) M in
    (forall l, fst l <> bB -> M' l = M l) /\
    (forall i j, 0 <= i < n -> 0 <= j < d_n B -> nsum (fun l => nmul (A0 i l) (lel M' bB B l j)) 0 n = lel M bB B i j).
  Proof.
    intros A0 M [P1 P2] UR M'. unfold U_regular in UR. rewrite Z.min_id in P1, P2, UR.
    assert (HL : legal_pivots (ipiv_rd M pI) n). { intros i Hi. specialize (P1 i Hi). unfold pivots in P1. unfold ipiv_rd. lia. }
    remember (fun l : loc => lel M bA A (snd l mod n) (snd l / n)) as Mu eqn:EMu.
    assert (EU : forall i j, 0 <= i < n -> ul Mu (0, 0) n i j = lel M bA A i j).
    { intros i j Hi. rewrite EMu. unfold ul, at_. cbn [fst snd]. replace (0 + i + j * n) with (i + j * n) by lia.
      rewrite Z.mod_add, Z.div_add by lia. rewrite Z.mod_small, Z.div_small by lia. replace (0 + j) with j by lia. reflexivity. }
    destruct (omp_at nb A B bA bB n pI (ipiv_rd M pI) PlasmaNoTrans DA DB GB Am An Bm NAB HL Mu (0, 0) n A0) with (M := nums M) as [X V].
    - intros i Hi. specialize (UR i Hi). unfold factor_U in *. destruct (i <=? i); [|assumption]. rewrite EU by assumption. assumption.
    - intros i j [Hi Hj]. etransitivity; [exact (P2 i j (conj Hi Hj))|]. apply nsum_ext. intros q Hq. apply f_equal2.
      + unfold factor_L. rewrite EU by assumption. reflexivity.
      + unfold factor_U. rewrite EU by lia. reflexivity.
    - lia.
    - assumption.
    - left. reflexivity.
    - intros i j Hi Hj. rewrite EU by assumption. reflexivity.
    - split.
      + intros l Hl. unfold M'. rewrite solve_run by assumption. rewrite X by assumption. unfold nums. symmetry. apply surjective_pairing.
      + intros i j Hi Hj. specialize (V i j Hi Hj).
        assert (EQ : forall q, lel M' bB B q j = el (krun (omp_async_zgetrs PlasmaNoTrans bA A pI (ipiv_rd M pI) bB B) (nums M)) bB B q j).
        { intros q. unfold lel, M', el. rewrite solve_run by assumption. reflexivity. }
        transitivity (el (nums M) bB B i j); [|reflexivity]. rewrite <- V. apply nsum_ext. intros q Hq. rewrite EQ. reflexivity.
  Qed.
End Main.

Lemma zgesv_main : forall (F : fields) (bigger : F -> F -> bool) nb ib mpt n nrhs pA lda pI pB ldb bA bB (M : mem (cell F)),
  0 < nb -> 0 < ib -> 0 < mpt -> 0 <= n -> 0 <= nrhs -> Z.max 1 n <= lda -> Z.max 1 n <= ldb ->
  NoDup [fst pA; fst pB; fst pI; bA; bB] -> n <= 3 * nb ->
  gdriver_ensures (zgesv bigger nb ib mpt n nrhs pA lda pI pB ldb bA bB) M (fun M' st =>
    (st = 0 ->
      (forall i j, in_matrix n nrhs i j -> nsum (fun l => nmul (lul M pA lda i l) (lul M' pB ldb l j)) 0 n = lul M pB ldb i j) /\
      (0 < nrhs -> factored n n (lul M pA lda) (lul M' pA lda) (pivots M' pI) /\ U_regular n n (lul M' pA lda)) /\
      (forall l, ~ In (fst l) [bA; bB] -> ~ in_user pA lda n n l -> ~ in_user pB ldb n nrhs l ->
         (forall t, 0 <= t < n -> l <> (fst pI, snd pI + t)) -> M' l = M l)) /\
    (comparison bigger -> (forall k, 0 <= k < n -> ~ column_depends n (lul M pA lda) k) -> st = 0)).
Proof.
  intros F bigger nb ib mpt n nrhs pA lda pI pB ldb bA bB M Hnb Hib Hmpt Hn Hr LA LB ND FEW. unfold zgesv.
  replace (n <? 0) with false by (symmetry; apply Z.ltb_ge; lia).
  replace (nrhs <? 0) with false by (symmetry; apply Z.ltb_ge; lia).
  replace (lda <? Z.max 1 n) with false by (symmetry; apply Z.ltb_ge; lia).
  replace (ldb <? Z.max 1 n) with false by (symmetry; apply Z.ltb_ge; lia).
  destruct (Z.eqb_spec (Z.min n nrhs) 0) as [E0|E0].
  { cbn. split; [|reflexivity]. intros _. split; [intros i j [Hi Hj]; lia|]. split; [|reflexivity].
    intros Hr'. assert (n = 0) by lia. subst n. split; [split|]; [intros t Ht|intros i j [Hi Hj]|intros t Ht]; cbn in *; lia. }
  destruct (ge_create_succeeds nb n n Hnb Hn Hn) as (A & EA & _). rewrite EA. cbn [with_gdesc].
  destruct (ge_create_dn _ _ _ _ _ EA) as (DA & A1 & A2 & _). destruct (ge_create_gen _ _ _ _ _ EA) as (GA & A3 & A4 & _). clear EA.
  destruct (ge_create_succeeds nb n nrhs Hnb Hn Hr) as (B & EB & _). rewrite EB. cbn [with_gdesc].
  destruct (ge_create_dn _ _ _ _ _ EB) as (DB & B1 & B2 & _). destruct (ge_create_gen _ _ _ _ _ EB) as (GB & B3 & B4 & _). clear EB.
  assert (P0 : 0 < n) by lia. assert (R0 : 0 < nrhs) by lia. clear E0.
  assert (MT : d_mt A = d_nt A) by (rewrite (dn_mt nb A DA), (dn_nt nb A DA) by lia; congruence).
  assert (FT : d_mt A <= 3). { destruct (few_tiles nb A DA) as [H|H]; rewrite ?A1, ?A2 in *; try lia. }
  destruct (nd5 bA bB pI pA pB ND) as (N1 & N2 & N3 & N4 & N5 & N6 & N7 & N8 & N9 & N10).
  unfold omp_async_zgesv. rewrite A2, B2. destruct (Z.eqb_spec n 0) as [?|Q0]; [lia|]. destruct (Z.eqb_spec nrhs 0) as [?|Q1]; [lia|]. cbn [orb gdriver_ensures].
  remember (map on_cells (pztrsm (F := F) PlasmaLeft PlasmaLower PlasmaNoTrans PlasmaUnit n1 bA A bB B)
        ++ map on_cells (pztrsm PlasmaLeft PlasmaUpper PlasmaNoTrans PlasmaNonUnit n1 bA A bB B)) as T eqn:ET.
  remember (pzgeswp_mem (F := F) PlasmaRowwise bB B pI 1) as SW eqn:ESW.
  remember (pzgetrf bigger bA A pI ib mpt ++ map sure (SW ++ T)) as comp eqn:EC.
  remember (ge_opnd bA A pA lda) as oA eqn:EoA. remember (ge_opnd bB B pB ldb) as oB eqn:EoB.
  assert (BA : o_b oA = bA) by (subst oA; reflexivity). assert (BB : o_b oB = bB) by (subst oB; reflexivity).
  assert (PA : o_p oA = pA) by (subst oA; reflexivity). assert (PB : o_p oB = pB) by (subst oB; reflexivity).
  match goal with |- gregion_ensures ?l _ _ =>
    replace l with (map sure (flat_map (@o_in (cell F)) [oA; oB]) ++ comp ++ map sure (flat_map (@o_out (cell F)) [oA; oB])) end.
  2: { cbn [flat_map]. rewrite !app_nil_r, EoA, EoB, !ge_opnd_in, !ge_opnd_out, EC, ET, !map_app, <- !app_assoc. reflexivity. }
  destruct (pzgetrf_sound bigger nb bA A pI ib mpt GA A3 A4 ltac:(lia) ltac:(lia) Hib Hmpt N8) as [K1 K2].
  assert (TG : Forall kgood T). { rewrite ET, <- map_app. apply (t12_kgood nb A B bA bB n); auto. }
  assert (AP : oapart oA oB).
  { intros l (i & j & _ & _ & H1) (i' & j' & _ & H2). rewrite PA in H1. rewrite PB in H2.
    rewrite H1 in H2. apply (f_equal fst) in H2. cbn in H2. congruence. }
  assert (AP' : oapart oB oA).
  { intros l (i & j & _ & _ & H1) (i' & j' & _ & H2). rewrite PB in H1. rewrite PA in H2.
    rewrite H1 in H2. apply (f_equal fst) in H2. cbn in H2. congruence. }
  assert (NOE : oA <> oB) by (intros E; rewrite E in BA; congruence).
  eapply gregion_mono; [|apply (gops_region_linked2 nb [oA; oB] [oA; oB] [oA; oB]) with (X := ipiv_sec pI 0 n)].
  - intros M' st (M3 & H1 & H2 & H3 & H4 & H5).
    assert (ELA : forall i j, in_matrix n n i j -> lel M3 bA A i j = lul M pA lda i j).
    { intros i j [Hi Hj]. unfold lel, lul. apply f_equal. specialize (H1 oA i j (or_introl eq_refl)). rewrite BA, PA in H1. rewrite EoA in H1. apply H1.
      apply (ge_opnd_el nb); [apply DA|lia|lia]. }
    assert (ELB : forall i j, in_matrix n nrhs i j -> lel M3 bB B i j = lul M pB ldb i j).
    { intros i j [Hi Hj]. unfold lel, lul. apply f_equal. specialize (H1 oB i j (or_intror (or_introl eq_refl))). rewrite BB, PB in H1. rewrite EoB in H1. apply H1.
      apply (ge_opnd_el nb); [apply DB|lia|lia]. }
    remember (krun (map ck_task (pzgetrf bigger bA A pI ib mpt)) M3) as M4 eqn:EM4.
    pose proof (outcome bigger nb bA A pI ib mpt GA A3 A4 ltac:(lia) ltac:(lia) Hib Hmpt M3 M4) as O. cbv zeta in O.
    assert (LU : lu_outcome bigger n n (lel M3 bA A) (lel M4 bA A) (pivots M4 pI) (first_code (kcodes (pzgetrf bigger bA A pI ib mpt) M3))).
    { rewrite A1, A2 in O. apply O. intros _ l. rewrite EM4. reflexivity. }
    clear O.
    apply (lu_outcome_ext F bigger n n (lel M3 bA A) (lul M pA lda) (lel M4 bA A) (lel M4 bA A) (pivots M4 pI) (pivots M4 pI)) in LU;
      [|lia|lia|intros i j Hij; symmetry; apply ELA; assumption|reflexivity|reflexivity].
    assert (FC : first_code (kcodes comp M3) = first_code (kcodes (pzgetrf bigger bA A pI ib mpt) M3)).
    { rewrite EC, kcodes_app, first_code_app, kcodes_sure.
      destruct (Z.eqb_spec (first_code (kcodes (pzgetrf bigger bA A pI ib mpt) M3)) 0) as [E|E]; [symmetry; exact E|reflexivity]. }
    assert (CS : Forall cksound comp) by (rewrite EC; apply Forall_app; split; [assumption|apply cksound_sure]).
    split.
    + intros Z0. destruct (H4 Z0) as (C0 & U1 & U2). pose proof (TrtriCodeProofs.first_code_all0 _ C0) as F0. rewrite FC in F0. pose proof LU as LU0.
      destruct LU as (_ & LU & _). destruct (LU F0) as (FA & UR & _). clear LU.
      rewrite ET, <- map_app in *.
      destruct (solves nb A B bA bB n pI GB DA DB A1 A2 B1 P0 ltac:(lia) N10 (lul M pA lda) M4 FA UR) as [S1 S2].
      rewrite <- ESW in S1, S2.
      assert (KC : krun (map ck_task comp) M3
        = krun (SW ++ map on_cells (pztrsm PlasmaLeft PlasmaLower PlasmaNoTrans PlasmaUnit n1 bA A bB B
                                 ++ pztrsm PlasmaLeft PlasmaUpper PlasmaNoTrans PlasmaNonUnit n1 bA A bB B)) M4).
      { rewrite EC, map_app, map_sure, krun_app, EM4. reflexivity. }
      rewrite KC in U1, U2. clear KC.
      remember (krun (SW ++ map on_cells (pztrsm PlasmaLeft PlasmaLower PlasmaNoTrans PlasmaUnit n1 bA A bB B
                                 ++ pztrsm PlasmaLeft PlasmaUpper PlasmaNoTrans PlasmaNonUnit n1 bA A bB B)) M4) as M5 eqn:EM5. clear EM5.
      assert (XA : forall i j, in_matrix n n i j -> lul M' pA lda i j = lel M4 bA A i j).
      { intros i j [Hi Hj]. unfold lul, lel. apply f_equal. specialize (U1 oA i j (or_introl eq_refl)). rewrite BA, PA in U1. rewrite EoA in U1.
        transitivity (el M5 bA A i j); [apply U1; apply (ge_opnd_el nb); [apply DA|lia|lia]|]. unfold el. apply S1. exact N10. }
      assert (XB : forall i j, in_matrix n nrhs i j -> lul M' pB ldb i j = lel M5 bB B i j).
      { intros i j [Hi Hj]. unfold lul, lel. apply f_equal. specialize (U1 oB i j (or_intror (or_introl eq_refl))). rewrite BB, PB in U1. rewrite EoB in U1.
        apply U1. apply (ge_opnd_el nb); [apply DB|lia|lia]. }
      assert (XI : forall t, pivots M' pI t = pivots M4 pI t).
      { intros t. unfold pivots. apply f_equal. rewrite U2.
        - apply S1. exact N9.
        - intros o [<-|[<-|[]]] (i & j & _ & E); apply (f_equal fst) in E; cbn in E; rewrite ?PA, ?PB in E; congruence. }
      assert (EB4 : forall i j, in_matrix n nrhs i j -> lel M4 bB B i j = lul M pB ldb i j).
      { intros i j Hij. rewrite <- (ELB i j Hij). unfold lel, el. apply f_equal. rewrite EM4. apply krun_frame; [eapply Forall_impl; [|exact K1]; intros a Ha; apply Ha|].
        intros (k & Hk & HW). apply in_map_iff in Hk. destruct Hk as (c & <- & Hc).
        destruct (pzgetrf_writes bigger nb bA A pI ib mpt GA A3 A4 ltac:(lia) ltac:(lia) c _ Hc HW) as [(a & e & _ & E)|(t & _ & E)];
          apply (f_equal fst) in E; cbn in E; congruence. }
      assert (LU2 : lu_outcome bigger n n (lul M pA lda) (lul M' pA lda) (pivots M' pI) 0).
      { apply (lu_outcome_ext F bigger n n (lul M pA lda) _ (lel M4 bA A) _ (pivots M4 pI)); auto; try lia.
        rewrite F0 in LU0. exact LU0. }
      split; [|split].
      * intros i j [Hi Hj]. rewrite <- EB4 by (split; assumption). rewrite <- (S2 i j) by lia. apply nsum_ext. intros q Hq.
        rewrite XB by (split; lia). reflexivity.
      * intros _. destruct LU2 as (_ & LU2 & _). destruct (LU2 eq_refl) as (L1 & L2 & _). auto.
      * intros l L1 L2 L3 L4. apply H5.
        -- cbn [map]. rewrite BA, BB. exact L1.
        -- intros (t & Ht & E). apply (L4 t Ht E).
        -- intros o [<-|[<-|[]]] HU.
           ++ rewrite EoA in HU. apply ge_opnd_user in HU. rewrite A1, A2 in HU. contradiction.
           ++ rewrite EoB in HU. apply ge_opnd_user in HU. rewrite B1, B2 in HU. contradiction.
    + intros CMP NS. destruct (Z.eq_dec st 0) as [Z0|NZ]; [assumption|]. exfalso.
      assert (FCH : fail_chain comp).
      { rewrite EC. apply (ch_fail_chain _ None). apply pzgetrf_ch. intros prev. apply ch_sure_end. }
      pose proof (chain_code _ comp M3 st CS FCH NZ (H3 NZ)) as E. rewrite FC in E.
      destruct LU as (RG & _ & LU). rewrite <- E in LU, RG. destruct (LU NZ CMP) as (x & Hx). rewrite Z.min_id in RG.
      apply (NS (st - 1) ltac:(lia)). exists x. exact Hx.
  - intros o [<-|[<-|[]]]; [rewrite EoA|rewrite EoB]; apply ge_opnd_ok; try lia; [apply DA|apply DB].
  - apply incl_refl.
  - apply incl_refl.
  - cbn [map]. rewrite BA, BB. constructor; [intros [E|[]]; congruence|]. constructor; [intros []|constructor].
  - intros o o' [<-|[<-|[]]] [<-|[<-|[]]]; rewrite ?PA, ?PB, ?BA, ?BB; assumption.
  - constructor; [intros [E|[]]; congruence|]. constructor; [intros []|constructor].
  - constructor; [intros [E|[]]; congruence|]. constructor; [intros []|constructor].
  - intros o o' [<-|[<-|[]]] [<-|[<-|[]]]; auto.
  - intros o Ho. left. assumption.
  - rewrite EC, map_app, map_sure. apply Forall_app. split; [assumption|]. apply Forall_app. split; [|assumption].
    rewrite ESW. apply (pzgeswp_mem_kgood nb); auto. right. reflexivity.
  - rewrite EC. apply Forall_app. split; [assumption|apply cksound_sure].
  - intros env HE HF DI DO. cbn [flat_map] in *. rewrite !app_nil_r in *. rewrite EC, map_app, map_sure, ESW, ET, EoA, EoB.
    rewrite EoA, EoB in DI, DO, HE.
    apply (order bigger nb A B bA bB n) with (env := env); auto.
    + apply (HE (ge_opnd bA A pA lda)). left. reflexivity.
    + apply (HE (ge_opnd bB B pB ldb)). right. left. reflexivity.
  - intros k l Hk HW. rewrite EC in Hk. cbn [map]. rewrite BA, BB. apply in_app_or in Hk. destruct Hk as [Hk|Hk].
    + destruct (pzgetrf_writes bigger nb bA A pI ib mpt GA A3 A4 ltac:(lia) ltac:(lia) k l Hk HW) as [(i & j & _ & ->)|(t & Ht & ->)].
      * left. left. reflexivity.
      * right. exists t. rewrite A1, A2, Z.min_id in Ht. split; [lia|reflexivity].
    + apply in_map_iff in Hk. destruct Hk as (k0 & <- & Hk). cbn [sure ck_task] in HW. left. apply in_app_or in Hk. destruct Hk as [Hk|Hk].
      * right. left. rewrite ESW in Hk. symmetry. apply (pzgeswp_mem_writes PlasmaRowwise bB B pI 1 k0 l Hk HW).
      * rewrite ET in Hk. destruct (T_writes nb A B bA bB n DA DB A1 A2 B1 k0 l Hk HW) as [E|E]; [left|right; left]; symmetry; exact E.
Qed.
