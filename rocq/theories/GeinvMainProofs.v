(* plasma_zgeinv inverts the matrix. *)
From Coq Require Import ZArith List Bool Lia.
From Verif Require Import Base NumModel NumProofs FieldModel TaskModel TaskSpec TaskProofs GuardModel GuardSpec GuardProofs GuardProofs2 GuardAnyProofs DescModel DescSpec DescProofs DescProofs3 DescProofs4 DescDriverModel
  MatModel MatSpec MatProofs RegionProofs LayoutModel LayoutProofs LayoutProofs2 TriModel TriSpec DriverModel DriverSpec SwpModel SwpSpec SwpProofs GroupProofs PanelProofs SwpDriverProofs GemmProofs PotrfModel PotrfSpec InvSpec GetrfModel GetrfSpec GetrfProofs
  GetrfLinkProofs GetrfRegionProofs GetrfDriverProofs GetrsProofs OperandProofs GOperandProofs GAnyProofs PotrfDriverProofs ViewProofs TrtriModel TrtriStepProofs TrtriTaskProofs TrtriCodeProofs TrtriProofs TrtriDriverProofs
  GetriModel GetriAuxProofs GetriLinkProofs InvDriverProofs InvDriverProofs2 GetriDriverProofs
  GesvModel GesvLiftProofs GesvSwpProofs GesvFlushProofs GesvLinkProofs GLinked2Proofs GesvDriverProofs GeinvLinkProofs.
Import ListNotations.
Open Scope Z_scope.

Section Main.
  Context {F : fields}.
  Variables (nb : Z) (A W : desc) (bA bW n : Z) (pI : loc).
  Hypothesis GA : gen_ok A.
  Hypothesis DA : dn nb A.
  Hypothesis DW : dn nb W.
  Hypothesis Amb : d_mb A = nb.
  Hypothesis Anb : d_nb A = nb.
  Hypothesis Am : d_m A = n.
  Hypothesis An : d_n A = n.
  Hypothesis Wm : d_m W = n.
  Hypothesis Wn : d_n W = nb.
  Let TR := map ck_task (pztrtri (F := F) PlasmaUpper PlasmaNonUnit bA A).
  Let AX := pzgetri_aux (F := F) bA A bW W.
  Let SW := pzgeswp_mem (F := F) PlasmaColumnwise bA A pI (-1).

  Let UP : valid_uplo PlasmaUpper := or_introl eq_refl.
  Let HSA := proj1 (dense_tiles nb n A PlasmaUpper DA Am An).

  Lemma irest_kgood : Forall kgood (map on_cells TR ++ map on_cells AX ++ SW).
  Proof.
    rewrite !Forall_app. split; [|split].
    - apply Forall_forall; intros k Hk; apply in_map_iff in Hk; destruct Hk as (k0 & <- & Hk).
      apply on_cells_kgood; revert k0 Hk; apply Forall_forall. unfold TR.
      rewrite (pztrtri_eq nb n A (in_tiles A) bA PlasmaUpper PlasmaNonUnit UP DA Am An HSA).
      apply (tlist_kgood nb n A (in_tiles A) bA PlasmaUpper PlasmaNonUnit UP DA Am An HSA).
    - apply Forall_forall; intros k Hk; apply in_map_iff in Hk; destruct Hk as (k0 & <- & Hk).
      apply on_cells_kgood; revert k0 Hk; apply Forall_forall. apply (aux_kgood nb n A W bA bW DA DW Am An Wm Wn).
    - apply (pzgeswp_mem_kgood nb); auto. left. reflexivity.
  Qed.

  (* the tasks after the factorization do to the numbers what plasma_zgetri does *)
  Lemma irest_run : forall M l, legal_pivots (ipiv_rd M pI) n ->
    krun (map on_cells TR ++ map on_cells AX ++ SW) M l
    = (krun (map ck_task (icomp A W bA bW pI (ipiv_rd M pI))) (nums M) l, snd (M l)).
  Proof.
    intros M l HL. rewrite app_assoc, <- map_app, krun_app.
    assert (E : meq (krun (map on_cells (TR ++ AX)) M) (on_nums (krun (TR ++ AX)) M)) by (intros q; apply krun_on_cells).
    assert (GS : Forall kgood SW). { pose proof irest_kgood as G. rewrite !Forall_app in G. apply G. }
    rewrite (krun_meq _ SW _ _ GS E l). unfold SW. rewrite pzgeswp_mem_run.
    - unfold icomp. rewrite map_app, map_sure, app_assoc, (krun_app _ (_ ++ _)). reflexivity.
    - intros i Hi. specialize (HL i). unfold swp_len in Hi. change (PlasmaColumnwise =? PlasmaRowwise) with false in Hi. cbv iota in Hi.
      rewrite An in Hi. specialize (HL Hi). unfold swp_len. change (PlasmaColumnwise =? PlasmaRowwise) with false. cbv iota. rewrite An. exact HL.
  Qed.
End Main.

Lemma zgeinv_main : forall (F : fields) (bigger : F -> F -> bool) nb ib mpt n pA lda pI bA bW (M : mem (cell F)),
  @n1 F <> n0 -> 0 < nb -> 0 < ib -> 0 < mpt -> 0 <= n -> Z.max 1 n <= lda ->
  NoDup [fst pA; fst pI; bA; bW] -> n <= 3 * nb ->
  gdriver_ensures (zgeinv bigger nb ib mpt n n pA lda pI bA bW) M (fun M' st =>
    (st = 0 ->
      is_inverse n (lul M pA lda) (lul M' pA lda) /\
      (forall t, 0 <= t < n -> t + 1 <= pivots M' pI t <= n) /\
      (forall l, ~ In (fst l) [bA; bW] -> ~ in_user pA lda n n l ->
         (forall t, 0 <= t < n -> l <> (fst pI, snd pI + t)) -> M' l = M l)) /\
    (comparison bigger -> (forall k, 0 <= k < n -> ~ column_depends n (lul M pA lda) k) -> st = 0)).
Proof.
  intros F bigger nb ib mpt n pA lda pI bA bW M N10 Hnb Hib Hmpt Hn LA ND FEW. unfold zgeinv.
  replace (n <? 0) with false by (symmetry; apply Z.ltb_ge; lia).
  replace (lda <? Z.max 1 n) with false by (symmetry; apply Z.ltb_ge; lia).
  destruct (Z.eqb_spec (Z.max n 0) 0) as [E0|E0].
  { cbn. split; [|reflexivity]. intros _. split; [intros i j [Hi Hj]; lia|]. split; [intros t Ht; lia|reflexivity]. }
  destruct (ge_create_succeeds nb n n Hnb Hn Hn) as (A & EA & _). rewrite EA. cbn [orb with_gdesc].
  destruct (ge_create_dn _ _ _ _ _ EA) as (DA & A1 & A2 & _). destruct (ge_create_gen _ _ _ _ _ EA) as (GA & A3 & A4 & _). clear EA.
  destruct (ge_create_succeeds nb n nb Hnb Hn ltac:(lia)) as (W & EW & _). rewrite EW. cbn [with_gdesc].
  destruct (ge_create_dn _ _ _ _ _ EW) as (DW & W1 & W2 & _). clear EW.
  assert (P0 : 0 < n) by lia. clear E0.
  assert (MT : d_mt A = d_nt A) by (rewrite (dn_mt nb A DA), (dn_nt nb A DA) by lia; congruence).
  assert (FT : d_mt A <= 3). { destruct (few_tiles nb A DA) as [H|H]; rewrite ?A1, ?A2 in *; try lia. }
  destruct (nd4 bA bW pI pA ND) as (N1 & N2 & N3 & N4 & N5 & N6).
  unfold omp_async_zgeinv. rewrite A1, A2. destruct (Z.eqb_spec n 0) as [?|Q0]; [lia|]. cbn [orb gdriver_ensures].
  remember (pzgeswp_mem (F := F) PlasmaColumnwise bA A pI (-1)) as SW eqn:ESW.
  remember (pzgetri_aux (F := F) bA A bW W) as AX eqn:EAX.
  remember (pztrtri (F := F) PlasmaUpper PlasmaNonUnit bA A) as TR eqn:ETR.
  remember (pzgetrf bigger bA A pI ib mpt ++ map on_ccells TR ++ map sure (map on_cells AX ++ SW)) as comp eqn:EC.
  remember (ge_opnd bA A pA lda) as oA eqn:EoA. remember (ge_opnd bW W pA lda) as oW eqn:EoW.
  assert (BA : o_b oA = bA) by (subst oA; reflexivity). assert (BW : o_b oW = bW) by (subst oW; reflexivity).
  assert (PA : o_p oA = pA) by (subst oA; reflexivity). assert (PW : o_p oW = pA) by (subst oW; reflexivity).
  match goal with |- gregion_ensures ?l _ _ =>
    replace l with (map sure (flat_map (@o_in (cell F)) [oA]) ++ comp ++ map sure (flat_map (@o_out (cell F)) [oA])) end.
  2: { cbn [flat_map]. rewrite !app_nil_r, EoA, !ge_opnd_in, !ge_opnd_out, EC, !map_app, <- !app_assoc. reflexivity. }
  destruct (pzgetrf_sound bigger nb bA A pI ib mpt GA A3 A4 ltac:(lia) ltac:(lia) Hib Hmpt N4) as [K1 K2].
  pose proof (irest_kgood (F := F) nb A W bA bW n pI GA DA DW A3 A4 A1 A2 W1 W2) as RG. rewrite <- ESW, <- EAX, <- ETR in RG.
  assert (MC : map ck_task comp = map ck_task (pzgetrf bigger bA A pI ib mpt) ++ map on_cells (map ck_task TR) ++ map on_cells AX ++ SW).
  { rewrite EC, !map_app, on_ccells_task, map_sure, map_sure. reflexivity. }
  destruct (dense_tiles nb n A PlasmaUpper DA A1 A2) as [HSA HIN].
  assert (UP : valid_uplo PlasmaUpper) by (left; reflexivity).
  pose proof (pztrtri_eq (F := F) nb n A (in_tiles A) bA PlasmaUpper PlasmaNonUnit UP DA A1 A2 HSA) as TE.
  eapply gregion_mono; [|apply (gops_region_linked2 nb [oA; oW] [oA] [oA]) with (X := ipiv_sec pI 0 n)].
  - intros M' st (M3 & H1 & H2 & H3 & H4 & H5).
    assert (ELA : forall i j, in_matrix n n i j -> lel M3 bA A i j = lul M pA lda i j).
    { intros i j [Hi Hj]. unfold lel, lul. apply f_equal. specialize (H1 oA i j (or_introl eq_refl)). rewrite BA, PA in H1. rewrite EoA in H1. apply H1.
      apply (ge_opnd_el nb); [apply DA|lia|lia]. }
    remember (krun (map ck_task (pzgetrf bigger bA A pI ib mpt)) M3) as M4 eqn:EM4.
    pose proof (outcome bigger nb bA A pI ib mpt GA A3 A4 ltac:(lia) ltac:(lia) Hib Hmpt M3 M4) as O. cbv zeta in O.
    assert (LU : lu_outcome bigger n n (lel M3 bA A) (lel M4 bA A) (pivots M4 pI) (first_code (kcodes (pzgetrf bigger bA A pI ib mpt) M3))).
    { rewrite A1, A2 in O. apply O. intros _ l. rewrite EM4. reflexivity. }
    clear O.
    apply (lu_outcome_ext F bigger n n (lel M3 bA A) (lul M pA lda) (lel M4 bA A) (lel M4 bA A) (pivots M4 pI) (pivots M4 pI)) in LU;
      [|lia|lia|intros i j Hij; symmetry; apply ELA; assumption|reflexivity|reflexivity].
    assert (KC : kcodes comp M3 = kcodes (pzgetrf bigger bA A pI ib mpt) M3 ++ kcodes TR (nums M4) ++ kcodes (map sure (map on_cells AX ++ SW)) (krun (map on_cells (map ck_task TR)) M4)).
    { rewrite EC, !kcodes_app, kcodes_on_ccells, on_ccells_task, <- EM4. reflexivity. }
    split.
    + intros Z0. destruct (H4 Z0) as (C0 & U1 & U2). rewrite KC in C0. apply Forall_app in C0. destruct C0 as [C0 _].
      pose proof (TrtriCodeProofs.first_code_all0 _ C0) as F0.
      destruct LU as (_ & LU & _). destruct (LU F0) as (FA & UR & _). clear LU.
      destruct FA as [Q1 Q2]. unfold U_regular in UR. rewrite Z.min_id in Q1, Q2, UR.
      assert (HL : legal_pivots (ipiv_rd M4 pI) n). { intros i Hi. specialize (Q1 i Hi). unfold pivots in Q1. unfold ipiv_rd. lia. }
      destruct (icomp_at nb n A W bA bW pI (ipiv_rd M4 pI) DA DW A1 A2 W1 W2 N6 N10 GA HL Hn (lul M pA lda) (lel M4 bA A) (nums M4)
        ltac:(reflexivity) UR Q2) as [INV FR].
      rewrite MC, krun_app, <- EM4 in U1, U2.
      remember (krun (map on_cells (map ck_task TR) ++ map on_cells AX ++ SW) M4) as M5 eqn:EM5.
      assert (E5 : forall l, M5 l = (krun (map ck_task (icomp A W bA bW pI (ipiv_rd M4 pI))) (nums M4) l, snd (M4 l))).
      { intros l. rewrite EM5, ESW, EAX, ETR. apply (irest_run nb A W bA bW n pI); auto. }
      clear EM5.
      assert (XA : forall i j, in_matrix n n i j -> lul M' pA lda i j = el (krun (map ck_task (icomp A W bA bW pI (ipiv_rd M4 pI))) (nums M4)) bA A i j).
      { intros i j [Hi Hj]. unfold lul. specialize (U1 oA i j (or_introl eq_refl)). rewrite BA, PA in U1. rewrite EoA in U1.
        transitivity (fst (el M5 bA A i j)); [apply f_equal; apply U1; apply (ge_opnd_el nb); [apply DA|lia|lia]|]. unfold el. rewrite E5. reflexivity. }
      split; [|split].
      * intros i j Hij. destruct (INV i j Hij) as [I1 I2]. destruct Hij as [Hi Hj]. split.
        -- rewrite <- I1. apply nsum_ext. intros l Hl. rewrite XA by (split; assumption). reflexivity.
        -- rewrite <- I2. apply nsum_ext. intros l Hl. rewrite XA by (split; assumption). reflexivity.
      * intros t Ht. replace (pivots M' pI t) with (pivots M4 pI t); [specialize (Q1 t Ht); lia|].
        symmetry. unfold pivots. rewrite U2.
        -- rewrite E5. reflexivity.
        -- intros o [<-|[]] (i & j & _ & E); apply (f_equal fst) in E; cbn in E; rewrite ?PA in E; congruence.
      * intros l L1 L2 L4. apply H5.
        -- cbn [map]. rewrite BA, BW. exact L1.
        -- intros (t & Ht & E). apply (L4 t Ht E).
        -- intros o [<-|[]] HU. rewrite EoA in HU. apply ge_opnd_user in HU. rewrite A1, A2 in HU. contradiction.
    + intros CMP NS. destruct (Z.eq_dec st 0) as [Z0|NZ]; [assumption|]. exfalso.
      destruct LU as (RGE & LU & LD). remember (first_code (kcodes (pzgetrf bigger bA A pI ib mpt) M3)) as fc eqn:EF.
      destruct (Z.eq_dec fc 0) as [F0|FN].
      * destruct (LU F0) as (_ & UR & _). unfold U_regular in UR. rewrite Z.min_id in UR.
        pose proof (guilty_code _ _ _ _ (H3 NZ)) as GC. rewrite KC in GC. rewrite EF in F0. apply first_code_none in F0. rewrite Forall_forall in F0.
        apply in_app_or in GC. destruct GC as [GC|GC]; [apply NZ; apply F0; assumption|].
        apply in_app_or in GC. destruct GC as [GC|GC]; [|apply NZ; apply (kcodes_sure0 _ _ _ _ GC)].
        remember (fun a b => nconj (lel M4 bA A b a)) as SS eqn:ESS.
        assert (PD0 : PD nb n A bA PlasmaUpper SS 0 (nums M4)).
        { intros i Hi. rewrite ESS. unfold vview. change (vlow PlasmaUpper) with false. cbv iota. reflexivity. }
        rewrite ETR, TE in GC.
        destruct (tlist_code_in nb n A (in_tiles A) bA PlasmaUpper PlasmaNonUnit UP DA A1 A2 HSA SS (nums M4) st PD0 GC NZ) as (_ & C1 & C2 & _).
        apply (UR (st - 1)); [lia|]. unfold factor_U. rewrite Z.leb_refl. rewrite ESS in C2.
        rewrite <- (nconj_conj F (lel M4 bA A (st - 1) (st - 1))), C2. apply nconj_0.
      * destruct (LD FN CMP) as (x & Hx). rewrite Z.min_id in RGE. apply (NS (fc - 1) ltac:(lia)). exists x. exact Hx.
  - intros o [<-|[<-|[]]]; [rewrite EoA|rewrite EoW]; apply ge_opnd_ok; try lia; [apply DA|apply DW].
  - intros o [<-|[]]. left. reflexivity.
  - intros o [<-|[]]. left. reflexivity.
  - cbn [map]. rewrite BA, BW. constructor; [intros [E|[]]; congruence|]. constructor; [intros []|constructor].
  - intros o o' [<-|[<-|[]]] [<-|[<-|[]]]; rewrite ?PA, ?PW, ?BA, ?BW; assumption.
  - constructor; [intros []|constructor].
  - constructor; [intros []|constructor].
  - intros o o' [<-|[]] [<-|[]]; auto.
  - intros o Ho. left. assumption.
  - rewrite MC. apply Forall_app. split; assumption.
  - rewrite EC. apply Forall_app. split; [assumption|]. apply Forall_app. split; [|apply cksound_sure].
    apply Forall_forall. intros k Hk. apply in_map_iff in Hk. destruct Hk as (k0 & <- & Hk). apply on_ccells_sound. revert k0 Hk. apply Forall_forall.
    rewrite ETR, TE. apply (tlist_sound nb n A (in_tiles A) bA PlasmaUpper PlasmaNonUnit UP DA A1 A2 HSA).
  - intros env HE HF DI DO. cbn [flat_map] in *. rewrite !app_nil_r in *. rewrite MC, ESW, ETR, EAX, EoA.
    rewrite EoA, EoW in HE. rewrite EoA in DI, DO.
    apply (iorder bigger nb A W bA bW n) with (env := env); auto.
    + apply (HE (ge_opnd bA A pA lda)). left. reflexivity.
    + apply (HE (ge_opnd bW W pA lda)). right. left. reflexivity.
  - intros k l Hk HKW. assert (IK : In (ck_task k) (map ck_task comp)) by (apply in_map; assumption). rewrite EC in Hk. cbn [map]. rewrite BA, BW.
    apply in_app_or in Hk. destruct Hk as [Hk|Hk].
    + destruct (pzgetrf_writes bigger nb bA A pI ib mpt GA A3 A4 ltac:(lia) ltac:(lia) k l Hk HKW) as [(i & j & _ & ->)|(t & Ht & ->)].
      * left. left. reflexivity.
      * right. exists t. rewrite A1, A2, Z.min_id in Ht. split; [lia|reflexivity].
    + left. assert (IR : In (ck_task k) (map on_cells (map ck_task TR) ++ map on_cells AX ++ SW)).
      { apply (in_map ck_task) in Hk. rewrite map_app, on_ccells_task, map_sure in Hk. exact Hk. }
      rewrite app_assoc in IR. apply in_app_or in IR. destruct IR as [IR|IR].
      * rewrite ETR, EAX in IR. destruct (D_writes nb A W bA bW n DA DW A1 A2 W1 W2 _ l IR HKW) as [E|E]; [left|right; left]; symmetry; exact E.
      * left. rewrite ESW in IR. symmetry. apply (pzgeswp_mem_writes PlasmaColumnwise bA A pI (-1) _ l IR HKW).
Qed.

(* the leading dimension is checked against the number of columns *)
Lemma zgeinv_lda : (exists m n lda, 0 < m /\ 0 < n /\ lda < Z.max 1 m /\
    forall (F : fields) (bigger : F -> F -> bool) ib mpt pA pI bA bW, exists ks,
      zgeinv bigger 2 ib mpt m n pA lda pI bA bW = GRuns ks) /\
  (exists m n lda, 0 < m /\ 0 < n /\ Z.max 1 m <= lda /\
    forall (F : fields) (bigger : F -> F -> bool) ib mpt pA pI bA bW,
      zgeinv bigger 2 ib mpt m n pA lda pI bA bW = GReturns (-4)).
Proof.
  split.
  - exists 3, 2, 2. split; [lia|]. split; [lia|]. split; [lia|]. intros. eexists. reflexivity.
  - exists 2, 3, 2. split; [lia|]. split; [lia|]. split; [lia|]. intros. reflexivity.
Qed.
