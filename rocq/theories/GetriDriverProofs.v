(* The routine that inverts a general matrix from its LU factors. *)
From Coq Require Import ZArith List Bool Lia Ring.
From Verif Require Import Base NumModel NumProofs FieldModel TaskModel TaskSpec TaskProofs DescModel DescSpec
  DescDriverModel DescProofs DescPackProofs DescProofs3 DescProofs4 MatModel MatSpec MatProofs RegionProofs LayoutModel LayoutProofs OpProofs SimProofs OperandProofs
  GemmModel GemmProofs TriModel TriSpec DriverModel DriverSpec PotrfModel PotrfSpec TriVecProofs TriProofs InvSpec InvProofs ViewProofs TrtriModel TrtriStepProofs
  TrtriTaskProofs TrtriCodeProofs TrtriProofs TrtriDriverProofs GetrfSpec SwpModel SwpSpec SwpProofs GuardModel GuardSpec
  GuardProofs GuardProofs2 GuardAnyProofs GOperandProofs GAnyProofs GLinkedProofs SwpDriverProofs GetrsProofs GetriModel GetriAuxProofs GetriLinkProofs InvDriverProofs InvDriverProofs2 GetriProofs.
Import ListNotations.
Open Scope Z_scope.

Section Comp.
  Context {F : fields}.
  Add Ring num_ring_getric : (nring F).
  Variables (nb n : Z) (A W : desc) (bA bW : Z) (pI : loc) (ipiv : Z -> Z).
  Hypotheses (HA : dn nb A) (HW : dn nb W).
  Hypotheses (Am : d_m A = n) (An : d_n A = n) (Wm : d_m W = n) (Wn : d_n W = nb).
  Hypothesis NW : bA <> bW.
  Hypothesis N10 : @n1 F <> n0.
  Hypothesis GA : gen_ok A.
  Hypothesis HL : legal_pivots ipiv n.
  Hypothesis Hn : 0 <= n.

  Let UP : valid_uplo PlasmaUpper := or_introl eq_refl.
  Definition icomp : list (cktask F) :=
    pztrtri PlasmaUpper PlasmaNonUnit bA A
    ++ map sure (pzgetri_aux bA A bW W ++ pzgeswp PlasmaColumnwise bA A pI ipiv (-1)).
  Let sw := interchanges ipiv (Z.to_nat n).

  Let HL' : legal_pivots ipiv (swp_len A PlasmaColumnwise).
  Proof. unfold swp_len. change (PlasmaColumnwise =? PlasmaRowwise) with false. cbv iota. rewrite An. assumption. Qed.
  Let HX : -1 = 1 \/ -1 = -1 := or_intror eq_refl.
  Let HC : valid_colrow PlasmaColumnwise := or_introl eq_refl.

  Lemma i_swaps : swaps_in n sw.
  Proof. unfold sw. apply interchanges_in; assumption. Qed.
  Lemma i_swaps_rev : swaps_in n (rev sw).
  Proof.
    pose proof i_swaps as H. unfold swaps_in in *. rewrite Forall_forall in *. intros p Hp. apply H. apply in_rev. assumption.
  Qed.

  Lemma icomp_at : forall (A0 S : Z -> Z -> F) M,
    (forall i j, 0 <= i < n -> 0 <= j < n -> el M bA A i j = S i j) ->
    (forall i, 0 <= i < n -> factor_U S i i <> n0) ->
    (forall i j, in_matrix n n i j -> A0 (source sw i) j = nsum (fun l => nmul (factor_L S i l) (factor_U S l j)) 0 n) ->
    let M' := krun (map ck_task icomp) M in
    is_inverse n A0 (fun i j => el M' bA A i j) /\
    (forall l, fst l <> bA -> fst l <> bW -> M' l = M l).
  Proof.
    intros A0 S M HS HD HF. cbv zeta. unfold icomp. rewrite map_app, map_sure, !krun_app.
    destruct (trtri_at nb n A bA HA Am An S M HS HD) as [T1 T2].
    remember (krun (map ck_task (pztrtri PlasmaUpper PlasmaNonUnit bA A)) M) as M1 eqn:E1.
    destruct (aux_at nb n A W bA bW HA HW Am An Wm Wn NW N10 M1 (el M1 bA A) (el M1 bW W) M1) as (X & Y & (S1 & S2 & S3) & S4).
    { split; [reflexivity|]. split; reflexivity. }
    remember (krun (pzgetri_aux bA A bW W) M1) as M2 eqn:E2.
    assert (OT : forall l, fst l <> bA -> fst l <> bW ->
      krun (pzgeswp PlasmaColumnwise bA A pI ipiv (-1)) M2 l = M l).
    { intros l H1 H2. rewrite (pzgeswp_other nb) by (try assumption; apply HA). rewrite S3, T2 by assumption. reflexivity. }
    split; [|exact OT].
    assert (EL : forall i j, 0 <= i < n -> 0 <= j < n ->
      el (krun (pzgeswp PlasmaColumnwise bA A pI ipiv (-1)) M2) bA A i j = X i (source (rev sw) j)).
    { intros i j Hi Hj. rewrite (pzgeswp_el nb); try assumption; try apply HA; [|rewrite Am; assumption|rewrite An; assumption].
      unfold swp_src. change (PlasmaColumnwise =? PlasmaRowwise) with false. cbn [fst snd]. cbv iota.
      rewrite An, swp_list_bwd by assumption. apply S1; [assumption|]. fold sw.
      apply (source_range n); [apply i_swaps_rev|assumption]. }
    destruct (L_inv n S N10) as (K & HK).
    assert (INV : is_inverse n A0 (fun i j => X i (source (rev sw) j))).
    { apply (getri_math n (source sw) (source (rev sw)) A0 (factor_L S) (factor_U S) (Vof n S) K X).
      - intros i Hi. apply (source_range n); [apply i_swaps|assumption].
      - intros i Hi. apply (source_range n); [apply i_swaps_rev|assumption].
      - intros i. rewrite <- (rev_involutive sw) at 2. apply source_rev.
      - intros i. apply source_rev.
      - intros i j Hi Hj. apply HF. split; assumption.
      - apply V_right. assumption.
      - apply V_left. assumption.
      - exact HK.
      - intros i j Hi Hj. specialize (S4 i j Hi Hj).
        transitivity (nsum (fun l => nmul (X i l) (factor_L (el M1 bA A) l j)) 0 n).
        + apply nsum_ext. intros l Hl. apply f_equal. unfold factor_L. destruct (l =? j); [reflexivity|].
          destruct (Z.ltb_spec j l) as [LT|]; [|reflexivity]. rewrite T1 by assumption.
          replace (l <=? j) with false by (symmetry; apply Z.leb_gt; lia). reflexivity.
        + rewrite S4. destruct (Z.ltb_spec j i) as [LT|GE].
          * symmetry. apply V_low; [assumption|lia|lia].
          * rewrite T1 by assumption. replace (i <=? j) with true by (symmetry; apply Z.leb_le; lia). reflexivity. }
    intros i j Hij. destruct (INV i j Hij) as [I1 I2]. destruct Hij as [Hi Hj]. split.
    - rewrite <- I1. apply nsum_ext. intros l Hl. rewrite EL by assumption. reflexivity.
    - rewrite <- I2. apply nsum_ext. intros l Hl. rewrite EL by assumption. reflexivity.
  Qed.

  Let HSA := proj1 (dense_tiles nb n A PlasmaUpper HA Am An).

  Lemma icomp_kgood : Forall kgood (map ck_task icomp).
  Proof.
    unfold icomp. rewrite map_app, map_sure, !Forall_app. split; [|split].
    - rewrite (pztrtri_eq nb n A (in_tiles A) bA PlasmaUpper PlasmaNonUnit UP HA Am An HSA).
      apply (tlist_kgood nb n A (in_tiles A) bA PlasmaUpper PlasmaNonUnit UP HA Am An HSA).
    - apply (aux_kgood nb n A W bA bW HA HW Am An Wm Wn).
    - apply (pzgeswp_kgood nb); try assumption; apply HA.
  Qed.
  Lemma icomp_sound : Forall cksound icomp.
  Proof.
    unfold icomp. rewrite Forall_app. split; [|apply cksound_sure].
    rewrite (pztrtri_eq nb n A (in_tiles A) bA PlasmaUpper PlasmaNonUnit UP HA Am An HSA).
    apply (tlist_sound nb n A (in_tiles A) bA PlasmaUpper PlasmaNonUnit UP HA Am An HSA).
  Qed.
  Lemma icomp_linked : forall env (xs ys : list (ktask F)),
    In (bA, homeD A (in_tiles A)) env -> In (bW, homeD W (in_tiles W)) env -> functional (home_env env) ->
    Forall (kdecl (home_env env)) xs -> Forall (kdecl (home_env env)) ys -> klinked (xs ++ map ck_task icomp ++ ys).
  Proof.
    intros env xs ys EA EW HF DX DY. unfold icomp. rewrite map_app, map_sure, <- !app_assoc.
    rewrite (app_assoc xs), (app_assoc (xs ++ _)).
    apply (getri_linked nb n A W bA bW HA HW Am An Wm Wn NW GA env); try assumption.
    apply Forall_app. split; [assumption|].
    rewrite (pztrtri_eq nb n A (in_tiles A) bA PlasmaUpper PlasmaNonUnit UP HA Am An HSA).
    apply (tlist_kdecl nb n A (in_tiles A) bA PlasmaUpper PlasmaNonUnit UP HA Am An HSA). assumption.
  Qed.
  Lemma icomp_writes : forall k l, In k icomp -> k_writes (ck_task k) l -> fst l = bA \/ fst l = bW.
  Proof.
    intros k l Hk HKW. unfold icomp in Hk. rewrite in_app_iff in Hk. destruct Hk as [Hk|Hk].
    - left. rewrite (pztrtri_eq nb n A (in_tiles A) bA PlasmaUpper PlasmaNonUnit UP HA Am An HSA) in Hk.
      revert Hk HKW. apply tlist_writes.
    - apply in_map_iff in Hk. destruct Hk as (x & <- & Hx). cbn [sure ck_task] in HKW. apply in_app_or in Hx.
      destruct Hx as [Hx|Hx]; [apply (aux_writes nb n A W bA bW HA Am An x l Hx HKW)|]. left.
      unfold pzgeswp in Hx. change (PlasmaColumnwise =? PlasmaRowwise) with false in Hx. cbv iota in Hx.
      apply in_flat_map in Hx. destruct Hx as (m & _ & Hx). rewrite !in_app_iff in Hx. destruct Hx as [Hx|[[<-|[]]|Hx]].
      + apply in_map_iff in Hx. destruct Hx as (q & <- & _). destruct HKW.
      + destruct HKW as (q & _ & R). apply reg_block in R. exact R.
      + apply in_map_iff in Hx. destruct Hx as (q & <- & _). destruct HKW.
  Qed.
End Comp.

Section Driver.
  Context {F : fields}.
  Add Ring num_ring_getrid : (nring F).

  Lemma zgetri_main : forall (A0 : Z -> Z -> F) nb n pA lda pI ipiv bA bW M, @n1 F <> n0 ->
    0 < nb -> 0 <= n -> Z.max 1 n <= lda -> bA <> bW -> fst pA <> bA -> fst pA <> bW -> legal_pivots ipiv n ->
    (forall i j, in_matrix n n i j ->
       A0 (source (interchanges ipiv (Z.to_nat n)) i) j
       = nsum (fun l => nmul (factor_L (ul M pA lda) i l) (factor_U (ul M pA lda) l j)) 0 n) ->
    gdriver_ensures (zgetri nb n pA lda pI ipiv bA bW) M (fun M' st =>
      (st = 0 <-> forall i, 0 <= i < n -> factor_U (ul M pA lda) i i <> n0) /\
      (st = 0 -> is_inverse n A0 (ul M' pA lda)) /\
      (st <> 0 -> 0 < st <= n /\ factor_U (ul M pA lda) (st - 1) (st - 1) = n0 /\
        forall i, (st - 1) / nb * nb <= i < st - 1 -> factor_U (ul M pA lda) i i <> n0) /\
      (forall l, fst l <> bA -> fst l <> bW -> ~ in_user pA lda n n l -> M' l = M l)).
  Proof.
    intros A0 nb n pA lda pI ipiv bA bW M N10 Hb Hn HL NW PA PW HP HF. unfold zgetri.
    replace (n <? 0) with false by (symmetry; apply Z.ltb_ge; lia).
    replace (lda <? Z.max 1 n) with false by (symmetry; apply Z.ltb_ge; lia).
    destruct (Z.eqb_spec (Z.max n 0) 0) as [E0|E0].
    { cbn. assert (n = 0) as -> by lia. split; [split; [intros; lia|reflexivity]|]. split; [|split; [|auto]].
      - intros _ i j [Hi _]; lia.
      - intros H. exfalso. apply H. reflexivity. }
    destruct (ge_create_succeeds nb n n Hb ltac:(lia) ltac:(lia)) as (A & EA & _). rewrite EA. cbn [with_gdesc].
    destruct (ge_create_dn _ _ _ _ _ EA) as (HA & Am & An & _).
    destruct (ge_create_gen _ _ _ _ _ EA) as (GA & _). clear EA.
    destruct (ge_create_succeeds nb n nb Hb ltac:(lia) ltac:(lia)) as (W & EW & _). rewrite EW. cbn [with_gdesc].
    destruct (ge_create_dn _ _ _ _ _ EW) as (HW & Wm & Wn & _). clear EW.
    replace (d_n A =? 0) with false by (symmetry; apply Z.eqb_neq; lia).
    fold (icomp A W bA bW pI ipiv (F := F)).
    rewrite <- (ge_opnd_in F bA A pA lda), <- (ge_opnd_out F bA A pA lda).
    assert (OA : ook nb (ge_opnd bA A pA lda)) by (apply ge_opnd_ok; [exact HA|lia]).
    assert (OW : ook nb (ge_opnd bW W pA lda)) by (apply ge_opnd_ok; [exact HW|lia]).
    remember (ge_opnd bA A pA lda) as oA eqn:EoA. remember (ge_opnd bW W pA lda) as oW eqn:EoW.
    replace (o_in oA) with (flat_map (o_in (V := F)) [oA]) by (cbn; apply app_nil_r).
    replace (o_out oA) with (flat_map (o_out (V := F)) [oA]) by (cbn; apply app_nil_r).
    assert (BA : o_b oA = bA) by (subst oA; reflexivity). assert (BW : o_b oW = bW) by (subst oW; reflexivity).
    eapply gregion_mono2; [|apply (gops_region_linked nb [oA; oW] [oA] [oA])].
    - intros M' st (M3 & H1 & H2 & H3 & H4 & H5).
      assert (OE : forall i j, 0 <= i < n -> 0 <= j < n -> o_el oA i j).
      { intros i j Hi Hj. subst oA. apply (ge_opnd_el nb); auto; rewrite ?Am, ?An; assumption. }
      assert (EL : forall i j, 0 <= i < n -> 0 <= j < n -> el M3 bA A i j = ul M pA lda i j).
      { intros i j Hi Hj. specialize (H1 oA i j (or_introl eq_refl) (OE i j Hi Hj)). subst oA. exact H1. }
      assert (FR : forall l, fst l <> bA -> fst l <> bW -> ~ in_user pA lda n n l -> M' l = M l).
      { intros l L1 L2 HN. apply H5.
        - cbn [map]. rewrite BA, BW. intros [E|[E|[]]]; congruence.
        - intros o [<-|[]] HO. apply HN. subst oA. apply ge_opnd_user in HO. rewrite Am, An in HO. exact HO. }
      destruct (dense_tiles nb n A PlasmaUpper HA Am An) as [HSA HIN].
      assert (UP : valid_uplo PlasmaUpper) by (left; reflexivity).
      remember (fun a b => nconj (ul M pA lda b a)) as SS eqn:ESS.
      assert (PD0 : PD nb n A bA PlasmaUpper SS 0 M3).
      { intros i Hi. rewrite ESS. unfold vview. change (vlow PlasmaUpper) with false. cbv iota. apply f_equal. apply EL; lia. }
      assert (SD : forall i, factor_U (ul M pA lda) i i = n0 <-> SS i i = n0).
      { intros i. rewrite ESS. unfold factor_U. rewrite Z.leb_refl. split; intros E.
        - rewrite E. apply nconj_0.
        - rewrite <- (nconj_conj F (ul M pA lda i i)), E. apply nconj_0. }
      pose proof (pztrtri_eq (F := F) nb n A (in_tiles A) bA PlasmaUpper PlasmaNonUnit UP HA Am An HSA) as TE.
      assert (GC : st <> 0 -> 0 < st <= n /\ SS (st - 1) (st - 1) = n0 /\
        forall i, (st - 1) / nb * nb <= i < st - 1 -> SS i i <> n0).
      { intros NZ. pose proof (guilty_code _ _ _ _ (H3 NZ)) as GC. unfold icomp in GC. rewrite kcodes_app in GC.
        apply in_app_or in GC. destruct GC as [GC|GC]; [|exfalso; apply NZ; apply (kcodes_sure0 _ _ _ _ GC)].
        rewrite TE in GC.
        destruct (tlist_code_in nb n A (in_tiles A) bA PlasmaUpper PlasmaNonUnit UP HA Am An HSA SS M3 st PD0 GC NZ) as (_ & C1 & C2 & C3).
        auto. }
      assert (ST0 : st = 0 <-> forall i, 0 <= i < n -> factor_U (ul M pA lda) i i <> n0).
      { split.
        - intros Z0 i Hi. rewrite SD. destruct (H4 Z0) as (K & _). unfold icomp in K.
          apply kcodes_all0 in K. destruct K as [K _]. rewrite TE in K.
          apply (tlist_codes0 nb n A (in_tiles A) bA PlasmaUpper PlasmaNonUnit UP HA Am An HSA SS M3 PD0 K ltac:(discriminate) i Hi).
        - intros HN. destruct (Z.eq_dec st 0) as [|NZ]; [assumption|]. exfalso.
          destruct (GC NZ) as (C1 & C2 & _). apply (HN (st - 1)); [lia|]. apply SD. assumption. }
      split; [exact ST0|]. split; [|split; [|exact FR]].
      + intros Z0. pose proof (proj1 ST0 Z0) as HN. destruct (H4 Z0) as (_ & H6 & _).
        destruct (icomp_at nb n A W bA bW pI ipiv HA HW Am An Wm Wn NW N10 GA HP Hn A0 (ul M pA lda) M3 EL HN HF) as [INV _].
        intros i j Hij. destruct (INV i j Hij) as [I1 I2]. destruct Hij as [Hi Hj].
        assert (U : forall i j, 0 <= i < n -> 0 <= j < n ->
          ul M' pA lda i j = el (krun (map ck_task (icomp A W bA bW pI ipiv)) M3) bA A i j).
        { intros r c Hr Hc. specialize (H6 oA r c (or_introl eq_refl) (OE r c Hr Hc)). subst oA. exact H6. }
        split.
        * rewrite <- I1. apply nsum_ext. intros l Hl. rewrite U by assumption. reflexivity.
        * rewrite <- I2. apply nsum_ext. intros l Hl. rewrite U by assumption. reflexivity.
      + intros NZ. destruct (GC NZ) as (C1 & C2 & C3). split; [assumption|]. split; [apply SD; assumption|].
        intros i Hi. rewrite SD. apply C3. assumption.
    - intros o [<-|[<-|[]]]; assumption.
    - intros o [<-|[]]. left. reflexivity.
    - intros o [<-|[]]. left. reflexivity.
    - cbn [map]. rewrite BA, BW. constructor; [intros [E|[]]; congruence|]. constructor; [intros []|constructor].
    - assert (P1 : o_p oA = pA) by (subst oA; reflexivity). assert (P2 : o_p oW = pA) by (subst oW; reflexivity).
      intros o o' [<-|[<-|[]]] [<-|[<-|[]]]; rewrite ?P1, ?P2, ?BA, ?BW; assumption.
    - constructor; [intros []|constructor].
    - constructor; [intros []|constructor].
    - intros o o' [<-|[]] [<-|[]]. left. reflexivity.
    - intros o Ho. left. assumption.
    - apply (icomp_kgood nb n A W bA bW pI ipiv HA HW Am An Wm Wn GA HP).
    - apply (icomp_sound nb n A W bA bW pI ipiv HA Am An).
    - intros env xs ys HE HFu DX DY.
      apply (icomp_linked nb n A W bA bW pI ipiv HA HW Am An Wm Wn NW GA env); try assumption.
      + specialize (HE oA (or_introl eq_refl)). subst oA. exact HE.
      + specialize (HE oW (or_intror (or_introl eq_refl))). subst oW. exact HE.
    - intros k l Hk HW'. cbn [map]. rewrite BA, BW.
      destruct (icomp_writes nb n A W bA bW pI ipiv HA Am An k l Hk HW') as [E|E]; rewrite E; [left|right; left]; reflexivity.
  Qed.

  Lemma zgetri_aux_main : forall (U : Z -> Z -> F) nb n pA lda bA bW M, @n1 F <> n0 ->
    0 < nb -> 0 <= n -> Z.max 1 n <= lda -> bA <> bW -> fst pA <> bA -> fst pA <> bW ->
    is_inverse n U (factor_U (ul M pA lda)) ->
    driver_ensures (zgetri_aux nb n pA lda bA bW) M (fun M' =>
      is_inverse n (fun i j => nsum (fun l => nmul (factor_L (ul M pA lda) i l) (U l j)) 0 n) (ul M' pA lda) /\
      (forall l, fst l <> bA -> fst l <> bW -> ~ in_user pA lda n n l -> M' l = M l)).
  Proof.
    intros U nb n pA lda bA bW M N10 Hb Hn HL NW PA PW HU. unfold zgetri_aux.
    replace (n <? 0) with false by (symmetry; apply Z.ltb_ge; lia).
    replace (lda <? Z.max 1 n) with false by (symmetry; apply Z.ltb_ge; lia).
    destruct (Z.eqb_spec n 0) as [E0|E0].
    { cbn. subst n. split; [reflexivity|]. split; [|auto]. intros i j [Hi _]; lia. }
    destruct (ge_create_succeeds nb n n Hb ltac:(lia) ltac:(lia)) as (A & EA & _). rewrite EA. cbn [with_desc].
    destruct (ge_create_dn _ _ _ _ _ EA) as (HA & Am & An & _). clear EA.
    destruct (ge_create_succeeds nb n nb Hb ltac:(lia) ltac:(lia)) as (W & EW & _). rewrite EW. cbn [with_desc].
    destruct (ge_create_dn _ _ _ _ _ EW) as (HW & Wm & Wn & _). clear EW.
    replace (d_n A =? 0) with false by (symmetry; apply Z.eqb_neq; lia).
    rewrite <- (ge_opnd_in F bA A pA lda), <- (ge_opnd_out F bA A pA lda).
    assert (OA : ook nb (ge_opnd bA A pA lda)) by (apply ge_opnd_ok; [exact HA|lia]).
    assert (OW : ook nb (ge_opnd bW W pA lda)) by (apply ge_opnd_ok; [exact HW|lia]).
    remember (ge_opnd bA A pA lda) as oA eqn:EoA. remember (ge_opnd bW W pA lda) as oW eqn:EoW.
    replace (o_in oA) with (flat_map (o_in (V := F)) [oA]) by (cbn; apply app_nil_r).
    replace (o_out oA) with (flat_map (o_out (V := F)) [oA]) by (cbn; apply app_nil_r).
    assert (BA : o_b oA = bA) by (subst oA; reflexivity). assert (BW : o_b oW = bW) by (subst oW; reflexivity).
    eapply region_mono; [|apply (ops_region nb [oA; oW] [oA] [oA])].
    - intros M' (M3 & H1 & H2 & H3 & H4).
      assert (OE : forall i j, 0 <= i < n -> 0 <= j < n -> o_el oA i j).
      { intros i j Hi Hj. subst oA. apply (ge_opnd_el nb); auto; rewrite ?Am, ?An; assumption. }
      assert (EL : forall i j, 0 <= i < n -> 0 <= j < n -> el M3 bA A i j = ul M pA lda i j).
      { intros i j Hi Hj. specialize (H1 oA i j (or_introl eq_refl) (OE i j Hi Hj)). subst oA. exact H1. }
      destruct (aux_at nb n A W bA bW HA HW Am An Wm Wn NW N10 M3 (ul M pA lda) (el M3 bW W) M3) as (X & Y & (S1 & S2 & S3) & S4).
      { split; [exact EL|]. split; reflexivity. }
      split.
      + destruct (L_inv n (ul M pA lda) N10) as (K & HK).
        assert (INV : is_inverse n (mm n (factor_L (ul M pA lda)) U) (fun i j => X i j)).
        { apply (getri_math n (fun i => i) (fun i => i) (mm n (factor_L (ul M pA lda)) U) (factor_L (ul M pA lda)) U
            (factor_U (ul M pA lda)) K X); auto.
          - intros i j Hi Hj. apply (HU i j). split; assumption.
          - intros i j Hi Hj. apply (HU i j). split; assumption.
          - intros i j Hi Hj. unfold mm. rewrite S4 by assumption. unfold factor_U.
            destruct (Z.ltb_spec j i); [replace (i <=? j) with false by (symmetry; apply Z.leb_gt; lia)
              |replace (i <=? j) with true by (symmetry; apply Z.leb_le; lia)]; reflexivity. }
        assert (UU : forall i j, 0 <= i < n -> 0 <= j < n -> ul M' pA lda i j = X i j).
        { intros r c Hr Hc. specialize (H3 oA r c (or_introl eq_refl) (OE r c Hr Hc)). rewrite EoA in H3.
          rewrite <- (S1 r c Hr Hc). exact H3. }
        intros i j Hij. destruct (INV i j Hij) as [I1 I2]. destruct Hij as [Hi Hj]. split.
        * rewrite <- I1. apply nsum_ext. intros l Hl. rewrite UU by assumption. reflexivity.
        * rewrite <- I2. apply nsum_ext. intros l Hl. rewrite UU by assumption. reflexivity.
      + intros l L1 L2 HN. rewrite H4.
        * rewrite S3 by assumption. apply H2. intros o [<-|[]]. rewrite BA. assumption.
        * intros o [<-|[]] HO. apply HN. subst oA. apply ge_opnd_user in HO. rewrite Am, An in HO. exact HO.
    - intros o [<-|[<-|[]]]; assumption.
    - intros o [<-|[]]. left. reflexivity.
    - intros o [<-|[]]. left. reflexivity.
    - cbn [map]. rewrite BA, BW. constructor; [intros [E|[]]; congruence|]. constructor; [intros []|constructor].
    - assert (P1 : o_p oA = pA) by (subst oA; reflexivity). assert (P2 : o_p oW = pA) by (subst oW; reflexivity).
      intros o o' [<-|[<-|[]]] [<-|[<-|[]]]; rewrite ?P1, ?P2, ?BA, ?BW; assumption.
    - constructor; [intros []|constructor].
    - constructor; [intros []|constructor].
    - intros o o' [<-|[]] [<-|[]]. left. reflexivity.
    - intros o Ho. left. assumption.
    - apply (aux_kgood nb n A W bA bW HA HW Am An Wm Wn).
    - intros env HE. apply (aux_kdecl nb n A W bA bW HA HW Am An Wm Wn).
      + specialize (HE oA (or_introl eq_refl)). subst oA. exact HE.
      + specialize (HE oW (or_intror (or_introl eq_refl))). subst oW. exact HE.
  Qed.
End Driver.
