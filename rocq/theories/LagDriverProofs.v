(* The conversion routines as the user calls them. *)
From Coq Require Import ZArith List Bool Lia.
From Verif Require Import Base NumModel NumProofs FieldModel TaskModel TaskSpec TaskProofs DescModel DescSpec
  DescDriverModel DescProofs DescProofs3 DescProofs4 MatModel MatSpec MatProofs RegionProofs
  GuardModel GuardSpec GuardProofs GuardProofs2 GuardAnyProofs GuardTraceProofs
  LayoutModel LayoutProofs LayoutProofs2 DriverModel DriverSpec OpProofs SimProofs OperandProofs GOperandProofs GAnyProofs
  GTraceProofs GemmModel GemmProofs GemmDriverProofs RankProofs RankDriverProofs EwModel EwProofs
  EwDriverProofs PotrfModel PotrfSpec PotrfDriverProofs LagModel LagProofs.
Import ListNotations.
Open Scope Z_scope.

(* a computation whose tasks touch whole tiles is ordered among them and with what surrounds it *)
Lemma kdecl_klinked3 : forall V env (xs ks ys : list (ktask V)), functional (home_env env) ->
  Forall (kdecl (home_env env)) xs -> Forall (kdecl (home_env env)) ks -> Forall (kdecl (home_env env)) ys ->
  klinked (xs ++ ks ++ ys).
Proof.
  intros V env xs ks ys HF H1 H2 H3. apply korders_klinked. apply (kdecl_korders V (home_env env)); [assumption|].
  rewrite !Forall_app. auto.
Qed.

Lemma zlag2c_main : forall (V : Type) (narrow : V -> V) (fits : V -> bool) nb m n pA lda pS ldas bA bS (M : mem V),
  0 < nb -> 0 <= m -> 0 <= n -> Z.max 1 m <= lda -> Z.max 1 m <= ldas -> NoDup [bA; bS] ->
  (forall b, In b [fst pA; fst pS] -> ~ In b [bA; bS]) -> apart pA lda m n pS ldas m n ->
  gdriver_ensures (zlag2c narrow fits nb m n pA lda pS ldas bA bS) M (fun M' st =>
    (st = 0 \/ st = 1) /\
    (st = 0 <-> forall i j, in_matrix m n i j -> fits (ul M pA lda i j) = true) /\
    (st = 0 -> forall i j, in_matrix m n i j -> ul M' pS ldas i j = narrow (ul M pA lda i j)) /\
    (forall i j, in_matrix m n i j ->
       ul M' pS ldas i j = ul M pS ldas i j \/ ul M' pS ldas i j = narrow (ul M pA lda i j)) /\
    (forall i j, in_matrix m n i j -> ul M' pA lda i j = ul M pA lda i j) /\
    (forall l, ~ In (fst l) [bA; bS] -> ~ in_user pS ldas m n l -> M' l = M l)).
Proof.
  intros V narrow fits nb m n pA lda pS ldas bA bS M Hnb Hm Hn Hlda Hldas HND HFR AP.
  unfold zlag2c.
  replace (m <? 0) with false by (symmetry; apply Z.ltb_ge; lia).
  replace (n <? 0) with false by (symmetry; apply Z.ltb_ge; lia).
  replace (lda <? Z.max 1 m) with false by (symmetry; apply Z.ltb_ge; lia).
  replace (ldas <? Z.max 1 m) with false by (symmetry; apply Z.ltb_ge; lia).
  destruct (Z.eqb_spec (Z.min n m) 0) as [Q|Q].
  { assert (NE : forall i j, ~ in_matrix m n i j) by (intros i j [Hi Hj]; lia).
    split; [left; reflexivity|]. split; [split; [intros _ i j H; exfalso; eapply NE; eauto|reflexivity]|].
    split; [intros _ i j H; exfalso; eapply NE; eauto|]. split; [intros i j H; exfalso; eapply NE; eauto|].
    split; [intros i j H; exfalso; eapply NE; eauto|]. reflexivity. }
  destruct (ge_create_succeeds nb m n Hnb Hm Hn) as (A & EA & _). rewrite EA.
  cbn [with_gdesc gdriver_ensures].
  destruct (ge_create_dn _ _ _ _ _ EA) as (DA & A1 & A2 & _). clear EA.
  assert (NE : bA <> bS) by (inversion_clear HND as [|? ? N1 N2]; cbn in N1; intuition).
  assert (F1 := HFR (fst pA)). assert (F2 := HFR (fst pS)). cbn in F1, F2.
  remember (ge_opnd bA A pA lda) as oA eqn:EoA. remember (ge_opnd bS A pS ldas) as oS eqn:EoS.
  assert (AP' : apart pS ldas m n pA lda m n) by (intros l H1 H2; exact (AP l H2 H1)).
  assert (NO : oA <> oS).
  { intros E. apply (f_equal o_b) in E. rewrite EoA, EoS in E. cbn in E. contradiction. }
  assert (ND2 : NoDup [oA; oS]).
  { constructor; [cbn; intros [E|[]]; congruence|]. constructor; [intros []|constructor]. }
  assert (B1 : o_b oA = bA) by (rewrite EoA; reflexivity). assert (B2 : o_b oS = bS) by (rewrite EoS; reflexivity).
  assert (P1 : o_p oA = pA) by (rewrite EoA; reflexivity). assert (P2 : o_p oS = pS) by (rewrite EoS; reflexivity).
  assert (C1 : o_A oA = A) by (rewrite EoA; reflexivity). assert (C2 : o_A oS = A) by (rewrite EoS; reflexivity).
  assert (L1 : o_ld oA = lda) by (rewrite EoA; reflexivity). assert (L2 : o_ld oS = ldas) by (rewrite EoS; reflexivity).
  assert (AO : forall o o', In o [oA; oS] -> In o' [oA; oS] -> o = o' \/ oapart o o').
  { intros o o' [<-|[<-|[]]] [<-|[<-|[]]]; auto; right; intros l HU HO.
    - rewrite P1, L1, C1, A1, A2 in HU. rewrite EoS in HO. apply ge_opnd_user in HO. rewrite A1, A2 in HO. exact (AP l HU HO).
    - rewrite P2, L2, C2, A1, A2 in HU. rewrite EoA in HO. apply ge_opnd_user in HO. rewrite A1, A2 in HO. exact (AP' l HU HO). }
  assert (EL : forall i j, 0 <= i < m -> 0 <= j < n -> o_el oA i j /\ o_el oS i j).
  { intros i j Hi Hj. rewrite EoA, EoS. split; apply (ge_opnd_el nb); auto; rewrite ?A1, ?A2; assumption. }
  assert (ET : map sure (pzge2desc pA lda bA A) ++ map sure (pzge2desc pS ldas bS A) ++ pzlag2c narrow fits bA A bS A
      ++ map sure (pzdesc2ge bA A pA lda) ++ map sure (pzdesc2ge bS A pS ldas)
    = map sure (flat_map o_in [oA; oS]) ++ pzlag2c narrow fits bA A bS A ++ map sure (flat_map o_out [oA; oS])).
  { cbn [flat_map]. rewrite EoA, EoS, !ge_opnd_in, !ge_opnd_out, !app_nil_r, !map_app, <- !app_assoc. reflexivity. }
  rewrite ET. clear ET.
  eapply gregion_mono; [|apply (gops_region_trace nb [oA; oS] [oA; oS] [oA; oS])]; auto using incl_refl.
  - intros M' st (M3 & H1 & H2 & H3 & H4 & H5 & H6).
    assert (V1 : forall i j, 0 <= i < m -> 0 <= j < n -> el M3 bA A i j = ul M pA lda i j).
    { intros i j Hi Hj. rewrite <- B1, <- C1, <- P1, <- L1. apply H1; [left; reflexivity|]. apply EL; assumption. }
    assert (V2 : forall i j, 0 <= i < m -> 0 <= j < n -> el M3 bS A i j = ul M pS ldas i j).
    { intros i j Hi Hj. rewrite <- B2, <- C2, <- P2, <- L2. apply H1; [right; left; reflexivity|]. apply EL; assumption. }
    assert (W1 : forall i j, el (krun (map ck_task (pzlag2c narrow fits bA A bS A)) M3) bA A i j = el M3 bA A i j).
    { intros i j. unfold el. apply pzlag2c_frame. cbn. assumption. }
    assert (S0 : st = 0 -> forall i j, in_matrix m n i j -> fits (ul M pA lda i j) = true).
    { intros Z0 i j [Hi Hj]. destruct (H4 Z0) as (K & _). rewrite <- V1 by assumption.
      apply (pzlag2c_codes narrow fits nb A bA bS DA NE M3 K); rewrite ?A1, ?A2; assumption. }
    assert (S1 : st <> 0 -> st = 1 /\ ~ forall i j, in_matrix m n i j -> fits (ul M pA lda i j) = true).
    { intros NZ. destruct (pzlag2c_guilty narrow fits nb A bA bS DA NE M3 st NZ (H3 NZ)) as (-> & i & j & Hi & Hj & EF).
      split; [reflexivity|]. intros H. rewrite A1 in Hi. rewrite A2 in Hj. rewrite V1 in EF by assumption.
      rewrite H in EF; [discriminate EF|]. split; assumption. }
    split; [|split; [|split; [|split; [|split]]]].
    + destruct (Z.eq_dec st 0) as [Z0|Z0]; [auto|]. right. apply S1. assumption.
    + split; [exact S0|]. intros H. destruct (Z.eq_dec st 0) as [Z0|Z0]; [assumption|]. exfalso. apply (S1 Z0). exact H.
    + intros Z0 i j [Hi Hj]. destruct (H4 Z0) as (_ & O & _).
      specialize (O oS i j (or_intror (or_introl eq_refl)) (proj2 (EL i j Hi Hj))). rewrite P2, L2, B2, C2 in O. rewrite O.
      rewrite (pzlag2c_at narrow fits nb A bA bS DA NE M3 i j) by (rewrite ?A1, ?A2; assumption).
      rewrite (lagv_ok narrow fits nb A bA bS DA M3 i j); rewrite ?A1, ?A2; try assumption.
      * rewrite V1 by assumption. reflexivity.
      * intros i' j' Hi' Hj'. rewrite V1 by assumption. apply S0; [assumption|split; assumption].
    + intros i j [Hi Hj]. destruct (H6 oS i j (or_intror (or_introl eq_refl)) (proj2 (EL i j Hi Hj))) as [O|[O _]];
        rewrite P2, L2 in O; [left; exact O|].
      rewrite B2, C2, (pzlag2c_at narrow fits nb A bA bS DA NE M3 i j) in O by (rewrite ?A1, ?A2; assumption).
      unfold lagv in O. destruct (lag_reaches _ _ _ _ _ _ _); rewrite O.
      * right. rewrite V1 by assumption. reflexivity.
      * left. apply V2; assumption.
    + intros i j [Hi Hj]. destruct (H6 oA i j (or_introl eq_refl) (proj1 (EL i j Hi Hj))) as [O|[O _]];
        rewrite P1, L1 in O; [exact O|].
      rewrite B1, C1, W1 in O. rewrite O. apply V1; assumption.
    + intros l Hl HU.
      destruct (in_user_dec pA lda m n l) as [UA|UA]; [lia| |].
      * destruct UA as (i & j & Hi & Hj & ->).
        change (ul M' pA lda i j = ul M pA lda i j).
        destruct (H6 oA i j (or_introl eq_refl) (proj1 (EL i j Hi Hj))) as [O|[O _]];
          rewrite P1, L1 in O; [exact O|].
        rewrite B1, C1, W1 in O. rewrite O. apply V1; assumption.
      * apply H5.
        -- cbn [map]. rewrite B1, B2. exact Hl.
        -- intros o [<-|[<-|[]]] HO; [rewrite EoA in HO|rewrite EoS in HO]; apply ge_opnd_user in HO; rewrite A1, A2 in HO; contradiction.
  - intros o [<-|[<-|[]]]; rewrite ?EoA, ?EoS; apply ge_opnd_ok; auto; rewrite A1; lia.
  - cbn [map]. rewrite B1, B2. assumption.
  - intros o o' [<-|[<-|[]]] [<-|[<-|[]]]; rewrite ?P1, ?P2, ?B1, ?B2; intuition.
  - apply (pzlag2c_kgood narrow fits nb); assumption.
  - apply (pzlag2c_cksound narrow fits).
  - intros env xs ys HE HF HX HY. apply (kdecl_klinked3 V env); auto.
    apply (pzlag2c_kdecl narrow fits).
    + pose proof (HE oA (or_introl eq_refl)) as E. rewrite EoA in E. exact E.
    + pose proof (HE oS (or_intror (or_introl eq_refl))) as E. rewrite EoS in E. exact E.
  - intros k l Hk W. right. left. rewrite B2. symmetry. apply (pzlag2c_writes narrow fits A bA bS k l); assumption.
Qed.

Lemma clag2z_main : forall (V : Type) (widen : V -> V) nb m n pS ldas pA lda bS bA (M : mem V),
  0 < nb -> 0 <= m -> 0 <= n -> Z.max 1 m <= ldas -> Z.max 1 m <= lda -> NoDup [bS; bA] ->
  (forall b, In b [fst pS; fst pA] -> ~ In b [bS; bA]) -> apart pS ldas m n pA lda m n ->
  driver_ensures (clag2z widen nb m n pS ldas pA lda bS bA) M (fun M' =>
    (forall i j, in_matrix m n i j -> ul M' pA lda i j = widen (ul M pS ldas i j)) /\
    (forall l, ~ In (fst l) [bS; bA] -> ~ in_user pA lda m n l -> M' l = M l)).
Proof.
  intros V widen nb m n pS ldas pA lda bS bA M Hnb Hm Hn Hldas Hlda HND HFR AP.
  unfold clag2z.
  replace (m <? 0) with false by (symmetry; apply Z.ltb_ge; lia).
  replace (n <? 0) with false by (symmetry; apply Z.ltb_ge; lia).
  replace (lda <? Z.max 1 m) with false by (symmetry; apply Z.ltb_ge; lia).
  replace (ldas <? Z.max 1 m) with false by (symmetry; apply Z.ltb_ge; lia).
  destruct (Z.eqb_spec (Z.min n m) 0) as [Q|Q].
  { split; [reflexivity|]. split; auto; intros i j [Hi Hj]; exfalso; lia. }
  destruct (ge_create_succeeds nb m n Hnb Hm Hn) as (A & EA & _). rewrite EA.
  cbn [with_desc driver_ensures].
  destruct (ge_create_dn _ _ _ _ _ EA) as (DA & A1 & A2 & _). clear EA.
  assert (NE : bS <> bA) by (inversion_clear HND as [|? ? N1 N2]; cbn in N1; intuition).
  assert (NE' : bA <> bS) by congruence.
  eapply region_mono; [|apply (ge_region22 V nb); auto; rewrite ?A1, ?A2; auto; try lia].
  2: { apply (pclag2z_kgood widen nb); assumption. }
  2: { intros env. apply (pclag2z_kdecl widen). }
  intros M' (M3 & H1 & H2 & H3 & H4 & H5 & H6). rewrite A1, A2 in *. split.
  - intros i j [Hi Hj]. rewrite H5 by assumption.
    rewrite (pclag2z_at widen nb A bA bS DA NE' M3 i j) by (rewrite ?A1, ?A2; assumption). rewrite H1 by assumption. reflexivity.
  - intros l Hl HU. destruct (in_user_dec pS ldas m n l) as [US|US]; [lia| |].
    + destruct US as (i & j & Hi & Hj & ->). change (ul M' pS ldas i j = ul M pS ldas i j). rewrite H4 by assumption.
      unfold el. rewrite pclag2z_frame by (cbn; assumption). apply H1; assumption.
    + rewrite H6 by assumption. rewrite pclag2z_frame; [apply H3; assumption|]. cbn in Hl. intuition.
Qed.
