(* plasma_zgelqf and plasma_zunmlq. *)
From Coq Require Import ZArith List Bool Lia Ring.
From Verif Require Import Base NumModel NumProofs FieldModel ControlModel TaskModel TaskSpec TaskProofs DescModel DescSpec DescDriverModel DescProofs DescProofs3 DescProofs4 DescTProofs
  MatModel MatSpec MatProofs RegionProofs LayoutModel LayoutProofs LayoutProofs2 DriverModel DriverSpec OpProofs OperandProofs GemmProofs GemmDriverProofs RankDriverProofs
  TriModel TriSpec QrModel QrSpec QrAlgProofs QrStepProofs QrKerProofs QrKerProofs2 QrMulProofs QrLiftProofs QrTaskProofs QrEffProofs QrUnmProofs QrFacProofs QrInvProofs QrListProofs QrDrvProofs QrDriverProofs
  LsQrsProofs LqModel LqDualProofs LqDual2Proofs LqSimProofs LqListProofs LqMateProofs LqEffProofs.
Import ListNotations.
Open Scope Z_scope.

Section Lq.
  Context {N : numbers}.
  Add Ring num_ring_lq_driver : (nring N).

  Lemma gelqf_ok : forall (lg : N -> list N -> N * N * list N) nb ib m n T bT A bA, 0 < nb -> 0 < ib -> 0 < m -> 0 < n -> ltok nb ib m n T ->
    dn nb A -> d_m A = m -> d_n A = n -> bA <> bT ->
    forall env, In (bA, homeD A (in_tiles A)) env -> In (bT, homeD T (in_tiles T)) env ->
    Forall (fun k => kgood k /\ kdecl (home_env env) k) (pzgelqf lg bA A bT T).
  Proof.
    intros lg nb ib m n T bT A bA Hnb Hib Hm Hn [HT HTi] DA A1 A2 NAT env HEA HET.
    destruct (ge_create_succeeds nb n m Hnb ltac:(lia) ltac:(lia)) as (A' & EA & _).
    destruct (ge_create_dn _ _ _ _ _ EA) as (DA' & A1' & A2' & _). clear EA.
    destruct (geqrf_T_ok nb ib n m Hnb Hib ltac:(lia) ltac:(lia)) as (T' & size & ET & HT'). clear ET.
    pose proof (tok_any _ _ _ _ _ Hnb HT') as HT0.
    assert (PA : paired nb A A') by (split; [assumption|split; [assumption|split; lia]]).
    assert (HTin : forall k q, 0 <= k <= q -> k * nb < d_m A -> q * nb < d_n A -> in_tiles T k q /\ in_tiles T' q k).
    { intros k q Hk H1 H2. rewrite A1 in H1. rewrite A2 in H2. split; [apply HTi; lia|]. apply (tk_in _ _ _ _ _ HT'). unfold s_ok. cbn. nia. }
    assert (OK := gelqf_okp (N := N) nb ib Hnb Hib T T' bT HT HT0 A A' bA PA HTin env HEA HET NAT lg).
    apply (okp_all _ _ _ _ _ _ _ _ _ _ _ _ _ _ _ OK).
  Qed.

  Lemma unmlq_ok : forall nb ib m n K T bT, 0 < nb -> 0 < ib -> 0 < K <= n -> K <= m -> ltok nb ib m n T ->
    forall A bA C bC side trans, dn nb A -> d_m A = K -> d_n A = n -> dn nb C -> (if side =? PlasmaLeft then d_m C else d_n C) = n ->
    bA <> bC -> bT <> bC -> bA <> bT -> side = PlasmaLeft \/ side = PlasmaRight -> trans = PlasmaNoTrans \/ trans = PlasmaConjTrans ->
    forall env, In (bA, homeD A (in_tiles A)) env -> In (bC, homeD C (in_tiles C)) env -> In (bT, homeD T (in_tiles T)) env ->
    Forall (fun k => kgood k /\ kdecl (home_env env) k) (pzunmlq (N := N) side trans bA A bT T bC C).
  Proof.
    intros nb ib m n K T bT Hnb Hib HK HKm [HT HTi] A bA C bC side trans DA A1 A2 DC Em NAC NTC NAT HS HTr env HEA HEC HET.
    assert (SC : 0 <= d_m C /\ 0 <= d_n C) by (pose proof (td_shape _ _ (sq_t _ _ _ DC)) as S; split; [apply (go_m C S)|apply (go_n C S)]).
    destruct (ge_create_succeeds nb n K Hnb ltac:(lia) ltac:(lia)) as (A' & EA & _).
    destruct (ge_create_succeeds nb (d_n C) (d_m C) Hnb ltac:(lia) ltac:(lia)) as (C' & EC & _).
    destruct (ge_create_dn _ _ _ _ _ EA) as (DA' & A1' & A2' & _). destruct (ge_create_dn _ _ _ _ _ EC) as (DC' & C1' & C2' & _). clear EA EC.
    destruct (geqrf_T_ok nb ib n K Hnb Hib ltac:(lia) ltac:(lia)) as (T' & size & ET & HT'). rewrite Z.min_r in HT' by lia. clear ET.
    pose proof (tok_any _ _ _ _ _ Hnb HT') as HT0.
    assert (PA : paired nb A A') by (split; [assumption|split; [assumption|split; lia]]).
    assert (PC : paired nb C C') by (split; [assumption|split; [assumption|split; lia]]).
    assert (HTin : forall k q, 0 <= k <= q -> k * nb < d_m A -> q * nb < d_n A -> in_tiles T k q /\ in_tiles T' q k).
    { intros k q Hk H1 H2. rewrite A1 in H1. rewrite A2 in H2. split; [apply HTi; lia|]. apply (tk_in _ _ _ _ _ HT'). unfold s_ok. cbn. lia. }
    assert (OK := unmlq_okp (N := N) nb ib Hnb Hib T T' bT HT HT0 A A' bA PA HTin env HEA HET NAT C C' bC PC HEC
      ltac:(auto) side trans HS HTr ltac:(congruence)).
    apply (okp_all _ _ _ _ _ _ _ _ _ _ _ _ _ _ _ OK).
  Qed.

  Lemma zunmlq_run : forall nb ib m n K T bT (El : Z -> Z -> N) M taus, 0 < nb -> 0 < ib -> 0 < K <= n -> K <= m ->
    ltok nb ib m n T -> holds_l nb ib n K T bT El M taus ->
    forall side trans cm cn pA lda pC ldc bA bC M2,
    side = PlasmaLeft \/ side = PlasmaRight -> trans = PlasmaNoTrans \/ trans = PlasmaConjTrans ->
    0 <= cm -> 0 <= cn -> (if side =? PlasmaLeft then cm else cn) = n -> Z.max 1 K <= lda -> Z.max 1 cm <= ldc ->
    NoDup [bT; bA; bC] -> (forall b, In b [fst pA; fst pC] -> ~ In b [bT; bA; bC]) ->
    apart pA lda K n pC ldc cm cn ->
    (forall i j, 0 <= i < K -> 0 <= j < n -> ul M2 pA lda i j = El i j) ->
    (forall l, fst l = bT -> M2 l = M l) ->
    driver_ensures (zunmlq nb side trans cm cn K pA lda bT T pC ldc bA bC) M2 (fun M3 =>
      (forall i j, 0 <= i < cm -> 0 <= j < cn -> ul M3 pC ldc i j = q_times side trans n (lmat nb n K El taus) (ul M2 pC ldc) i j) /\
      (forall l, fst l <> bA -> fst l <> bC -> ~ in_user pC ldc cm cn l -> M3 l = M2 l)).
  Proof.
    intros nb ib m n K T bT El M taus Hnb Hib HK HKm HT HL side trans cm cn pA lda pC ldc bA bC M2 HS HTr Hcm Hcn Em Hlda Hldc HND HF HAP HE HM.
    unfold zunmlq.
    replace (negb (side =? PlasmaLeft) && negb (side =? PlasmaRight)) with false by (destruct HS as [->| ->]; reflexivity).
    replace (negb (trans =? PlasmaConjTrans) && negb (trans =? PlasmaNoTrans)) with false by (destruct HTr as [->| ->]; reflexivity).
    destruct (Z.ltb_spec cm 0); [lia|]. destruct (Z.ltb_spec cn 0); [lia|]. cbv zeta. rewrite Em.
    destruct (Z.ltb_spec K 0); [lia|]. destruct (Z.ltb_spec n K); [lia|]. cbn [orb].
    destruct (Z.ltb_spec lda (Z.max 1 K)); [lia|]. destruct (Z.ltb_spec ldc (Z.max 1 cm)); [lia|].
    destruct ((cm =? 0) || (cn =? 0) || (K =? 0)) eqn:QR.
    { cbn [driver_ensures]. split; [reflexivity|]. split; [|reflexivity]. intros i j Hi Hj. exfalso.
      rewrite !orb_true_iff, !Z.eqb_eq in QR. lia. }
    rewrite !orb_false_iff, !Z.eqb_neq in QR. destruct QR as [[Q1 Q2] Q3].
    destruct (ge_create_succeeds nb K n Hnb ltac:(lia) ltac:(lia)) as (A & EA & _). rewrite EA.
    destruct (ge_create_succeeds nb cm cn Hnb ltac:(lia) ltac:(lia)) as (C & EC & _). rewrite EC.
    cbn [with_desc driver_ensures].
    destruct (ge_create_dn _ _ _ _ _ EA) as (DA & A1 & A2 & _).
    destruct (ge_create_dn _ _ _ _ _ EC) as (DC & C1 & C2 & _). clear EA EC.
    replace ((d_m C =? 0) || (d_n C =? 0) || (d_m A =? 0) || (d_n A =? 0)) with false
      by (symmetry; rewrite !orb_false_iff, !Z.eqb_neq; lia).
    assert (NAC : bA <> bC /\ bT <> bA /\ bT <> bC).
    { inversion_clear HND as [|? ? N1 N2]. inversion_clear N2 as [|? ? N3 N4]. cbn in *. intuition. }
    destruct NAC as (NAC & NTA & NTC).
    assert (FT : functionalZ (homeD T (in_tiles T))) by (apply homeD_functional; apply (tk_t _ _ _ _ _ (proj1 HT))).
    assert (EmC : (if side =? PlasmaLeft then d_m C else d_n C) = n) by (rewrite C1, C2; exact Em).
    eapply region_mono; [|apply (ext_region2 N nb bA A pA lda bC C pC ldc bT (homeD T (in_tiles T))); auto; rewrite ?A1, ?A2, ?C1, ?C2; auto; try lia].
    - intros M' (M3 & H1' & H2' & H3' & H4' & H5').
      rewrite A1, A2 in H1'. rewrite C1, C2 in H2', H4', H5'.
      destruct (unmlq_eff nb ib m n K T bT El M taus Hnb Hib HK HKm HT HL A bA C bC side trans M3 DA A1 A2 DC EmC NAC NTC ltac:(auto) HS HTr) as [R1 R2].
      { intros i j Hi Hj. rewrite H1' by assumption. apply HE; assumption. }
      { intros l Hl. rewrite H3' by congruence. apply HM. assumption. }
      split.
      + intros i j Hi Hj. rewrite H4' by assumption. rewrite R1 by lia. unfold q_times.
        destruct HS as [-> | ->].
        * change (PlasmaLeft =? PlasmaLeft) with true in *. cbv iota in *. apply nsum_ext. intros l Hl. rewrite H2' by lia. reflexivity.
        * change (PlasmaRight =? PlasmaLeft) with false in *. cbv iota in *. apply nsum_ext. intros l Hl. rewrite H2' by lia. reflexivity.
      + intros l L1 L2 L3. rewrite H5' by assumption. rewrite R2 by assumption. apply H3'; assumption.
    - intros env HEA HEC HET. apply (unmlq_ok nb ib m n K T bT Hnb Hib HK HKm HT A bA C bC side trans); auto.
  Qed.

  (* what zgelqf leaves behind *)
  Lemma zgelqf_core : forall (lg : N -> list N -> N * N * list N), larfg_ok lg ->
    forall nb ib m n pA lda bA bT M,
    0 < nb -> 0 < ib -> 0 < m -> 0 < n -> Z.max 1 m <= lda -> NoDup [fst pA; bA; bT] ->
    driver_ensures (zgelqf lg nb ib m n pA lda bA bT) M (fun M' => exists T size taus El, let K := Z.min m n in
      gelqf_T nb ib m n = CrOk T size /\ ltok nb ib m n T /\
      (forall i j, 0 <= i < m -> 0 <= j < n -> ul M' pA lda i j = El i j) /\
      holds_l nb ib n K T bT El M' taus /\
      (forall i j, 0 <= i < m -> 0 <= j < n ->
         ul M pA lda i j = nsum (fun l => nmul (if l <=? i then El i l else n0) (lmat nb n K El taus l j)) 0 n) /\
      (forall l, fst l <> bA -> fst l <> bT -> ~ in_user pA lda m n l -> M' l = M l)).
  Proof.
    intros lg LG nb ib m n pA lda bA bT M Hnb Hib Hm Hn Hlda HND. unfold zgelqf.
    destruct (Z.ltb_spec m 0); [lia|]. destruct (Z.ltb_spec n 0); [lia|]. destruct (Z.ltb_spec lda (Z.max 1 m)); [lia|].
    destruct (Z.eqb_spec (Z.min m n) 0) as [EK|EK]; [lia|].
    destruct (ge_create_succeeds nb m n Hnb ltac:(lia) ltac:(lia)) as (A & EA & _). rewrite EA.
    destruct (gelqf_T_ok nb ib m n Hnb Hib ltac:(lia) ltac:(lia)) as (T & size & ET & HT). rewrite ET.
    cbn [with_desc driver_ensures].
    destruct (ge_create_dn _ _ _ _ _ EA) as (DA & A1 & A2 & _). clear EA.
    destruct (Z.eqb_spec (Z.min (d_m A) (d_n A)) 0) as [|NZ]; [lia|].
    assert (NAC : bA <> bT /\ fst pA <> bA /\ fst pA <> bT).
    { inversion_clear HND as [|? ? N1 N2]. inversion_clear N2 as [|? ? N3 N4]. cbn in *. intuition. }
    destruct NAC as (NAT & NPA & NPT).
    assert (FT : functionalZ (homeD T (in_tiles T))) by (apply homeD_functional; apply (tk_t _ _ _ _ _ (proj1 HT))).
    eapply region_mono; [|apply (ext_region1 N nb bA A pA lda bT (homeD T (in_tiles T))); auto; rewrite ?A1, ?A2; auto; try lia].
    2:{ intros env HEA HET. apply (gelqf_ok lg nb ib m n T bT A bA Hnb Hib Hm Hn HT DA A1 A2); auto. }
    intros M' (M3 & H1' & H2' & H3' & H4'). rewrite A1, A2 in H1', H3', H4'.
    destruct (pzgelqf_eff lg LG nb ib m n T bT A bA Hnb Hib Hm Hn HT DA A1 A2 NAT M3) as (taus & P1 & P2 & P3).
    remember (krun (pzgelqf lg bA A bT T) M3) as M4 eqn:E4. clear E4.
    exists T, size, taus, (el M4 bA A). cbv zeta. split; [reflexivity|]. split; [assumption|]. split; [assumption|]. split; [|split].
    - intros o Ho. destruct (P1 o Ho) as [O1 O2]. split; [assumption|].
      eapply (s_good_cong N nb n (Z.min m n) Hnb ltac:(lia)); [assumption|assumption| | | |exact O2]; auto.
      intros a c _ _. unfold tel, rd. symmetry. apply H4'. intros X. apply in_user_block in X. cbn in X. congruence.
    - intros i j Hi Hj. rewrite <- H1' by assumption. apply P2; assumption.
    - intros l L1 L2 L3. rewrite H4' by assumption. rewrite P3 by assumption. apply H2'. assumption.
  Qed.

  Lemma q_times_id : forall side trans p (C : Z -> Z -> N) i j, side = PlasmaLeft \/ side = PlasmaRight -> trans = PlasmaNoTrans \/ trans = PlasmaConjTrans ->
    0 <= (if side =? PlasmaLeft then i else j) < p -> q_times side trans p (umat N (fun x => x)) C i j = C i j.
  Proof.
    intros side trans p C i j HS HTr Hp. unfold q_times, umat, op_of.
    assert (EC : forall a b, nconj (ee N b a) = ee N b a) by (intros; unfold ee; destruct (a =? b); [apply nconj_1|apply nconj_0]).
    assert (ES : forall a b, ee N b a = ee N a b) by (intros; unfold ee; rewrite Z.eqb_sym; reflexivity).
    symmetry. destruct HS as [-> | ->].
    - change (PlasmaLeft =? PlasmaLeft) with true in *. cbv iota in *.
      transitivity (nsum (fun l => nmul (ee N i l) (C l j)) 0 p); [symmetry; apply (nsum_ee N (fun l => C l j)); lia|].
      apply nsum_ext. intros l Hl. destruct HTr as [-> | ->].
      + change (PlasmaNoTrans =? PlasmaNoTrans) with true. cbv iota. rewrite (ES l i). reflexivity.
      + change (PlasmaConjTrans =? PlasmaNoTrans) with false. change (PlasmaConjTrans =? PlasmaTrans) with false. cbv iota. rewrite EC. reflexivity.
    - change (PlasmaRight =? PlasmaLeft) with false in *. cbv iota in *.
      transitivity (nsum (fun l => nmul (ee N j l) (C i l)) 0 p); [symmetry; apply (nsum_ee N (fun l => C i l)); lia|].
      apply nsum_ext. intros l Hl. destruct HTr as [-> | ->].
      + change (PlasmaNoTrans =? PlasmaNoTrans) with true. cbv iota. ring.
      + change (PlasmaConjTrans =? PlasmaNoTrans) with false. change (PlasmaConjTrans =? PlasmaTrans) with false. cbv iota. rewrite EC, (ES l j). ring.
  Qed.

  Lemma zgelqf_main : forall (lg : N -> list N -> N * N * list N), larfg_ok lg ->
    forall nb ib m n pA lda bA bT M,
    0 < nb -> 0 < ib -> 0 <= m -> 0 <= n -> Z.max 1 m <= lda -> NoDup [fst pA; bA; bT] ->
    driver_ensures (zgelqf lg nb ib m n pA lda bA bT) M (fun M' => exists Q,
      is_unitary n Q /\
      (forall i j, 0 <= i < m -> 0 <= j < n ->
         ul M pA lda i j = nsum (fun l => nmul (if l <=? i then ul M' pA lda i l else n0) (Q l j)) 0 n) /\
      (forall l, fst l <> bA -> fst l <> bT -> ~ in_user pA lda m n l -> M' l = M l) /\
      forall T size side trans cm cn pV ldv pC ldc bV bC M2,
        gelqf_T nb ib m n = CrOk T size ->
        side = PlasmaLeft \/ side = PlasmaRight -> trans = PlasmaNoTrans \/ trans = PlasmaConjTrans ->
        0 <= cm -> 0 <= cn -> (if side =? PlasmaLeft then cm else cn) = n -> Z.max 1 (Z.min m n) <= ldv -> Z.max 1 cm <= ldc ->
        NoDup [bT; bV; bC] -> (forall b, In b [fst pV; fst pC] -> ~ In b [bT; bV; bC]) ->
        apart pV ldv (Z.min m n) n pC ldc cm cn ->
        (forall i j, 0 <= i < Z.min m n -> 0 <= j < n -> ul M2 pV ldv i j = ul M' pA lda i j) ->
        (forall l, fst l = bT -> M2 l = M' l) ->
        driver_ensures (zunmlq nb side trans cm cn (Z.min m n) pV ldv bT T pC ldc bV bC) M2 (fun M3 =>
          (forall i j, 0 <= i < cm -> 0 <= j < cn -> ul M3 pC ldc i j = q_times side trans n Q (ul M2 pC ldc) i j) /\
          (forall l, fst l <> bV -> fst l <> bC -> ~ in_user pC ldc cm cn l -> M3 l = M2 l))).
  Proof.
    intros lg LG nb ib m n pA lda bA bT M Hnb Hib Hm Hn Hlda HND.
    destruct (Z.eq_dec (Z.min m n) 0) as [EK|EK].
    - unfold zgelqf.
      destruct (Z.ltb_spec m 0); [lia|]. destruct (Z.ltb_spec n 0); [lia|]. destruct (Z.ltb_spec lda (Z.max 1 m)); [lia|].
      replace (Z.min m n =? 0) with true by (symmetry; apply Z.eqb_eq; assumption).
      cbn [driver_ensures]. split; [reflexivity|]. exists (umat N (fun x => x)).
      split; [apply id_unitary|]. split; [intros; lia|]. split; [reflexivity|].
      intros T size side trans cm cn pV ldv pC ldc bV bC M2 ET HS HTr Hcm Hcn Em Hldv Hldc HND2 HF HAP HE HM.
      unfold zunmlq.
      replace (negb (side =? PlasmaLeft) && negb (side =? PlasmaRight)) with false by (destruct HS as [->| ->]; reflexivity).
      replace (negb (trans =? PlasmaConjTrans) && negb (trans =? PlasmaNoTrans)) with false by (destruct HTr as [->| ->]; reflexivity).
      destruct (Z.ltb_spec cm 0); [lia|]. destruct (Z.ltb_spec cn 0); [lia|]. cbv zeta. rewrite Em. rewrite EK in *.
      change (0 <? 0) with false. destruct (Z.ltb_spec n 0); [lia|]. cbn [orb].
      destruct (Z.ltb_spec ldv (Z.max 1 0)); [lia|]. destruct (Z.ltb_spec ldc (Z.max 1 cm)); [lia|].
      change (0 =? 0) with true. rewrite orb_true_r. cbn [driver_ensures]. split; [reflexivity|]. split; [|reflexivity].
      intros i j Hi Hj. symmetry. apply q_times_id; try assumption. destruct HS as [-> | ->]; cbn in Em |- *; lia.
    - eapply driver_mono; [|apply (zgelqf_core lg LG nb ib m n pA lda bA bT M); auto; lia].
      intros M' (T & size & taus & El & ET & HT & HE & HL & HF & FR). cbv zeta in HL, HF. exists (lmat nb n (Z.min m n) El taus).
      split; [eapply lmat_unitary; [assumption| |exact HL]; lia|]. split; [|split; [exact FR|]].
      + intros i j Hi Hj. rewrite HF by assumption. apply nsum_ext. intros l Hl. rewrite HE by assumption. reflexivity.
      + intros T' size' side trans cm cn pV ldv pC ldc bV bC M2 ET' HS HTr Hcm Hcn Em Hldv Hldc HND2 HF2 HAP HE2 HM.
        assert (T' = T) by congruence. subst T'.
        apply (zunmlq_run nb ib m n (Z.min m n) T bT El M' taus); auto; try lia.
        intros i j Hi Hj. rewrite HE2 by assumption. apply HE; lia.
  Qed.

  Lemma zgelqf_factors : forall (lg : N -> list N -> N * N * list N), larfg_ok lg ->
    forall nb ib m n pA lda bA bT M,
    0 < nb -> 0 < ib -> 0 <= m -> 0 <= n -> Z.max 1 m <= lda -> NoDup [fst pA; bA; bT] ->
    driver_ensures (zgelqf lg nb ib m n pA lda bA bT) M (fun M' =>
      (exists Q, is_unitary n Q /\
        forall i j, 0 <= i < m -> 0 <= j < n ->
          ul M pA lda i j = nsum (fun l => nmul (if l <=? i then ul M' pA lda i l else n0) (Q l j)) 0 n) /\
      (forall l, fst l <> bA -> fst l <> bT -> ~ in_user pA lda m n l -> M' l = M l)).
  Proof.
    intros. eapply driver_mono; [|apply zgelqf_main; assumption].
    intros M' (Q & Q1 & Q2 & Q3 & _). split; [exists Q; split; assumption|assumption].
  Qed.
End Lq.
