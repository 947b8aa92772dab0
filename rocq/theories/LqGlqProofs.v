(* plasma_zunglq: the rows of the unitary factor of an LQ factorization. *)
From Coq Require Import ZArith List Bool Lia Ring Sorted.
From Verif Require Import Base NumModel NumProofs FieldModel ControlModel TaskModel TaskSpec TaskProofs DescModel DescSpec DescDriverModel DescProofs DescProofs3 DescProofs4 DescTProofs
  MatModel MatSpec MatProofs RegionProofs LayoutModel LayoutProofs LayoutProofs2 DriverModel DriverSpec OpProofs OperandProofs GemmProofs GemmDriverProofs RankDriverProofs
  TriModel TriSpec TriProofs SimProofs LasetModel LasetProofs QrModel QrSpec QrAlgProofs QrStepProofs QrKerProofs QrKerProofs2 QrMulProofs QrLiftProofs QrTaskProofs QrEffProofs QrUnmProofs QrFacProofs QrInvProofs QrListProofs QrDrvProofs QrDriverProofs
  LsModel LsSpec LsAlgProofs LsViewProofs LsProofs LsQrsProofs LsGqrProofs LqModel LqDualProofs LqDual2Proofs LqSimProofs LqListProofs LqMateProofs LqEffProofs LqDriverProofs.
Import ListNotations.
Open Scope Z_scope.

Section Glq.
  Context {N : numbers}.
  Add Ring num_ring_lq_glq : (nring N).

  (* the tasks of pzungqr on the identity *)
  Lemma ungqr_eff : forall nb ib m K T bT (El : Z -> Z -> N) (M : mem N) taus, 0 < nb -> 0 < ib -> 0 < K <= m ->
    tok nb ib m K T -> holds_q nb ib m K T bT ((m - 1) / nb + 1) ((K - 1) / nb + 1) El M taus ->
    forall A bA Q bQ M4, dn nb A -> d_m A = m -> d_n A = K -> dn nb Q -> d_m Q = m -> d_n Q = K ->
    bA <> bQ -> bT <> bQ ->
    (forall i j, 0 <= i < m -> 0 <= j < K -> el M4 bA A i j = El i j) ->
    (forall l, fst l = bT -> M4 l = M l) ->
    (forall i j, 0 <= i < m -> 0 <= j < K -> el M4 bQ Q i j = if i =? j then n1 else n0) ->
    forall i j, 0 <= i < m -> 0 <= j < K -> el (krun (pzungqr bA A bT T bQ Q) M4) bQ Q i j = qmat nb m K El taus i j.
  Proof.
    intros nb ib m K T bT El M taus Hnb Hib HK HT HQ A bA Q bQ M4 DA A1 A2 DQ Q1 Q2 NAQ NTQ X1 X3 X5 i j Hi Hj.
    pose proof (td_shape _ _ (sq_t _ _ _ DA)) as SA. pose proof (td_shape _ _ (sq_t _ _ _ DQ)) as SQ.
    assert (MA : d_mt A = (m - 1) / nb + 1). { rewrite (mt_aligned A SA), A1, (sq_mb _ _ _ DA). destruct (Z.eqb_spec m 0); lia. }
    assert (MQ : d_mt Q = (m - 1) / nb + 1). { rewrite (mt_aligned Q SQ), Q1, (sq_mb _ _ _ DQ). destruct (Z.eqb_spec m 0); lia. }
    assert (NA : d_nt A = (K - 1) / nb + 1). { rewrite (nt_aligned A SA), A2, (sq_nb _ _ _ DA). destruct (Z.eqb_spec K 0); lia. }
    assert (LE : (K - 1) / nb <= (m - 1) / nb) by (apply Z.div_le_mono; lia).
    assert (OO : olist (d_mt A) 0 (Z.min (d_mt A) (d_nt A)) = olist ((m - 1) / nb + 1) 0 ((K - 1) / nb + 1)) by (rewrite MA, NA; f_equal; lia).
    assert (EL : forall o i j, s_ok nb m K o -> s_reads nb m K o i j -> El i j = el M4 bA A i j).
    { intros o i' j' HO R. destruct (s_reads_tile nb m K Hnb ltac:(lia) o i' j' HO R) as (R1 & R2 & R3). rewrite <- X1 by lia. reflexivity. }
    assert (GD : forall o, In o (olist (d_mt A) 0 (Z.min (d_mt A) (d_nt A))) -> s_ok nb m K o /\ s_good N nb m K ib (el M4 bA A) (tel T bT M4) (taus o) o).
    { intros o Ho. rewrite OO in Ho. destruct (HQ o Ho) as [HO G]. split; [assumption|].
      eapply (s_good_cong N nb m K Hnb ltac:(lia)); [assumption|assumption| | | |exact G]; auto.
      - intros i' j' R. apply (EL o); assumption.
      - intros a c _ _. unfold tel, rd. rewrite X3 by (cbn; auto). reflexivity. }
    rewrite (pzungqr_eq nb ib m K HK T bT HT A bA DA A1 A2 Q bQ DQ Q1 ltac:(congruence)).
    destruct (steps_part nb ib m K Hnb Hib HK T bT HT A bA DA A1 A2 Q bQ DQ Q1 ltac:(auto) ltac:(auto) taus (rev (olist (d_mt A) 0 (Z.min (d_mt A) (d_nt A)))) M4) as [S1 S2].
    { intros o Ho. apply in_rev in Ho. apply GD. assumption. }
    { intros o Ho. apply in_rev in Ho. apply GD. assumption. }
    { apply rev_olist_sorted. }
    { intros o i' j' Ho Hj' L Hi'. rewrite X5; try lia.
      - pose proof (Z.mod_pos_bound j' nb Hnb). pose proof (Z.div_mod j' nb ltac:(lia)). destruct (Z.eqb_spec i' j'); [nia|reflexivity].
      - apply in_rev in Ho. destruct (GD o Ho) as [(O1 & _) _]. nia. }
    rewrite S1 by lia. unfold qmat, umat. rewrite OO.
    symmetry. apply (s_all_cong N nb m K Hnb ltac:(lia)); auto; try lia.
    - intros o Ho. apply in_rev in Ho. rewrite <- OO in Ho. apply GD. assumption.
    - intros o Ho i' j' R. apply (EL o); [|assumption]. apply in_rev in Ho. rewrite <- OO in Ho. apply GD. assumption.
    - intros s Hs. unfold ee, colv. rewrite X5 by lia. reflexivity.
  Qed.

  Ltac sizes X X' x y PX IX nb :=
    let h := fresh "Sz" in let a := fresh "Sa" in let b := fresh "Sb" in let c := fresh "Sc" in let d := fresh "Sd" in
    pose proof (paired_sizes nb X X' x y PX IX) as h; destruct h as (a & b & c & d); rewrite ?a, ?b, ?c, ?d; clear a b c d.

  Lemma unglq_okp : forall nb ib, 0 < nb -> 0 < ib -> forall T T' bT, tok nb ib 0 0 T -> tok nb ib 0 0 T' ->
    forall A A' bA, paired nb A A' ->
    (forall k q, 0 <= k <= q -> k * nb < d_m A -> q * nb < d_n A -> in_tiles T k q /\ in_tiles T' q k) ->
    forall env, In (bA, homeD A (in_tiles A)) env -> In (bT, homeD T (in_tiles T)) env -> bA <> bT ->
    forall B B' bB, paired nb B B' -> In (bB, homeD B (in_tiles B)) env -> bA <> bB /\ bB <> bT -> d_n B = d_n A ->
    Forall2 (okp (N := N) nb ib T T' bT A A' B B' bA bB env False) (pzunglq bA A bT T bB B) (pzungqr bA A' bT T' bB B').
  Proof.
    intros nb ib Hnb Hib T T' bT HT HT' A A' bA PA HTin env HEA HET NT B B' bB PB HEB NB HN.
    destruct (paired_counts nb A A' PA) as [C1 C2]. destruct (paired_counts nb B B' PB) as [C3 C4].
    assert (PA' := PA). destruct PA' as (D & D' & E1 & E2). assert (PB' := PB). destruct PB' as (DB & DB' & E3 & E4).
    assert (HAB : (bA = bB /\ A = B /\ A' = B') \/ bA <> bB) by tauto. assert (NT2 : bA <> bT /\ bB <> bT) by tauto.
    assert (J : forall x y, 0 <= x < d_mt A -> 0 <= y < d_nt A -> in_tiles A x y) by (intros; split; assumption).
    assert (JB : forall x y, 0 <= x < d_mt B -> 0 <= y < d_nt B -> in_tiles B x y) by (intros; split; assumption).
    pose proof (okp_unm (N := N) nb ib Hnb Hib T T' bT HT A A' B B' bA bB PA PB HAB NT2 env HEA HEB HET False PlasmaRight PlasmaNoTrans) as GU.
    pose proof (okp_tsm (N := N) nb ib Hnb Hib T T' bT HT A A' B B' bA bB PA PB HAB NT2 env HEA HEB HET False PlasmaRight PlasmaNoTrans) as GM.
    rewrite (tk_mb _ _ _ _ _ HT), (tk_mb _ _ _ _ _ HT') in GU, GM.
    unfold oside in GU, GM. change (PlasmaRight =? PlasmaLeft) with false in GU, GM. cbv iota in GU, GM.
    assert (KB : forall k, 0 <= k < Z.min (d_mt A) (d_nt A) -> in_tiles A k k /\ k * nb < d_m A /\ k * nb < d_n A /\
      0 <= tsz nb (d_m A) k <= nb /\ 0 <= tsz nb (d_n A) k <= nb /\ in_tiles T k k /\ in_tiles T' k k).
    { intros k Hk. assert (Kb : k * nb < d_m A /\ k * nb < d_n A) by (split; [apply (cnt_m nb Hnb A k D)|apply (cnt_n nb Hnb A k D)]; lia).
      split; [apply J; lia|]. split; [lia|]. split; [lia|]. split; [unfold tsz; lia|]. split; [unfold tsz; lia|]. apply HTin; lia. }
    unfold pzunglq, pzungqr. cbv zeta. rewrite C1, C2, C3, C4, (Z.min_comm (d_nt A)). rewrite (tk_mb _ _ _ _ _ HT), (tk_mb _ _ _ _ _ HT').
    assert (LT : d_nt A = d_nt B).
    { pose proof (td_shape _ _ (sq_t _ _ _ D)) as S. pose proof (td_shape _ _ (sq_t _ _ _ DB)) as S'.
      rewrite (nt_aligned_ntl nb A S (sq_nb _ _ _ D)), (nt_aligned_ntl nb B S' (sq_nb _ _ _ DB)), HN. reflexivity. }
    apply Forall2_flat_in. intros k Hk. apply in_rev, in_zrange in Hk. destruct (KB k Hk) as (K1 & K2 & K3 & K4 & K5 & K6 & K7). apply Forall2_app.
    - apply Forall2_flat_in. intros q Hq. apply in_rev, in_zrange in Hq.
      assert (Qb : q * nb < d_n A) by (apply (cnt_n nb Hnb A q D); lia). destruct (HTin k q ltac:(lia) ltac:(lia) ltac:(lia)) as [IT3 IT4].
      pose proof (tsz_full nb Hnb (d_n A) k q ltac:(lia) Qb) as F0.
      apply Forall2_map_in. intros x Hx. apply in_zrange in Hx. assert (Ix : in_tiles B x k) by (apply JB; lia). assert (Iq : in_tiles B x q) by (apply JB; lia).
      assert (Ikq : in_tiles A k q) by (apply J; lia).
      sizes B B' x q PB Iq nb. sizes A A' k k PA K1 nb. rewrite (sq_nb _ _ _ DB), (sq_mb _ _ _ DB').
      apply GM; try assumption; rewrite ?HN; lia.
    - apply Forall2_map_in. intros x Hx. apply in_zrange in Hx. assert (Ix : in_tiles B x k) by (apply JB; lia).
      sizes B B' x k PB Ix nb. sizes A A' k k PA K1 nb. rewrite (Z.min_comm (tsz nb (d_n A) k)).
      apply GU; try assumption; try lia. rewrite HN. lia.
  Qed.

  Lemma unglq_eff : forall nb ib m n K T bT (El : Z -> Z -> N) M taus, 0 < nb -> 0 < ib -> 0 < K <= n -> K <= m ->
    ltok nb ib m n T -> holds_l nb ib n K T bT El M taus ->
    forall A bA Q bQ, dn nb A -> d_m A = K -> d_n A = n -> dn nb Q -> d_m Q = K -> d_n Q = n ->
    bA <> bQ -> bT <> bQ -> bA <> bT ->
    (forall env, In (bA, homeD A (in_tiles A)) env -> In (bQ, homeD Q (in_tiles Q)) env -> In (bT, homeD T (in_tiles T)) env ->
       Forall (fun k => kgood k /\ kdecl (home_env env) k) (pzunglq (N := N) bA A bT T bQ Q)) /\
    (forall (M4 : mem N) l, fst l <> bQ -> krun (pzunglq bA A bT T bQ Q) M4 l = M4 l) /\
    forall M4, (forall i j, 0 <= i < K -> 0 <= j < n -> el M4 bA A i j = El i j) ->
    (forall l, fst l = bT -> M4 l = M l) ->
    (forall i j, 0 <= i < K -> 0 <= j < n -> el M4 bQ Q i j = if i =? j then n1 else n0) ->
    forall i j, 0 <= i < K -> 0 <= j < n -> el (krun (pzunglq bA A bT T bQ Q) M4) bQ Q i j = lmat nb n K El taus i j.
  Proof.
    intros nb ib m n K T bT El M taus Hnb Hib HK HKm [HT HTi] HL A bA Q bQ DA A1 A2 DQ Q1 Q2 NAQ NTQ NAT.
    destruct (ge_create_succeeds nb n K Hnb ltac:(lia) ltac:(lia)) as (A' & EA & _).
    destruct (ge_create_dn _ _ _ _ _ EA) as (DA' & A1' & A2' & _). clear EA.
    destruct (geqrf_T_ok nb ib n K Hnb Hib ltac:(lia) ltac:(lia)) as (T' & size & ET & HT'). rewrite Z.min_r in HT' by lia. clear ET.
    pose proof (tok_any _ _ _ _ _ Hnb HT') as HT0.
    assert (PA : paired nb A A') by (split; [assumption|split; [assumption|split; lia]]).
    assert (PQ : paired nb Q A') by (split; [assumption|split; [assumption|split; lia]]).
    assert (HTin : forall k q, 0 <= k <= q -> k * nb < d_m A -> q * nb < d_n A -> in_tiles T k q /\ in_tiles T' q k).
    { intros k q Hk H1 H2. rewrite A1 in H1. rewrite A2 in H2. split; [apply HTi; lia|]. apply (tk_in _ _ _ _ _ HT'). unfold s_ok. cbn. lia. }
    assert (OKE : forall env, In (bA, homeD A (in_tiles A)) env -> In (bQ, homeD Q (in_tiles Q)) env -> In (bT, homeD T (in_tiles T)) env ->
      Forall2 (okp (N := N) nb ib T T' bT A A' Q A' bA bQ env False) (pzunglq bA A bT T bQ Q) (pzungqr bA A' bT T' bQ A')).
    { intros env EA EQ ET. apply (unglq_okp nb ib Hnb Hib T T' bT HT HT0 A A' bA PA HTin env EA ET NAT Q A' bQ PQ EQ); [auto|congruence]. }
    split; [intros env EA EQ ET; apply (okp_all _ _ _ _ _ _ _ _ _ _ _ _ _ _ _ (OKE env EA EQ ET))|].
    pose (env := [(bA, homeD A (in_tiles A)); (bQ, homeD Q (in_tiles Q)); (bT, homeD T (in_tiles T))]).
    assert (OK := OKE env ltac:(cbn; auto) ltac:(cbn; auto) ltac:(cbn; auto)). clear OKE.
    destruct (okp_all _ _ _ _ _ _ _ _ _ _ _ _ _ _ _ OK) as [_ FR].
    split; [intros M4 l Hl; apply FR; tauto|].
    intros M4 X1 X3 X5.
    destruct (mate nb ib Hnb T T' bT A A' Q A' bA bQ M4 Hib HT0 PA PQ ltac:(auto) ltac:(auto)) as (M4' & RM).
    assert (RM2 := pres_run nb ib T T' bT A A' Q A' bA bQ env False _ _ OK M4 M4' RM). clear OK FR env.
    destruct RM as (RA & RC & RTm). destruct RM2 as (_ & RC2 & _).
    assert (HQ : holds_q nb ib n K T' bT ((n - 1) / nb + 1) ((K - 1) / nb + 1) (conj_tr El) M4' taus).
    { intros o Ho. destruct (HL o Ho) as [HO G]. split; [exact HO|].
      eapply (s_good_cong N nb n K Hnb ltac:(lia)); [assumption|assumption| | | |exact G]; [reflexivity| |reflexivity].
      intros a c Hc Ha. destruct o as [k q]. cbn [fst snd] in *. destruct HO as (O1 & O2 & O3 & O4). cbn [fst snd] in *.
      assert (0 <= c mod ib < ib) by (apply Z.mod_pos_bound; lia).
      rewrite RTm; [|apply HTi; lia|apply (tk_in _ _ _ _ _ HT'); unfold s_ok; cbn; lia|lia|].
      - unfold tel, rd. rewrite X3 by reflexivity. reflexivity.
      - unfold s_k in Hc. cbn in Hc. unfold tsz in Hc. lia. }
    intros i j Hi Hj.
    transitivity (nconj (el (krun (pzungqr bA A' bT T' bQ A') M4') bQ A' j i)).
    { rewrite (RC2 i j) by lia. rewrite nconj_conj. reflexivity. }
    unfold lmat, conj_tr at 1. f_equal.
    apply (ungqr_eff nb ib n K T' bT (conj_tr El) M4' taus Hnb Hib HK HT' HQ A' bA A' bQ M4'); auto.
    - intros a c Ha Hc. rewrite (RA c a) by lia. rewrite X1 by lia. reflexivity.
    - intros a c Ha Hc. rewrite (RC c a) by lia. rewrite X5 by lia. rewrite (Z.eqb_sym a c). destruct (c =? a); [apply nconj_1|apply nconj_0].
  Qed.

  Lemma unglq_create_dn : forall nb m n k, 0 < nb -> 0 <= k <= m -> 0 <= n ->
    exists A size, unglq_create nb m n k = CrOk A size /\ dn nb A /\ d_m A = k /\ d_n A = n /\ d_type A <> PlasmaGeneralBand.
  Proof.
    intros nb m n k Hnb Hk Hm. unfold unglq_create.
    destruct (general_create PlasmaComplexDouble nb nb m n 0 0 k n) as [c|A size] eqn:E.
    - exfalso. rewrite general_create_succeeds in E; try lia; try reflexivity; discriminate.
    - exists A, size. split; [reflexivity|].
      destruct (general_create_ok _ _ _ _ _ _ _ _ _ _ _ (Z.le_refl 0) (Z.le_refl 0) E) as (G & -> & _).
      split; [constructor; [apply dense_tiled; assumption|reflexivity|reflexivity]|]. split; [reflexivity|]. split; [reflexivity|].
      cbn. unfold PlasmaGeneral, PlasmaGeneralBand. discriminate.
  Qed.

  Lemma zunglq_run : forall nb ib m n K T bT (El : Z -> Z -> N) (M : mem N) taus, 0 < nb -> 0 < ib -> 0 < K <= n -> K <= m ->
    ltok nb ib m n T -> holds_l nb ib n K T bT El M taus ->
    forall qm pA lda pQ ldq bA bQ M2, K <= qm <= n -> Z.max 1 qm <= lda -> Z.max 1 qm <= ldq ->
    NoDup [bT; bA; bQ] -> (forall b, In b [fst pA; fst pQ] -> ~ In b [bT; bA; bQ]) ->
    apart pA lda K n pQ ldq K n ->
    (forall i j, 0 <= i < K -> 0 <= j < n -> ul M2 pA lda i j = El i j) ->
    (forall l, fst l = bT -> M2 l = M l) ->
    driver_ensures (zunglq nb qm n K pA lda bT T pQ ldq bA bQ) M2 (fun M3 =>
      (forall i j, 0 <= i < K -> 0 <= j < n -> ul M3 pQ ldq i j = lmat nb n K El taus i j) /\
      (forall l, fst l <> bA -> fst l <> bQ -> ~ in_user pQ ldq K n l -> M3 l = M2 l)).
  Proof.
    intros nb ib m n K T bT El M taus Hnb Hib HK HKm HT HL qm pA lda pQ ldq bA bQ M2 Hn Hlda Hldq HND HFr HAP HE HM.
    unfold zunglq.
    destruct (Z.ltb_spec qm 0); [lia|]. destruct (Z.ltb_spec n qm); [lia|].
    destruct (Z.ltb_spec K 0); [lia|]. destruct (Z.ltb_spec qm K); [lia|]. cbn [orb].
    destruct (Z.ltb_spec lda (Z.max 1 qm)); [lia|]. destruct (Z.ltb_spec ldq (Z.max 1 qm)); [lia|]. destruct (Z.leb_spec qm 0); [lia|].
    destruct (unglq_create_dn nb qm n K Hnb ltac:(lia) ltac:(lia)) as (A & size & EA & DA & A1 & A2 & TA). rewrite EA. cbn [with_desc driver_ensures]. clear EA.
    rewrite A1. destruct (Z.leb_spec K 0); [lia|].
    assert (NAC : bA <> bQ /\ bT <> bA /\ bT <> bQ).
    { inversion_clear HND as [|? ? N1 N2]. inversion_clear N2 as [|? ? N3 N4]. cbn in *. intuition. }
    destruct NAC as (NAQ & NTA & NTQ).
    assert (FT : functionalZ (homeD T (in_tiles T))) by (apply homeD_functional; apply (tk_t _ _ _ _ _ (proj1 HT))).
    destruct (unglq_eff nb ib m n K T bT El M taus Hnb Hib HK HKm HT HL A bA A bQ DA A1 A2 DA A1 A2 NAQ NTQ ltac:(auto)) as (O1 & O2 & O3).
    eapply region_mono; [|apply (ext_region2 N nb bA A pA lda bQ A pQ ldq bT (homeD T (in_tiles T))); auto; rewrite ?A1, ?A2; auto; try lia].
    - intros M' (M3 & H1' & H2' & H3' & H4' & H5').
      rewrite A1, A2 in H1', H4', H5'. rewrite krun_app in H4', H5'.
      assert (LS : forall i j, 0 <= i < K -> 0 <= j < n -> at_elem M3 bQ A i j (krun (pzlaset PlasmaGeneral n0 n1 bQ A) M3) (if i =? j then n1 else n0)).
      { intros i j Hi Hj. pose proof (pzlaset_at nb A bQ PlasmaGeneral n0 n1 DA TA (or_introl eq_refl) M3 i j) as X. rewrite A1, A2 in X.
        exact (X Hi Hj). }
      remember (krun (pzlaset PlasmaGeneral n0 n1 bQ A) M3) as M4 eqn:E4. clear E4.
      assert (X4 : forall l, fst l <> bQ -> M4 l = M3 l) by (apply (LS 0 0); lia).
      split.
      + intros i j Hi Hj. rewrite H4' by lia. apply O3; try assumption.
        * intros a c Ha Hc. rewrite <- HE by assumption. rewrite <- H1' by lia. unfold el. apply X4. cbn. assumption.
        * intros l Hl. rewrite X4, H3' by congruence. apply HM. assumption.
        * intros a c Ha Hc. apply (LS a c); assumption.
      + intros l L1 L2 L3. rewrite H5' by assumption. rewrite O2, X4 by assumption. apply H3'; assumption.
    - intros env HEA HEB HET. apply Forall_app. split; [|apply O1; assumption].
      apply Forall_forall. intros t Ht. split.
      * pose proof (pzlaset_kgood nb A bQ PlasmaGeneral (n0 (n := N)) n1 DA TA) as X. rewrite Forall_forall in X. apply X. assumption.
      * pose proof (pzlaset_kdecl nb A bQ PlasmaGeneral (n0 (n := N)) n1 DA TA env HEB) as X. rewrite Forall_forall in X. apply X. assumption.
  Qed.

  Lemma zunglq_main : forall (lg : N -> list N -> N * N * list N), larfg_ok lg ->
    forall nb ib m n pA lda bA bT M,
    0 < nb -> 0 < ib -> 0 <= m -> 0 <= n -> Z.max 1 m <= lda -> NoDup [fst pA; bA; bT] ->
    driver_ensures (zgelqf lg nb ib m n pA lda bA bT) M (fun M' => exists Q,
      is_unitary n Q /\
      (forall i j, 0 <= i < m -> 0 <= j < n ->
         ul M pA lda i j = nsum (fun l => nmul (if l <=? i then ul M' pA lda i l else n0) (Q l j)) 0 n) /\
      forall T size qm pV ldv pQ ldq bV bQ M2,
        gelqf_T nb ib m n = CrOk T size ->
        Z.min m n <= qm <= n -> Z.max 1 qm <= ldv -> Z.max 1 qm <= ldq ->
        NoDup [bT; bV; bQ] -> (forall b, In b [fst pV; fst pQ] -> ~ In b [bT; bV; bQ]) ->
        apart pV ldv (Z.min m n) n pQ ldq (Z.min m n) n ->
        (forall i j, 0 <= i < Z.min m n -> 0 <= j < n -> ul M2 pV ldv i j = ul M' pA lda i j) ->
        (forall l, fst l = bT -> M2 l = M' l) ->
        driver_ensures (zunglq nb qm n (Z.min m n) pV ldv bT T pQ ldq bV bQ) M2 (fun M3 =>
          (forall i j, 0 <= i < Z.min m n -> 0 <= j < n -> ul M3 pQ ldq i j = Q i j) /\
          (forall l, fst l <> bV -> fst l <> bQ -> ~ in_user pQ ldq (Z.min m n) n l -> M3 l = M2 l))).
  Proof.
    intros lg LG nb ib m n pA lda bA bT M Hnb Hib Hm Hn Hlda HND.
    destruct (Z.eq_dec (Z.min m n) 0) as [EK|EK].
    - pose proof (zgelqf_main lg LG nb ib m n pA lda bA bT M Hnb Hib Hm Hn Hlda HND) as X.
      eapply driver_mono; [|exact X]. intros M' (Q & Q1 & Q2 & Q3 & _). exists Q. split; [assumption|]. split; [assumption|].
      intros T size qm pV ldv pQ ldq bV bQ M2 HT Hqm Hldv Hldq HND2 HFr HAP HE HM. rewrite EK in *.
      unfold zunglq.
      destruct (Z.ltb_spec qm 0); [lia|]. destruct (Z.ltb_spec n qm); [lia|].
      destruct (Z.ltb_spec 0 0); [lia|]. cbn [orb].
      destruct (Z.ltb_spec ldv (Z.max 1 qm)); [lia|]. destruct (Z.ltb_spec ldq (Z.max 1 qm)); [lia|]. destruct (Z.leb_spec qm 0).
      { cbn [driver_ensures]. split; [reflexivity|]. split; [intros; lia|reflexivity]. }
      destruct (unglq_create_dn nb qm n 0 Hnb ltac:(lia) ltac:(lia)) as (A & sz & EA & DA & A1 & A2 & TA). rewrite EA. cbn [with_desc driver_ensures]. clear EA.
      rewrite A1. change (0 <=? 0) with true. cbv iota.
      assert (FT : functionalZ (fun _ _ : Z => False)) by (intros ? ? ? []).
      eapply region_mono; [|apply (ext_region2 N nb bV A pV ldv bQ A pQ ldq bT (fun _ _ => False)); auto; rewrite ?A1, ?A2; auto; try lia].
      intros M3 (M4 & _ & _ & H3' & _ & H5'). rewrite A1, A2 in H5'. split; [intros; lia|].
      intros l L1 L2 L3. rewrite H5' by assumption. apply H3'; assumption.
    - eapply driver_mono; [|apply (zgelqf_core lg LG nb ib m n pA lda bA bT M); auto; lia].
      intros M' (T & size & taus & El & ET & HT & HE & HL & HF & FR). cbv zeta in HL, HF. exists (lmat nb n (Z.min m n) El taus).
      split; [eapply lmat_unitary; [assumption| |exact HL]; lia|]. split.
      + intros i j Hi Hj. rewrite HF by assumption. apply nsum_ext. intros l Hl. rewrite HE by assumption. reflexivity.
      + intros T' size' qm pV ldv pQ ldq bV bQ M2 ET' Hqm Hldv Hldq HND2 HF2 HAP HE2 HM.
        assert (T' = T) by congruence. subst T'.
        apply (zunglq_run nb ib m n (Z.min m n) T bT El M' taus); auto; try lia.
        intros i j Hi Hj. rewrite HE2 by assumption. apply HE; lia.
  Qed.
End Glq.
