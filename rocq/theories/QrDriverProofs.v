(* plasma_zgeqrf factors, and plasma_zunmqr multiplies with the same unitary matrix. *)
From Coq Require Import ZArith List Bool Lia Ring.
From Verif Require Import Base NumModel NumProofs ControlModel TaskModel TaskSpec TaskProofs DescModel DescSpec DescDriverModel DescProofs DescProofs3 DescProofs4
  MatModel MatSpec MatProofs RegionProofs LayoutModel LayoutProofs LayoutProofs2 DriverModel DriverSpec OpProofs OperandProofs GemmProofs GemmDriverProofs RankDriverProofs
  TriSpec QrModel QrSpec QrAlgProofs QrStepProofs QrKerProofs QrKerProofs2 QrMulProofs QrLiftProofs QrTaskProofs QrEffProofs QrUnmProofs QrFacProofs QrInvProofs QrListProofs QrDrvProofs.
Import ListNotations.
Open Scope Z_scope.

Section Qr.
  Context {N : numbers}.
  Add Ring num_ring_qr_driver : (nring N).

  Lemma umat_unitary : forall p f g, uop N p f g -> is_unitary p (umat N f).
  Proof.
    intros p f g U i j Hi Hj. pose proof (uop_sym N p f g U) as U'. split.
    - transitivity (nsum (fun l => nmul (umat N g i l) (umat N f l j)) 0 p).
      + apply nsum_ext. intros l Hl. rewrite (umat_conj N p g f U' i l) by assumption. reflexivity.
      + unfold umat at 2. rewrite <- (uop_matrix N p g f U' (f (ee N j)) i Hi). rewrite (u_gf N p f g U) by assumption. reflexivity.
    - transitivity (nsum (fun l => nmul (umat N f i l) (umat N g l j)) 0 p).
      + apply nsum_ext. intros l Hl. rewrite (umat_conj N p g f U' l j) by assumption. reflexivity.
      + unfold umat at 2. rewrite <- (uop_matrix N p f g U (g (ee N j)) i Hi). rewrite (u_fg N p f g U) by assumption. reflexivity.
  Qed.

  Lemma id_unitary : forall p, is_unitary p (umat N (fun x => x)).
  Proof. intros p. eapply umat_unitary. apply uop_id. Qed.

  (* what zgeqrf leaves behind for zunmqr: the steps' reflectors in the matrix and their T *)
  Definition holds_q (nb ib m K : Z) (T : desc) (bT mt kt : Z) (El : Z -> Z -> N) (M : mem N) (taus : Z * Z -> Z -> N) : Prop :=
    forall o, In o (olist mt 0 kt) -> s_ok nb m K o /\ s_good N nb m K ib El (tel T bT M) (taus o) o.

  Lemma zunmqr_run : forall nb ib m K T bT mt kt El M taus, 0 < nb -> 0 < ib -> 0 < K <= m ->
    mt = (m - 1) / nb + 1 -> kt = (K - 1) / nb + 1 ->
    tok nb ib m K T -> holds_q nb ib m K T bT mt kt El M taus ->
    forall side trans cm cn pA lda pC ldc bA bC M2,
    side = PlasmaLeft \/ side = PlasmaRight -> trans = PlasmaNoTrans \/ trans = PlasmaConjTrans ->
    0 <= cm -> 0 <= cn -> (if side =? PlasmaLeft then cm else cn) = m -> Z.max 1 m <= lda -> Z.max 1 cm <= ldc ->
    NoDup [bT; bA; bC] -> (forall b, In b [fst pA; fst pC] -> ~ In b [bT; bA; bC]) ->
    apart pA lda m K pC ldc cm cn ->
    (forall i j, 0 <= i < m -> 0 <= j < K -> ul M2 pA lda i j = El i j) ->
    (forall l, fst l = bT -> M2 l = M l) ->
    driver_ensures (zunmqr nb side trans cm cn K pA lda bT T pC ldc bA bC) M2 (fun M3 =>
      (forall i j, 0 <= i < cm -> 0 <= j < cn ->
         ul M3 pC ldc i j = q_times side trans m (umat N (s_all N nb m K PlasmaNoTrans El taus (rev (olist mt 0 kt)))) (ul M2 pC ldc) i j) /\
      (forall l, fst l <> bA -> fst l <> bC -> ~ in_user pC ldc cm cn l -> M3 l = M2 l)).
  Proof.
    intros nb ib m K T bT mt kt El M taus Hnb Hib HK Emt Ekt HT HQ side trans cm cn pA lda pC ldc bA bC M2 HS HTr Hcm Hcn Em Hlda Hldc HND HF HAP HE HM.
    assert (UOP : uop N m (s_all N nb m K PlasmaNoTrans El taus (rev (olist mt 0 kt))) (s_all N nb m K PlasmaConjTrans El taus (olist mt 0 kt)))
      by (apply (s_all_uop N nb m K Hnb ltac:(lia) ib El (tel T bT M)); exact HQ).
    pose proof (uop_sym _ _ _ _ UOP) as UOP'.
    unfold zunmqr.
    replace (negb (side =? PlasmaLeft) && negb (side =? PlasmaRight)) with false by (destruct HS as [->| ->]; reflexivity).
    replace (negb (trans =? PlasmaConjTrans) && negb (trans =? PlasmaNoTrans)) with false by (destruct HTr as [->| ->]; reflexivity).
    destruct (Z.ltb_spec cm 0); [lia|]. destruct (Z.ltb_spec cn 0); [lia|]. cbv zeta. rewrite Em.
    destruct (Z.ltb_spec K 0); [lia|]. destruct (Z.ltb_spec m K); [lia|]. cbn [orb].
    destruct (Z.ltb_spec lda (Z.max 1 m)); [lia|]. destruct (Z.ltb_spec ldc (Z.max 1 cm)); [lia|].
    destruct ((cm =? 0) || (cn =? 0) || (K =? 0)) eqn:QR.
    { cbn [driver_ensures]. split; [reflexivity|]. split; [|reflexivity]. intros i j Hi Hj. exfalso.
      rewrite !orb_true_iff, !Z.eqb_eq in QR. lia. }
    rewrite !orb_false_iff, !Z.eqb_neq in QR. destruct QR as [[Q1 Q2] Q3].
    destruct (ge_create_succeeds nb m K Hnb ltac:(lia) ltac:(lia)) as (A & EA & _). rewrite EA.
    destruct (ge_create_succeeds nb cm cn Hnb ltac:(lia) ltac:(lia)) as (C & EC & _). rewrite EC.
    cbn [with_desc driver_ensures].
    destruct (ge_create_dn _ _ _ _ _ EA) as (DA & A1 & A2 & _).
    destruct (ge_create_dn _ _ _ _ _ EC) as (DC & C1 & C2 & _). clear EA EC.
    replace ((d_m C =? 0) || (d_n C =? 0) || (d_m A =? 0) || (d_n A =? 0)) with false
      by (symmetry; rewrite !orb_false_iff, !Z.eqb_neq; lia).
    pose proof (td_shape _ _ (sq_t _ _ _ DA)) as SA. pose proof (td_shape _ _ (sq_t _ _ _ DC)) as SC.
    assert (MA : d_mt A = mt). { rewrite (mt_aligned A SA), A1, (sq_mb _ _ _ DA). destruct (Z.eqb_spec m 0); lia. }
    assert (NA : d_nt A = kt). { rewrite (nt_aligned A SA), A2, (sq_nb _ _ _ DA). destruct (Z.eqb_spec K 0); lia. }
    assert (LE : kt <= mt). { assert ((K - 1) / nb <= (m - 1) / nb) by (apply Z.div_le_mono; lia). lia. }
    assert (OO : olist (d_mt A) 0 (Z.min (d_mt A) (d_nt A)) = olist mt 0 kt) by (rewrite MA, NA; f_equal; lia).
    assert (NAC : bA <> bC /\ bT <> bA /\ bT <> bC).
    { inversion_clear HND as [|? ? N1 N2]. inversion_clear N2 as [|? ? N3 N4]. cbn in *. intuition. }
    destruct NAC as (NAC & NTA & NTC).
    assert (FT : functionalZ (homeD T (in_tiles T))) by (apply homeD_functional; apply (tk_t _ _ _ _ _ HT)).
    (* the result of the tasks, for both sides *)
    assert (RES : forall M3, (forall i j, 0 <= i < m -> 0 <= j < K -> el M3 bA A i j = ul M2 pA lda i j) ->
      (forall i j, 0 <= i < cm -> 0 <= j < cn -> el M3 bC C i j = ul M2 pC ldc i j) ->
      (forall l, fst l <> bA -> fst l <> bC -> M3 l = M2 l) ->
      (forall i j, 0 <= i < cm -> 0 <= j < cn -> el (krun (pzunmqr side trans bA A bT T bC C) M3) bC C i j
         = q_times side trans m (umat N (s_all N nb m K PlasmaNoTrans El taus (rev (olist mt 0 kt)))) (ul M2 pC ldc) i j) /\
      (forall l, fst l <> bC -> krun (pzunmqr side trans bA A bT T bC C) M3 l = M3 l)).
    { intros M3 X1 X2 X3.
      assert (EL : forall o i j, s_ok nb m K o -> s_reads nb m K o i j -> El i j = el M3 bA A i j).
      { intros o i j HO R. destruct (s_reads_tile nb m K Hnb ltac:(lia) o i j HO R) as (R1 & R2 & R3). rewrite X1, HE by lia. reflexivity. }
      assert (GD : forall o, In o (olist mt 0 kt) -> s_good N nb m K ib (el M3 bA A) (tel T bT M3) (taus o) o).
      { intros o Ho. destruct (HQ o Ho) as [HO G].
        eapply (s_good_cong N nb m K Hnb ltac:(lia)); [assumption|assumption| | | |exact G]; auto.
        - intros i j R. apply (EL o); assumption.
        - intros a c _ _. unfold tel, rd. rewrite X3 by (cbn; auto). symmetry. apply HM. reflexivity. }
      destruct HS as [-> | ->].
      - change (PlasmaLeft =? PlasmaLeft) with true in *. cbv iota in Em. 
        assert (MC : d_mt C = d_mt A). { rewrite (mt_aligned C SC), C1, (sq_mb _ _ _ DC), MA. destruct (Z.eqb_spec cm 0); [lia|]. rewrite Em, Emt. reflexivity. }
        rewrite (pzunmqr_left_eq nb ib m K HK T bT HT A bA DA A1 A2 C bC DC trans) by lia.
        rewrite OO.
        destruct (steps_l nb ib m K Hnb Hib ltac:(lia) T bT HT A bA DA A1 ltac:(lia) C bC DC ltac:(auto) trans taus (uorder PlasmaLeft trans (olist mt 0 kt)) M3)
          as [S1 S2]; [lia|auto| | |].
        { intros o Ho. rewrite <- OO in Ho. apply uorder_in in Ho. rewrite OO in Ho. apply (HQ o Ho). }
        { intros o Ho. rewrite <- OO in Ho. apply uorder_in in Ho. rewrite OO in Ho. apply (GD o Ho). }
        split; [|exact S2].
        intros i j Hi Hj. rewrite S1 by lia. unfold q_times. change (PlasmaLeft =? PlasmaLeft) with true. cbv iota.
        transitivity (s_all N nb m K trans El taus (uorder PlasmaLeft trans (olist mt 0 kt)) (colv N (ul M2 pC ldc) j) i).
        { symmetry. apply (s_all_cong N nb m K Hnb ltac:(lia)); auto; try lia.
          - intros o Ho. rewrite <- OO in Ho. apply uorder_in in Ho. rewrite OO in Ho. apply (HQ o Ho).
          - intros o Ho i' j' R. rewrite <- OO in Ho. apply uorder_in in Ho. rewrite OO in Ho. apply (EL o); [apply (HQ o Ho)|assumption].
          - intros s Hs. unfold colv. symmetry. apply X2; lia. }
        unfold uorder, op_of. change (PlasmaLeft =? PlasmaLeft) with true. destruct HTr as [-> | ->].
        + change (PlasmaNoTrans =? PlasmaConjTrans) with false. change (PlasmaNoTrans =? PlasmaNoTrans) with true. cbn [Bool.eqb]. cbv iota.
          rewrite (uop_matrix N m _ _ UOP) by lia. reflexivity.
        + change (PlasmaConjTrans =? PlasmaConjTrans) with true. change (PlasmaConjTrans =? PlasmaNoTrans) with false.
          change (PlasmaConjTrans =? PlasmaTrans) with false. cbn [Bool.eqb]. cbv iota.
          rewrite (uop_matrix N m _ _ UOP') by lia. apply nsum_ext. intros s Hs. rewrite (umat_conj N m _ _ UOP' i s) by lia. reflexivity.
      - change (PlasmaRight =? PlasmaLeft) with false in *. cbv iota in Em. 
        assert (MC : d_nt C = d_mt A). { rewrite (nt_aligned C SC), C2, (sq_nb _ _ _ DC), MA. destruct (Z.eqb_spec cn 0); [lia|]. rewrite Em, Emt. reflexivity. }
        rewrite (pzunmqr_right_eq nb ib m K HK T bT HT A bA DA A1 A2 C bC DC trans) by lia.
        rewrite OO.
        destruct (steps_r nb ib m K Hnb Hib ltac:(lia) T bT HT A bA DA A1 ltac:(lia) C bC DC ltac:(auto) trans taus (uorder PlasmaRight trans (olist mt 0 kt)) M3)
          as [S1 S2]; [lia|auto| | |].
        { intros o Ho. rewrite <- OO in Ho. apply uorder_in in Ho. rewrite OO in Ho. apply (HQ o Ho). }
        { intros o Ho. rewrite <- OO in Ho. apply uorder_in in Ho. rewrite OO in Ho. apply (GD o Ho). }
        split; [|exact S2].
        intros i j Hi Hj. rewrite S1 by lia. unfold q_times. change (PlasmaRight =? PlasmaLeft) with false. cbv iota.
        transitivity (nconj (s_all N nb m K (flip trans) El taus (uorder PlasmaRight trans (olist mt 0 kt)) (fun s => nconj (ul M2 pC ldc i s)) j)).
        { f_equal. symmetry. apply (s_all_cong N nb m K Hnb ltac:(lia)); auto; try lia.
          - intros o Ho. rewrite <- OO in Ho. apply uorder_in in Ho. rewrite OO in Ho. apply (HQ o Ho).
          - intros o Ho i' j' R. rewrite <- OO in Ho. apply uorder_in in Ho. rewrite OO in Ho. apply (EL o); [apply (HQ o Ho)|assumption].
          - intros s Hs. f_equal. symmetry. apply X2; lia. }
        unfold uorder, op_of. change (PlasmaRight =? PlasmaLeft) with false. unfold flip. destruct HTr as [-> | ->].
        + change (PlasmaNoTrans =? PlasmaConjTrans) with false. change (PlasmaNoTrans =? PlasmaNoTrans) with true. cbn [Bool.eqb]. cbv iota.
          rewrite (uop_matrix N m _ _ UOP') by lia. rewrite nconj_sum. apply nsum_ext. intros s Hs.
          rewrite nconj_mul, nconj_conj. rewrite (umat_conj N m _ _ UOP s j) by lia. ring.
        + change (PlasmaConjTrans =? PlasmaConjTrans) with true. change (PlasmaConjTrans =? PlasmaNoTrans) with false.
          change (PlasmaConjTrans =? PlasmaTrans) with false. cbn [Bool.eqb]. cbv iota.
          rewrite (uop_matrix N m _ _ UOP) by lia. rewrite nconj_sum. apply nsum_ext. intros s Hs. rewrite nconj_mul, nconj_conj. ring. }
    eapply region_mono; [|apply (ext_region2 N nb bA A pA lda bC C pC ldc bT (homeD T (in_tiles T))); auto; rewrite ?A1, ?A2, ?C1, ?C2; auto; try lia].
    - intros M' (M3 & H1' & H2' & H3' & H4' & H5').
      rewrite A1, A2 in H1'. rewrite C1, C2 in H2', H4', H5'. destruct (RES M3 H1' H2' H3') as [R1 R2]. split.
      + intros i j Hi Hj. rewrite H4' by assumption. apply R1; assumption.
      + intros l L1 L2 L3. rewrite H5' by assumption. rewrite R2 by assumption. apply H3'; assumption.
    - intros env HEA HEC HET. destruct HS as [-> | ->].
      + change (PlasmaLeft =? PlasmaLeft) with true in *. cbv iota in Em. 
        assert (MC : d_mt C = d_mt A). { rewrite (mt_aligned C SC), C1, (sq_mb _ _ _ DC), MA. destruct (Z.eqb_spec cm 0); [lia|]. rewrite Em, Emt. reflexivity. }
        apply (unmqr_left_ok nb ib m K Hnb HK T bT HT A bA DA A1 A2 C bC DC trans env); auto; lia.
      + change (PlasmaRight =? PlasmaLeft) with false in *. cbv iota in Em. 
        assert (MC : d_nt C = d_mt A). { rewrite (nt_aligned C SC), C2, (sq_nb _ _ _ DC), MA. destruct (Z.eqb_spec cn 0); [lia|]. rewrite Em, Emt. reflexivity. }
        apply (unmqr_right_ok nb ib m K Hnb HK T bT HT A bA DA A1 A2 C bC DC trans env); auto; lia.
  Qed.

  Lemma zgeqrf_main : forall (lg : N -> list N -> N * N * list N), larfg_ok lg ->
    forall nb ib m n pA lda bA bT M,
    0 < nb -> 0 < ib -> 0 <= m -> 0 <= n -> Z.max 1 m <= lda -> NoDup [fst pA; bA; bT] ->
    driver_ensures (zgeqrf lg nb ib m n pA lda bA bT) M (fun M' => exists Q,
      is_unitary m Q /\
      (forall i j, 0 <= i < m -> 0 <= j < n ->
         ul M pA lda i j = nsum (fun l => nmul (Q i l) (if l <=? j then ul M' pA lda l j else n0)) 0 m) /\
      (forall l, fst l <> bA -> fst l <> bT -> ~ in_user pA lda m n l -> M' l = M l) /\
      forall T size side trans cm cn pV ldv pC ldc bV bC M2,
        geqrf_T nb ib m n = CrOk T size ->
        side = PlasmaLeft \/ side = PlasmaRight -> trans = PlasmaNoTrans \/ trans = PlasmaConjTrans ->
        0 <= cm -> 0 <= cn -> (if side =? PlasmaLeft then cm else cn) = m -> Z.max 1 m <= ldv -> Z.max 1 cm <= ldc ->
        NoDup [bT; bV; bC] -> (forall b, In b [fst pV; fst pC] -> ~ In b [bT; bV; bC]) ->
        apart pV ldv m (Z.min m n) pC ldc cm cn ->
        (forall i j, 0 <= i < m -> 0 <= j < Z.min m n -> ul M2 pV ldv i j = ul M' pA lda i j) ->
        (forall l, fst l = bT -> M2 l = M' l) ->
        driver_ensures (zunmqr nb side trans cm cn (Z.min m n) pV ldv bT T pC ldc bV bC) M2 (fun M3 =>
          (forall i j, 0 <= i < cm -> 0 <= j < cn -> ul M3 pC ldc i j = q_times side trans m Q (ul M2 pC ldc) i j) /\
          (forall l, fst l <> bV -> fst l <> bC -> ~ in_user pC ldc cm cn l -> M3 l = M2 l))).
  Proof.
    intros lg LG nb ib m n pA lda bA bT M Hnb Hib Hm Hn Hlda HND. unfold zgeqrf.
    destruct (Z.ltb_spec m 0); [lia|]. destruct (Z.ltb_spec n 0); [lia|]. destruct (Z.ltb_spec lda (Z.max 1 m)); [lia|].
    destruct (Z.eqb_spec (Z.min m n) 0) as [EK|EK].
    - cbn [driver_ensures]. split; [reflexivity|]. exists (umat N (fun x => x)).
      split; [apply id_unitary|]. split; [intros; lia|]. split; [reflexivity|].
      intros T size side trans cm cn pV ldv pC ldc bV bC M2 ET HS HTr Hcm Hcn Em Hldv Hldc HND2 HF HAP HE HM.
      unfold zunmqr.
      replace (negb (side =? PlasmaLeft) && negb (side =? PlasmaRight)) with false by (destruct HS as [->| ->]; reflexivity).
      replace (negb (trans =? PlasmaConjTrans) && negb (trans =? PlasmaNoTrans)) with false by (destruct HTr as [->| ->]; reflexivity).
      destruct (Z.ltb_spec cm 0); [lia|]. destruct (Z.ltb_spec cn 0); [lia|]. cbv zeta. rewrite Em, EK.
      change (0 <? 0) with false. destruct (Z.ltb_spec m 0); [lia|]. cbn [orb].
      destruct (Z.ltb_spec ldv (Z.max 1 m)); [lia|]. destruct (Z.ltb_spec ldc (Z.max 1 cm)); [lia|].
      change (0 =? 0) with true. rewrite orb_true_r. cbn [driver_ensures]. split; [reflexivity|]. split; [|reflexivity].
      intros i j Hi Hj. unfold q_times, umat, op_of.
      assert (EC : forall a b, nconj (ee N b a) = ee N b a) by (intros; unfold ee; destruct (a =? b); [apply nconj_1|apply nconj_0]).
      assert (ES : forall a b, ee N b a = ee N a b) by (intros; unfold ee; rewrite Z.eqb_sym; reflexivity).
      destruct HS as [-> | ->].
      + change (PlasmaLeft =? PlasmaLeft) with true in *. cbv iota in *.
        transitivity (nsum (fun l => nmul (ee N i l) (ul M2 pC ldc l j)) 0 m); [symmetry; apply (nsum_ee N (fun l => ul M2 pC ldc l j)); lia|].
        apply nsum_ext. intros l Hl. destruct HTr as [-> | ->].
        * change (PlasmaNoTrans =? PlasmaNoTrans) with true. cbv iota. rewrite (ES l i). reflexivity.
        * change (PlasmaConjTrans =? PlasmaNoTrans) with false. change (PlasmaConjTrans =? PlasmaTrans) with false. cbv iota. rewrite EC. reflexivity.
      + change (PlasmaRight =? PlasmaLeft) with false in *. cbv iota in *.
        transitivity (nsum (fun l => nmul (ee N j l) (ul M2 pC ldc i l)) 0 m); [symmetry; apply (nsum_ee N (fun l => ul M2 pC ldc i l)); lia|].
        apply nsum_ext. intros l Hl. destruct HTr as [-> | ->].
        * change (PlasmaNoTrans =? PlasmaNoTrans) with true. cbv iota. ring.
        * change (PlasmaConjTrans =? PlasmaNoTrans) with false. change (PlasmaConjTrans =? PlasmaTrans) with false. cbv iota. rewrite EC, (ES l j). ring.
    - destruct (ge_create_succeeds nb m n Hnb ltac:(lia) ltac:(lia)) as (A & EA & _). rewrite EA.
      destruct (geqrf_T_ok nb ib m n Hnb Hib ltac:(lia) ltac:(lia)) as (T & size & ET & HT). rewrite ET.
      cbn [with_desc driver_ensures].
      destruct (ge_create_dn _ _ _ _ _ EA) as (DA & A1 & A2 & _). clear EA.
      destruct (Z.eqb_spec (Z.min (d_m A) (d_n A)) 0) as [|NZ]; [lia|].
      pose proof (td_shape _ _ (sq_t _ _ _ DA)) as SA.
      assert (MA : d_mt A = (m - 1) / nb + 1). { rewrite (mt_aligned A SA), A1, (sq_mb _ _ _ DA). destruct (Z.eqb_spec m 0); lia. }
      assert (NA : d_nt A = (n - 1) / nb + 1). { rewrite (nt_aligned A SA), A2, (sq_nb _ _ _ DA). destruct (Z.eqb_spec n 0); lia. }
      assert (NAC : bA <> bT /\ fst pA <> bA /\ fst pA <> bT).
      { inversion_clear HND as [|? ? N1 N2]. inversion_clear N2 as [|? ? N3 N4]. cbn in *. intuition. }
      destruct NAC as (NAT & NPA & NPT).
      assert (FT : functionalZ (homeD T (in_tiles T))) by (apply homeD_functional; apply (tk_t _ _ _ _ _ HT)).
      eapply region_mono; [|apply (ext_region1 N nb bA A pA lda bT (homeD T (in_tiles T))); auto; rewrite ?A1, ?A2; auto; try lia].
      2:{ intros env HEA HET. apply (geqrf_ok lg nb ib m n Hnb T bT HT A bA DA A1 A2); auto; lia. }
      intros M' (M3 & H1' & H2' & H3' & H4'). rewrite A1, A2 in H1', H3', H4'.
      rewrite (pzgeqrf_eq lg nb ib m n Hnb T bT HT A bA DA A1 A2 ltac:(lia) ltac:(lia)) in H3', H4'.
      pose proof (steps_geqrf lg LG nb ib m n Hnb Hib T bT HT A bA DA A1 A2 NAT (ul M pA lda) M3 ltac:(lia) ltac:(lia) H1') as SG.
      cbv zeta in SG. rewrite MA, NA in SG, H3', H4'.
      replace (Z.min ((m - 1) / nb + 1) ((n - 1) / nb + 1)) with ((Z.min m n - 1) / nb + 1) in SG, H3', H4'.
      2:{ destruct (Z.min_spec m n) as [[L ->]|[L ->]].
          - assert ((m - 1) / nb <= (n - 1) / nb) by (apply Z.div_le_mono; lia). lia.
          - assert ((n - 1) / nb <= (m - 1) / nb) by (apply Z.div_le_mono; lia). lia. }
      remember (olist ((m - 1) / nb + 1) 0 ((Z.min m n - 1) / nb + 1)) as os eqn:EO.
      remember (krun (flat_map (stepts lg nb ib m n T bT A bA) os) M3) as M4 eqn:E4. clear E4.
      destruct SG as [(taus & G1 & G2) G3].
      remember (Z.min m n) as K eqn:EKK.
      assert (UOP : uop N m (s_all N nb m K PlasmaNoTrans (el M4 bA A) taus (rev os)) (s_all N nb m K PlasmaConjTrans (el M4 bA A) taus os)).
      { apply (s_all_uop N nb m K Hnb ltac:(lia) ib (el M4 bA A) (tel T bT M4)). exact G1. }
      exists (umat N (s_all N nb m K PlasmaNoTrans (el M4 bA A) taus (rev os))).
      split; [eapply umat_unitary; exact UOP|]. split; [|split].
      + intros i j Hi Hj. 
        transitivity (s_all N nb m K PlasmaNoTrans (el M4 bA A) taus (rev os) (fun l => if j <? l then n0 else el M4 bA A l j) i).
        * change (ul M pA lda i j) with (colv N (ul M pA lda) j i). rewrite <- (u_fg N m _ _ UOP (colv N (ul M pA lda) j) i Hi). apply (uop_ext N m _ _ UOP); [|assumption].
          intros s Hs. symmetry. apply G2; assumption.
        * rewrite (uop_matrix N m _ _ UOP) by assumption. apply nsum_ext. intros l Hl. f_equal.
          destruct (Z.ltb_spec j l), (Z.leb_spec l j); try lia; [reflexivity|]. symmetry. apply H3'; assumption.
      + intros l L1 L2 L3. rewrite H4' by assumption. rewrite G3 by assumption. apply H2'. assumption.
      + intros T' size' side trans cm cn pV ldv pC ldc bV bC M2 ET' HS HTr Hcm Hcn Em Hldv Hldc HND2 HF HAP HE HM.
        assert (T' = T) by congruence. subst T'.
        eapply driver_mono; [|apply (zunmqr_run nb ib m K T bT ((m - 1) / nb + 1) ((K - 1) / nb + 1) (el M4 bA A) M4 taus); auto; try lia].
        * intros M5 X. rewrite <- EO in X. exact X.
        * intros o Ho. rewrite <- EO in Ho. apply G1. assumption.
        * intros i j Hi Hj. rewrite HE by assumption. apply H3'; lia.
        * intros l Hl. rewrite HM by assumption. apply H4'. intros X. apply in_user_block in X. congruence.
  Qed.

  Lemma zgeqrf_factors : forall (lg : N -> list N -> N * N * list N), larfg_ok lg ->
    forall nb ib m n pA lda bA bT M,
    0 < nb -> 0 < ib -> 0 <= m -> 0 <= n -> Z.max 1 m <= lda -> NoDup [fst pA; bA; bT] ->
    driver_ensures (zgeqrf lg nb ib m n pA lda bA bT) M (fun M' =>
      (exists Q, is_unitary m Q /\
        forall i j, 0 <= i < m -> 0 <= j < n ->
          ul M pA lda i j = nsum (fun l => nmul (Q i l) (if l <=? j then ul M' pA lda l j else n0)) 0 m) /\
      (forall l, fst l <> bA -> fst l <> bT -> ~ in_user pA lda m n l -> M' l = M l)).
  Proof.
    intros. eapply driver_mono; [|apply zgeqrf_main; assumption].
    intros M' (Q & Q1 & Q2 & Q3 & _). split; [exists Q; split; assumption|assumption].
  Qed.
End Qr.
