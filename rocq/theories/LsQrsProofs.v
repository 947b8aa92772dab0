(* plasma_zgeqrs solves least squares problems. *)
From Coq Require Import ZArith List Bool Lia Ring.
From Verif Require Import Base NumModel NumProofs FieldModel ControlModel TaskModel TaskSpec TaskProofs DescModel DescSpec DescDriverModel DescProofs DescProofs3 DescProofs4
  MatModel MatSpec MatProofs RegionProofs LayoutModel LayoutProofs LayoutProofs2 DriverModel DriverSpec OpProofs OperandProofs GemmProofs GemmDriverProofs RankDriverProofs
  TriModel TriSpec TriProofs TrsmProofs PosvProofs LasetModel LasetProofs
  QrModel QrSpec QrAlgProofs QrStepProofs QrKerProofs QrKerProofs2 QrMulProofs QrLiftProofs QrTaskProofs QrEffProofs QrUnmProofs QrFacProofs QrInvProofs QrListProofs QrDrvProofs QrDriverProofs
  LsModel LsSpec LsAlgProofs LsViewProofs LsProofs.
Import ListNotations.
Open Scope Z_scope.

Section Unm.
  Context {N : numbers}.
  Add Ring num_ring_ls_unm : (nring N).

  (* the matrix Q of the steps held by El *)
  Definition qmat (nb m K : Z) (El : Z -> Z -> N) (taus : Z * Z -> Z -> N) : Z -> Z -> N :=
    umat N (s_all N nb m K PlasmaNoTrans El taus (rev (olist ((m - 1) / nb + 1) 0 ((K - 1) / nb + 1)))).

  Lemma qmat_uop : forall nb ib m K T bT El M taus, 0 < nb -> K <= m ->
    holds_q nb ib m K T bT ((m - 1) / nb + 1) ((K - 1) / nb + 1) El M taus ->
    uop N m (s_all N nb m K PlasmaNoTrans El taus (rev (olist ((m - 1) / nb + 1) 0 ((K - 1) / nb + 1))))
      (s_all N nb m K PlasmaConjTrans El taus (olist ((m - 1) / nb + 1) 0 ((K - 1) / nb + 1))).
  Proof. intros nb ib m K T bT El M taus Hnb HK HQ. apply (s_all_uop N nb m K Hnb HK ib El (tel T bT M)). exact HQ. Qed.

  Lemma qmat_unitary : forall nb ib m K T bT El M taus, 0 < nb -> K <= m ->
    holds_q nb ib m K T bT ((m - 1) / nb + 1) ((K - 1) / nb + 1) El M taus -> is_unitary m (qmat nb m K El taus).
  Proof. intros. eapply umat_unitary. eapply qmat_uop; eassumption. Qed.

  Lemma unmqr_left_eff : forall nb ib m K T bT El M taus, 0 < nb -> 0 < ib -> 0 < K <= m ->
    tok nb ib m K T -> holds_q nb ib m K T bT ((m - 1) / nb + 1) ((K - 1) / nb + 1) El M taus ->
    forall A bA C bC trans M3, dn nb A -> d_m A = m -> d_n A = K -> dn nb C -> d_m C = m ->
    bA <> bC -> bT <> bC -> trans = PlasmaNoTrans \/ trans = PlasmaConjTrans ->
    (forall i j, 0 <= i < m -> 0 <= j < K -> el M3 bA A i j = El i j) ->
    (forall l, fst l = bT -> M3 l = M l) ->
    (forall i j, 0 <= i < m -> 0 <= j < d_n C ->
       el (krun (pzunmqr PlasmaLeft trans bA A bT T bC C) M3) bC C i j
       = nsum (fun l => nmul (op_of trans (qmat nb m K El taus) i l) (el M3 bC C l j)) 0 m) /\
    (forall l, fst l <> bC -> krun (pzunmqr PlasmaLeft trans bA A bT T bC C) M3 l = M3 l).
  Proof.
    intros nb ib m K T bT El M taus Hnb Hib HK HT HQ A bA C bC trans M3 DA A1 A2 DC C1 NAC NTC HTr X1 X3.
    pose proof (qmat_uop nb ib m K T bT El M taus Hnb ltac:(lia) HQ) as UOP. pose proof (uop_sym _ _ _ _ UOP) as UOP'.
    unfold qmat. remember ((m - 1) / nb + 1) as mt eqn:Emt. remember ((K - 1) / nb + 1) as kt eqn:Ekt.
    pose proof (td_shape _ _ (sq_t _ _ _ DA)) as SA. pose proof (td_shape _ _ (sq_t _ _ _ DC)) as SC.
    assert (MA : d_mt A = mt). { rewrite (mt_aligned A SA), A1, (sq_mb _ _ _ DA). destruct (Z.eqb_spec m 0); lia. }
    assert (NA : d_nt A = kt). { rewrite (nt_aligned A SA), A2, (sq_nb _ _ _ DA). destruct (Z.eqb_spec K 0); lia. }
    assert (MC : d_mt C = d_mt A). { rewrite (mt_aligned C SC), C1, (sq_mb _ _ _ DC), MA. destruct (Z.eqb_spec m 0); [lia|]. rewrite Emt. reflexivity. }
    assert (LE : kt <= mt). { assert ((K - 1) / nb <= (m - 1) / nb) by (apply Z.div_le_mono; lia). lia. }
    assert (OO : olist (d_mt A) 0 (Z.min (d_mt A) (d_nt A)) = olist mt 0 kt) by (rewrite MA, NA; f_equal; lia).
    assert (EL : forall o i j, s_ok nb m K o -> s_reads nb m K o i j -> El i j = el M3 bA A i j).
    { intros o i j HO R. destruct (s_reads_tile nb m K Hnb ltac:(lia) o i j HO R) as (R1 & R2 & R3). rewrite X1 by lia. reflexivity. }
    assert (GD : forall o, In o (olist mt 0 kt) -> s_good N nb m K ib (el M3 bA A) (tel T bT M3) (taus o) o).
    { intros o Ho. destruct (HQ o Ho) as [HO G].
      eapply (s_good_cong N nb m K Hnb ltac:(lia)); [assumption|assumption| | | |exact G]; auto.
      - intros i j R. apply (EL o); assumption.
      - intros a c _ _. unfold tel, rd. rewrite X3 by (cbn; auto). reflexivity. }
    rewrite (pzunmqr_left_eq nb ib m K HK T bT HT A bA DA A1 A2 C bC DC trans) by lia.
    rewrite OO.
    assert (UI : forall o, In o (uorder PlasmaLeft trans (olist mt 0 kt)) -> In o (olist mt 0 kt)).
    { intros o Ho. rewrite <- OO in Ho. apply uorder_in in Ho. rewrite OO in Ho. exact Ho. }
    destruct (steps_l nb ib m K Hnb Hib ltac:(lia) T bT HT A bA DA A1 ltac:(lia) C bC DC ltac:(auto) trans taus (uorder PlasmaLeft trans (olist mt 0 kt)) M3)
      as [S1 S2]; [lia|auto| | |].
    { intros o Ho. apply (HQ o (UI o Ho)). }
    { intros o Ho. apply (GD o (UI o Ho)). }
    split; [|exact S2].
    intros i j Hi Hj. rewrite S1 by lia.
    transitivity (s_all N nb m K trans El taus (uorder PlasmaLeft trans (olist mt 0 kt)) (colv N (el M3 bC C) j) i).
    { symmetry. apply (s_all_cong N nb m K Hnb ltac:(lia)); auto; try lia.
      - intros o Ho. apply (HQ o (UI o Ho)).
      - intros o Ho i' j' R. apply (EL o); [apply (HQ o (UI o Ho))|assumption].
      - intros k Hk. reflexivity. }
    unfold uorder, op_of. change (PlasmaLeft =? PlasmaLeft) with true. destruct HTr as [-> | ->].
    - change (PlasmaNoTrans =? PlasmaConjTrans) with false. change (PlasmaNoTrans =? PlasmaNoTrans) with true. cbn [Bool.eqb]. cbv iota.
      rewrite (uop_matrix N m _ _ UOP) by lia. reflexivity.
    - change (PlasmaConjTrans =? PlasmaConjTrans) with true. change (PlasmaConjTrans =? PlasmaNoTrans) with false.
      change (PlasmaConjTrans =? PlasmaTrans) with false. cbn [Bool.eqb]. cbv iota.
      rewrite (uop_matrix N m _ _ UOP') by lia. apply nsum_ext. intros s Hs. rewrite (umat_conj N m _ _ UOP' i s) by lia. reflexivity.
  Qed.

  (* the tasks of pzgeqrf leave the steps of a factorization of the matrix behind *)
  Lemma pzgeqrf_eff : forall (lg : N -> list N -> N * N * list N), larfg_ok lg ->
    forall nb ib m n T bT A bA, 0 < nb -> 0 < ib -> 0 < m -> 0 < n -> tok nb ib m (Z.min m n) T ->
    dn nb A -> d_m A = m -> d_n A = n -> bA <> bT ->
    forall M3, exists taus, let M4 := krun (pzgeqrf lg bA A bT T) M3 in let K := Z.min m n in
      holds_q nb ib m K T bT ((m - 1) / nb + 1) ((K - 1) / nb + 1) (el M4 bA A) M4 taus /\
      (forall i j, 0 <= i < m -> 0 <= j < n ->
         el M3 bA A i j = nsum (fun l => nmul (qmat nb m K (el M4 bA A) taus i l) (if l <=? j then el M4 bA A l j else n0)) 0 m) /\
      (forall l, fst l <> bA -> fst l <> bT -> M4 l = M3 l).
  Proof.
    intros lg LG nb ib m n T bT A bA Hnb Hib Hm Hn HT DA A1 A2 NAT M3. cbv zeta.
    pose proof (td_shape _ _ (sq_t _ _ _ DA)) as SA.
    assert (MA : d_mt A = (m - 1) / nb + 1). { rewrite (mt_aligned A SA), A1, (sq_mb _ _ _ DA). destruct (Z.eqb_spec m 0); lia. }
    assert (NA : d_nt A = (n - 1) / nb + 1). { rewrite (nt_aligned A SA), A2, (sq_nb _ _ _ DA). destruct (Z.eqb_spec n 0); lia. }
    rewrite (pzgeqrf_eq lg nb ib m n Hnb T bT HT A bA DA A1 A2 ltac:(lia) ltac:(lia)).
    pose proof (steps_geqrf lg LG nb ib m n Hnb Hib T bT HT A bA DA A1 A2 NAT (el M3 bA A) M3 ltac:(lia) ltac:(lia) (fun i j _ _ => eq_refl)) as SG.
    cbv zeta in SG. rewrite MA, NA in SG. rewrite MA, NA.
    replace (Z.min ((m - 1) / nb + 1) ((n - 1) / nb + 1)) with ((Z.min m n - 1) / nb + 1) in *.
    2:{ destruct (Z.min_spec m n) as [[L ->]|[L ->]].
        - assert ((m - 1) / nb <= (n - 1) / nb) by (apply Z.div_le_mono; lia). lia.
        - assert ((n - 1) / nb <= (m - 1) / nb) by (apply Z.div_le_mono; lia). lia. }
    remember (krun (flat_map (stepts lg nb ib m n T bT A bA) (olist ((m - 1) / nb + 1) 0 ((Z.min m n - 1) / nb + 1))) M3) as M4 eqn:E4. clear E4.
    destruct SG as [(taus & G1 & G2) G3]. exists taus. split; [exact G1|]. split; [|exact G3].
    pose proof (qmat_uop nb ib m (Z.min m n) T bT (el M4 bA A) M4 taus Hnb ltac:(lia) G1) as UOP. unfold qmat.
    remember (Z.min m n) as K eqn:EKK. remember (olist ((m - 1) / nb + 1) 0 ((K - 1) / nb + 1)) as os eqn:EO.
    intros i j Hi Hj.
    transitivity (s_all N nb m K PlasmaNoTrans (el M4 bA A) taus (rev os) (fun l => if j <? l then n0 else el M4 bA A l j) i).
    - change (el M3 bA A i j) with (colv N (el M3 bA A) j i). rewrite <- (u_fg N m _ _ UOP (colv N (el M3 bA A) j) i Hi). apply (uop_ext N m _ _ UOP); [|assumption].
      intros s Hs. symmetry. apply G2; assumption.
    - rewrite (uop_matrix N m _ _ UOP) by assumption. apply nsum_ext. intros l Hl. f_equal.
      destruct (Z.ltb_spec j l), (Z.leb_spec l j); try lia; reflexivity.
  Qed.

  (* what zgeqrf leaves behind *)
  Lemma zgeqrf_core : forall (lg : N -> list N -> N * N * list N), larfg_ok lg ->
    forall nb ib m n pA lda bA bT M,
    0 < nb -> 0 < ib -> 0 < m -> 0 < n -> Z.max 1 m <= lda -> NoDup [fst pA; bA; bT] ->
    driver_ensures (zgeqrf lg nb ib m n pA lda bA bT) M (fun M' => exists T size taus El, let K := Z.min m n in
      geqrf_T nb ib m n = CrOk T size /\ tok nb ib m K T /\
      (forall i j, 0 <= i < m -> 0 <= j < n -> ul M' pA lda i j = El i j) /\
      holds_q nb ib m K T bT ((m - 1) / nb + 1) ((K - 1) / nb + 1) El M' taus /\
      (forall i j, 0 <= i < m -> 0 <= j < n ->
         ul M pA lda i j = nsum (fun l => nmul (qmat nb m K El taus i l) (if l <=? j then El l j else n0)) 0 m) /\
      (forall l, fst l <> bA -> fst l <> bT -> ~ in_user pA lda m n l -> M' l = M l)).
  Proof.
    intros lg LG nb ib m n pA lda bA bT M Hnb Hib Hm Hn Hlda HND. unfold zgeqrf.
    destruct (Z.ltb_spec m 0); [lia|]. destruct (Z.ltb_spec n 0); [lia|]. destruct (Z.ltb_spec lda (Z.max 1 m)); [lia|].
    destruct (Z.eqb_spec (Z.min m n) 0) as [EK|EK]; [lia|].
    destruct (ge_create_succeeds nb m n Hnb ltac:(lia) ltac:(lia)) as (A & EA & _). rewrite EA.
    destruct (geqrf_T_ok nb ib m n Hnb Hib ltac:(lia) ltac:(lia)) as (T & size & ET & HT). rewrite ET.
    cbn [with_desc driver_ensures].
    destruct (ge_create_dn _ _ _ _ _ EA) as (DA & A1 & A2 & _). clear EA.
    destruct (Z.eqb_spec (Z.min (d_m A) (d_n A)) 0) as [|NZ]; [lia|].
    assert (NAC : bA <> bT /\ fst pA <> bA /\ fst pA <> bT).
    { inversion_clear HND as [|? ? N1 N2]. inversion_clear N2 as [|? ? N3 N4]. cbn in *. intuition. }
    destruct NAC as (NAT & NPA & NPT).
    assert (FT : functionalZ (homeD T (in_tiles T))) by (apply homeD_functional; apply (tk_t _ _ _ _ _ HT)).
    eapply region_mono; [|apply (ext_region1 N nb bA A pA lda bT (homeD T (in_tiles T))); auto; rewrite ?A1, ?A2; auto; try lia].
    2:{ intros env HEA HET. apply (geqrf_ok lg nb ib m n Hnb T bT HT A bA DA A1 A2); auto; lia. }
    intros M' (M3 & H1' & H2' & H3' & H4'). rewrite A1, A2 in H1', H3', H4'.
    destruct (pzgeqrf_eff lg LG nb ib m n T bT A bA Hnb Hib Hm Hn HT DA A1 A2 NAT M3) as (taus & P1 & P2 & P3).
    remember (krun (pzgeqrf lg bA A bT T) M3) as M4 eqn:E4. clear E4.
    exists T, size, taus, (el M4 bA A). cbv zeta. split; [reflexivity|]. split; [assumption|]. split; [assumption|]. split; [|split].
    - intros o Ho. destruct (P1 o Ho) as [O1 O2]. split; [assumption|].
      eapply (s_good_cong N nb m (Z.min m n) Hnb ltac:(lia)); [assumption|assumption| | | |exact O2]; auto.
      intros a c _ _. unfold tel, rd. symmetry. apply H4'. intros X. apply in_user_block in X. cbn in X. congruence.
    - intros i j Hi Hj. rewrite <- H1' by assumption. apply P2; assumption.
    - intros l L1 L2 L3. rewrite H4' by assumption. rewrite P3 by assumption. apply H2'. assumption.
  Qed.
End Unm.

Section Geqrs.
  Context {F : fields}.
  Add Ring num_ring_ls_qrs : (nring F).

  Lemma adj_qh : forall m (Q : Z -> Z -> F) (x : Z -> F) i,
    nsum (fun l => nmul (op_of PlasmaConjTrans Q i l) (x l)) 0 m = qh m Q x i.
  Proof. reflexivity. Qed.

  Lemma zgeqrs_run : forall nb ib m n T bT El M taus A0 R, 0 < nb -> 0 < ib -> 0 < n <= m ->
    tok nb ib m n T -> holds_q nb ib m n T bT ((m - 1) / nb + 1) ((n - 1) / nb + 1) El M taus ->
    (forall i j, 0 <= i < m -> 0 <= j < n ->
       A0 i j = nsum (fun l => nmul (qmat nb m n El taus i l) (if l <=? j then R l j else n0)) 0 m) ->
    (forall i j, 0 <= i < m -> 0 <= j < n -> R i j = El i j) ->
    (n1 : F) <> n0 -> full_column_rank m n A0 ->
    forall nrhs pA lda pB ldb bA bB M2, 0 <= nrhs -> Z.max 1 m <= lda -> Z.max 1 m <= ldb ->
    NoDup [bT; bA; bB] -> (forall b, In b [fst pA; fst pB] -> ~ In b [bT; bA; bB]) ->
    apart pA lda m n pB ldb m nrhs ->
    (forall i j, 0 <= i < m -> 0 <= j < n -> ul M2 pA lda i j = El i j) ->
    (forall l, fst l = bT -> M2 l = M l) ->
    driver_ensures (zgeqrs (F := F) nb m n nrhs pA lda bT T pB ldb bA bB) M2 (fun M3 =>
      (forall j, 0 <= j < nrhs ->
         least_squares m n A0 (fun i => ul M2 pB ldb i j) (fun i => ul M3 pB ldb i j) /\
         sum_squares (fun i => nsub (ul M2 pB ldb i j) (mat_vec n A0 (fun i => ul M3 pB ldb i j) i)) 0 m
         = sum_squares (fun i => ul M3 pB ldb i j) n m) /\
      (forall l, fst l <> bA -> fst l <> bB -> ~ in_user pB ldb m nrhs l -> M3 l = M2 l)).
  Proof.
    intros nb ib m n T bT El M taus A0 R Hnb Hib Hn HT HQ HF HR NT RK nrhs pA lda pB ldb bA bB M2 Hnr Hlda Hldb HND HFr HAP HE HM.
    unfold zgeqrs.
    destruct (Z.ltb_spec m 0); [lia|]. destruct (Z.ltb_spec n 0); [lia|]. destruct (Z.ltb_spec m n); [lia|]. cbn [orb].
    destruct (Z.ltb_spec nrhs 0); [lia|]. destruct (Z.ltb_spec lda (Z.max 1 m)); [lia|]. destruct (Z.ltb_spec ldb (Z.max 1 (Z.max 1 m))); [lia|].
    destruct ((m =? 0) || (n =? 0) || (nrhs =? 0)) eqn:QR.
    { cbn [driver_ensures]. split; [reflexivity|]. split; [|reflexivity]. intros j Hj. exfalso.
      rewrite !orb_true_iff, !Z.eqb_eq in QR. lia. }
    rewrite !orb_false_iff, !Z.eqb_neq in QR. destruct QR as [[Q1 Q2] Q3].
    destruct (ge_create_succeeds nb m n Hnb ltac:(lia) ltac:(lia)) as (A & EA & _). rewrite EA.
    destruct (ge_create_succeeds nb m nrhs Hnb ltac:(lia) ltac:(lia)) as (B & EB & _). rewrite EB.
    cbn [with_desc driver_ensures].
    destruct (ge_create_dn _ _ _ _ _ EA) as (DA & A1 & A2 & _).
    destruct (ge_create_dn _ _ _ _ _ EB) as (DB & B1 & B2 & _).
    destruct (ge_create_gen _ _ _ _ _ EA) as (GA & _). destruct (ge_create_gen _ _ _ _ _ EB) as (GB & _). clear EA EB.
    replace ((d_m A =? 0) || (d_n A =? 0) || (d_n B =? 0)) with false
      by (symmetry; rewrite !orb_false_iff, !Z.eqb_neq; lia).
    assert (NAC : bA <> bB /\ bT <> bA /\ bT <> bB).
    { inversion_clear HND as [|? ? N1 N2]. inversion_clear N2 as [|? ? N3 N4]. cbn in *. intuition. }
    destruct NAC as (NAB & NTA & NTB).
    assert (FT : functionalZ (homeD T (in_tiles T))) by (apply homeD_functional; apply (tk_t _ _ _ _ _ HT)).
    pose proof (view_tasks_at (F := F) nb A B bA bB PlasmaUpper n PlasmaNoTrans GA DA GB DB (or_introl eq_refl) ltac:(lia) ltac:(lia) ltac:(lia) ltac:(lia) ltac:(lia) NAB) as VT.
    pose proof (view_tasks_ok (F := F) nb A B bA bB PlasmaUpper n PlasmaNoTrans GA DA GB DB (or_introl eq_refl) ltac:(lia) ltac:(lia) ltac:(lia) ltac:(lia)) as VO.
    rewrite A2. rewrite B2. rewrite <- B2. fold (view_tasks (F := F) A B bA bB PlasmaUpper n PlasmaNoTrans).
    pose proof (td_shape _ _ (sq_t _ _ _ DA)) as SA. pose proof (td_shape _ _ (sq_t _ _ _ DB)) as SB.
    assert (MB : d_mt B = d_mt A).
    { rewrite (mt_aligned B SB), B1, (sq_mb _ _ _ DB), (mt_aligned A SA), A1, (sq_mb _ _ _ DA). reflexivity. }
    eapply region_mono; [|apply (ext_region2 F nb bA A pA lda bB B pB ldb bT (homeD T (in_tiles T))); auto; rewrite ?A1, ?A2, ?B1, ?B2; auto; try lia].
    - intros M' (M3 & H1' & H2' & H3' & H4' & H5').
      rewrite A1, A2 in H1'. rewrite B1, B2 in H2', H4', H5'. rewrite krun_app in H4', H5'.
      assert (X1 : forall i j, 0 <= i < m -> 0 <= j < n -> el M3 bA A i j = El i j) by (intros; rewrite H1' by assumption; apply HE; assumption).
      assert (X3 : forall l, fst l = bT -> M3 l = M l).
      { intros l Hl. rewrite H3' by congruence. apply HM. assumption. }
      destruct (unmqr_left_eff nb ib m n T bT El M taus Hnb Hib Hn HT HQ A bA B bB PlasmaConjTrans M3 DA A1 A2 DB B1 NAB NTB (or_intror eq_refl) X1 X3) as [U1 U2].
      remember (krun (pzunmqr PlasmaLeft PlasmaConjTrans bA A bT T bB B) M3) as M4 eqn:E4. clear E4.
      pose proof (qmat_unitary nb ib m n T bT El M taus Hnb ltac:(lia) HQ) as UN.
      remember (qmat nb m n El taus) as Q eqn:EQ.
      pose proof (rank_diag m n A0 Q R ltac:(lia) HF NT RK) as DG.
      assert (AE : forall i j, 0 <= i < m -> 0 <= j < n -> el M4 bA A i j = R i j).
      { intros i j Hi Hj. rewrite HR by lia. rewrite <- X1 by lia. unfold el. apply U2. cbn. congruence. }
      destruct (VT M4 (rt R)) as (V1 & V2 & V3).
      { intros i j Hi Hj. unfold rt, uplo_sel. cbn. destruct (i <=? j); [|reflexivity]. symmetry. apply AE; lia. }
      { intros i Hi. unfold rt. rewrite Z.leb_refl. apply DG. assumption. }
      remember (krun (view_tasks A B bA bB PlasmaUpper n PlasmaNoTrans) M4) as M5 eqn:E5. clear E5.
      split.
      + intros j Hj.
        assert (YB : forall i, 0 <= i < m -> el M4 bB B i j = qh m Q (fun i => ul M2 pB ldb i j) i).
        { intros i Hi. rewrite U1 by lia. rewrite adj_qh. unfold qh. apply nsum_ext. intros l Hl. rewrite H2' by lia. reflexivity. }
        destruct (ls_solution m n A0 Q R ltac:(lia) UN HF (fun i => ul M2 pB ldb i j) (fun i => ul M' pB ldb i j)) as [L1 L2].
        { intros c Hc. rewrite <- YB by lia. rewrite <- (V3 c j Hc) by lia. unfold mat_vec. apply nsum_ext. intros l Hl. unfold op_of.
          change (PlasmaNoTrans =? PlasmaNoTrans) with true. cbv iota. rewrite H4' by lia. reflexivity. }
        split; [exact L1|]. rewrite L2. unfold sum_squares. apply nsum_ext. intros i Hi. rewrite <- YB by lia. rewrite H4' by lia.
        rewrite V2 by lia. reflexivity.
      + intros l L1 L2 L3. rewrite B2 in L3. rewrite H5' by assumption. rewrite V1, U2 by assumption. apply H3'; assumption.
    - intros env HEA HEB HET. apply Forall_app. split; [|apply VO; try assumption; lia].
      apply (unmqr_left_ok nb ib m n Hnb Hn T bT HT A bA DA A1 A2 B bB DB PlasmaConjTrans env); auto; lia.
  Qed.
End Geqrs.
