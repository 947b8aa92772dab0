(* What the tasks of the tile LQ routines compute. *)
From Coq Require Import ZArith List Bool Lia Ring.
From Verif Require Import Base NumModel NumProofs FieldModel ControlModel TaskModel TaskSpec TaskProofs DescModel DescSpec DescDriverModel DescProofs DescProofs3 DescProofs4 DescTProofs
  MatModel MatSpec MatProofs RegionProofs LayoutModel LayoutProofs LayoutProofs2 DriverModel DriverSpec OpProofs OperandProofs GemmProofs GemmDriverProofs RankDriverProofs
  TriModel TriSpec QrModel QrSpec QrAlgProofs QrStepProofs QrKerProofs QrKerProofs2 QrMulProofs QrLiftProofs QrTaskProofs QrEffProofs QrUnmProofs QrFacProofs QrInvProofs QrListProofs QrDrvProofs QrDriverProofs
  LsQrsProofs LqModel LqDualProofs LqDual2Proofs LqSimProofs LqListProofs LqMateProofs.
Import ListNotations.
Open Scope Z_scope.

(* the descriptor of the T factors of an LQ factorization of an m x n matrix *)
Definition ltok (nb ib m n : Z) (T : desc) : Prop :=
  tok nb ib 0 0 T /\ forall k q, 0 <= k -> 0 <= q -> k * nb < m -> q * nb < n -> in_tiles T k q.

Lemma tok_any : forall nb ib m K T, 0 < nb -> tok nb ib m K T -> tok nb ib 0 0 T.
Proof.
  intros nb ib m K T Hnb [H1 H2 H3 H4 H5 H6]. constructor; auto. intros k q (O1 & O2 & O3 & O4). cbn [fst snd] in *.
  exfalso. nia.
Qed.

Lemma gelqf_T_ok : forall nb ib m n, 0 < nb -> 0 < ib -> 0 < m -> 0 < n ->
  exists T size, gelqf_T nb ib m n = CrOk T size /\ ltok nb ib m n T.
Proof.
  intros nb ib m n Hnb Hib Hm Hn.
  destruct (geqrf_T_ok nb ib m n Hnb Hib Hm Hn) as (T & size & ET & HT). exists T, size. split; [exact ET|].
  split; [eapply tok_any; [exact Hnb|exact HT]|]. unfold geqrf_T in ET.
  destruct (ge_create_succeeds nb m n Hnb ltac:(lia) ltac:(lia)) as (A & EA & _). rewrite EA in ET.
  destruct (ge_create_dn _ _ _ _ _ EA) as (DA & A1 & A2 & _).
  pose proof (td_shape _ _ (sq_t _ _ _ DA)) as SH.
  pose proof (mt_aligned A SH) as EM. pose proof (nt_aligned A SH) as EN.
  assert (EB1 : d_mb A = nb) by apply (sq_mb _ _ _ DA). assert (EB2 : d_nb A = nb) by apply (sq_nb _ _ _ DA).
  rewrite A1, EB1 in EM. rewrite A2, EB2 in EN.
  destruct (Z.eqb_spec m 0); [lia|]. destruct (Z.eqb_spec n 0); [lia|].
  assert (0 <= (m - 1) / nb) by (apply Z.div_pos; lia). assert (0 <= (n - 1) / nb) by (apply Z.div_pos; lia).
  assert (ET' := ET). unfold descT_create in ET'. cbv zeta in ET'.
  change (PlasmaFlatHouseholder =? PlasmaTreeHouseholder) with false in ET'. cbv iota in ET'.
  apply general_create_ok in ET'; try lia. destruct ET' as (GT & DT & _).
  assert (Z1 : d_mb T = ib) by (rewrite DT; reflexivity). assert (Z2 : d_nb T = nb) by (rewrite DT; cbn; assumption).
  assert (Z3 : d_m T = d_mt A * ib) by (rewrite DT; reflexivity). assert (Z4 : d_n T = d_nt A * nb) by (rewrite DT; cbn; rewrite EB2; reflexivity).
  pose proof (gk_shape _ GT) as ST. pose proof (mt_aligned T ST) as TM. rewrite Z1, Z3 in TM.
  assert (Z5 : d_mt T = d_mt A).
  { destruct (Z.eqb_spec (d_mt A * ib) 0) as [Q|Q]; [nia|]. rewrite TM.
    replace (d_mt A * ib - 1) with ((ib - 1) + (d_mt A - 1) * ib) by ring. rewrite Z.div_add by lia. rewrite Z.div_small by lia. lia. }
  pose proof (nt_aligned T ST) as TN. rewrite Z2, Z4 in TN.
  assert (Z6 : d_nt T = d_nt A).
  { destruct (Z.eqb_spec (d_nt A * nb) 0) as [Q|Q]; [nia|]. rewrite TN.
    replace (d_nt A * nb - 1) with ((nb - 1) + (d_nt A - 1) * nb) by ring. rewrite Z.div_add by lia. rewrite Z.div_small by lia. lia. }
  intros k q Hk Hq Hkm Hqn.
  assert (k <= (m - 1) / nb) by (apply Z.div_le_lower_bound; lia). assert (q <= (n - 1) / nb) by (apply Z.div_le_lower_bound; lia).
  split; lia.
Qed.

Section Eff.
  Context {N : numbers}.
  Add Ring num_ring_lq_eff : (nring N).

  (* ------------------------------------------------------------------ zunmqr, both sides *)

  Lemma unmqr_eff : forall nb ib m K T bT (El : Z -> Z -> N) M taus, 0 < nb -> 0 < ib -> 0 < K <= m ->
    tok nb ib m K T -> holds_q nb ib m K T bT ((m - 1) / nb + 1) ((K - 1) / nb + 1) El M taus ->
    forall A bA C bC side trans M3, dn nb A -> d_m A = m -> d_n A = K -> dn nb C -> (if side =? PlasmaLeft then d_m C else d_n C) = m ->
    bA <> bC -> bT <> bC -> side = PlasmaLeft \/ side = PlasmaRight -> trans = PlasmaNoTrans \/ trans = PlasmaConjTrans ->
    (forall i j, 0 <= i < m -> 0 <= j < K -> el M3 bA A i j = El i j) ->
    (forall l, fst l = bT -> M3 l = M l) ->
    forall i j, 0 <= i < d_m C -> 0 <= j < d_n C ->
       el (krun (pzunmqr side trans bA A bT T bC C) M3) bC C i j = q_times side trans m (qmat nb m K El taus) (el M3 bC C) i j.
  Proof.
    intros nb ib m K T bT El M taus Hnb Hib HK HT HQ A bA C bC side trans M3 DA A1 A2 DC Em NAC NTC HS HTr X1 X3.
    destruct HS as [-> | ->].
    - change (PlasmaLeft =? PlasmaLeft) with true in Em. cbv iota in Em. intros i j Hi Hj. rewrite Em in Hi.
      destruct (unmqr_left_eff nb ib m K T bT El M taus Hnb Hib HK HT HQ A bA C bC trans M3 DA A1 A2 DC Em NAC NTC HTr X1 X3) as [G _].
      rewrite G by assumption. reflexivity.
    - change (PlasmaRight =? PlasmaLeft) with false in *. cbv iota in Em.
      pose proof (qmat_uop nb ib m K T bT El M taus Hnb ltac:(lia) HQ) as UOP. pose proof (uop_sym _ _ _ _ UOP) as UOP'.
      unfold qmat. remember ((m - 1) / nb + 1) as mt eqn:Emt. remember ((K - 1) / nb + 1) as kt eqn:Ekt.
      pose proof (td_shape _ _ (sq_t _ _ _ DA)) as SA. pose proof (td_shape _ _ (sq_t _ _ _ DC)) as SC.
      assert (MA : d_mt A = mt). { rewrite (mt_aligned A SA), A1, (sq_mb _ _ _ DA). destruct (Z.eqb_spec m 0); lia. }
      assert (NA : d_nt A = kt). { rewrite (nt_aligned A SA), A2, (sq_nb _ _ _ DA). destruct (Z.eqb_spec K 0); lia. }
      assert (MC : d_nt C = d_mt A). { rewrite (nt_aligned C SC), Em, (sq_nb _ _ _ DC), MA. destruct (Z.eqb_spec m 0); [lia|]. rewrite Emt. reflexivity. }
      assert (LE : kt <= mt). { assert ((K - 1) / nb <= (m - 1) / nb) by (apply Z.div_le_mono; lia). lia. }
      assert (OO : olist (d_mt A) 0 (Z.min (d_mt A) (d_nt A)) = olist mt 0 kt) by (rewrite MA, NA; f_equal; lia).
      assert (EL : forall o i j, s_ok nb m K o -> s_reads nb m K o i j -> El i j = el M3 bA A i j).
      { intros o i j HO R. destruct (s_reads_tile nb m K Hnb ltac:(lia) o i j HO R) as (R1 & R2 & R3). rewrite X1 by lia. reflexivity. }
      assert (GD : forall o, In o (olist mt 0 kt) -> s_good N nb m K ib (el M3 bA A) (tel T bT M3) (taus o) o).
      { intros o Ho. destruct (HQ o Ho) as [HO G].
        eapply (s_good_cong N nb m K Hnb ltac:(lia)); [assumption|assumption| | | |exact G]; auto.
        - intros i j R. apply (EL o); assumption.
        - intros a c _ _. unfold tel, rd. rewrite X3 by (cbn; auto). reflexivity. }
      rewrite (pzunmqr_right_eq nb ib m K HK T bT HT A bA DA A1 A2 C bC DC trans) by lia.
      rewrite OO.
      assert (UI : forall o, In o (uorder PlasmaRight trans (olist mt 0 kt)) -> In o (olist mt 0 kt)).
      { intros o Ho. rewrite <- OO in Ho. apply uorder_in in Ho. rewrite OO in Ho. exact Ho. }
      destruct (steps_r nb ib m K Hnb Hib ltac:(lia) T bT HT A bA DA A1 ltac:(lia) C bC DC ltac:(auto) trans taus (uorder PlasmaRight trans (olist mt 0 kt)) M3)
        as [S1 S2]; [lia|auto| | |].
      { intros o Ho. apply (HQ o (UI o Ho)). }
      { intros o Ho. apply (GD o (UI o Ho)). }
      intros i j Hi Hj. rewrite S1 by lia. unfold q_times. change (PlasmaRight =? PlasmaLeft) with false. cbv iota.
      transitivity (nconj (s_all N nb m K (flip trans) El taus (uorder PlasmaRight trans (olist mt 0 kt)) (fun s => nconj (el M3 bC C i s)) j)).
      { f_equal. symmetry. apply (s_all_cong N nb m K Hnb ltac:(lia)); auto; try lia.
        - intros o Ho. apply (HQ o (UI o Ho)).
        - intros o Ho i' j' R. apply (EL o); [apply (HQ o (UI o Ho))|assumption].
        - intros s Hs. reflexivity. }
      unfold uorder, op_of. change (PlasmaRight =? PlasmaLeft) with false. unfold flip. destruct HTr as [-> | ->].
      + change (PlasmaNoTrans =? PlasmaConjTrans) with false. change (PlasmaNoTrans =? PlasmaNoTrans) with true. cbn [Bool.eqb]. cbv iota.
        rewrite (uop_matrix N m _ _ UOP') by lia. rewrite nconj_sum. apply nsum_ext. intros s Hs.
        rewrite nconj_mul, nconj_conj. rewrite (umat_conj N m _ _ UOP s j) by lia. ring.
      + change (PlasmaConjTrans =? PlasmaConjTrans) with true. change (PlasmaConjTrans =? PlasmaNoTrans) with false.
        change (PlasmaConjTrans =? PlasmaTrans) with false. cbn [Bool.eqb]. cbv iota.
        rewrite (uop_matrix N m _ _ UOP) by lia. rewrite nconj_sum. apply nsum_ext. intros s Hs. rewrite nconj_mul, nconj_conj. ring.
  Qed.

  (* ------------------------------------------------------------------ the LQ steps *)

  Definition conj_tr (X : Z -> Z -> N) (j i : Z) : N := nconj (X i j).

  (* what zgelqf leaves behind for zunmlq *)
  Definition holds_l (nb ib n K : Z) (T : desc) (bT : Z) (El : Z -> Z -> N) (M : mem N) (taus : Z * Z -> Z -> N) : Prop :=
    forall o, In o (olist ((n - 1) / nb + 1) 0 ((K - 1) / nb + 1)) ->
      s_ok nb n K o /\ s_good N nb n K ib (conj_tr El) (fun q k => tel T bT M k q) (taus o) o.

  (* the matrix Q of the steps held by El *)
  Definition lmat (nb n K : Z) (El : Z -> Z -> N) (taus : Z * Z -> Z -> N) : Z -> Z -> N :=
    conj_tr (qmat nb n K (conj_tr El) taus).

  Lemma lmat_unitary : forall nb ib n K T bT (El : Z -> Z -> N) M taus, 0 < nb -> K <= n -> holds_l nb ib n K T bT El M taus ->
    is_unitary n (lmat nb n K El taus).
  Proof.
    intros nb ib n K T bT El M taus Hnb HK H.
    pose proof (s_all_uop N nb n K Hnb HK ib (conj_tr El) (fun q k => tel T bT M k q) taus (olist ((n - 1) / nb + 1) 0 ((K - 1) / nb + 1)) H) as U.
    pose proof (umat_unitary n _ _ U) as Q. intros i j Hi Hj. destruct (Q i j Hi Hj) as [Q1 Q2]. destruct (Q j i Hj Hi) as [Q3 Q4].
    rewrite (Z.eqb_sym j i) in Q3, Q4. unfold lmat, conj_tr, qmat. split.
    - rewrite <- Q2. apply nsum_ext. intros l Hl. rewrite nconj_conj. reflexivity.
    - rewrite <- Q1. apply nsum_ext. intros l Hl. rewrite nconj_conj. reflexivity.
  Qed.

  Lemma qmat_cong : forall nb n K (El El' : Z -> Z -> N) taus, 0 < nb -> K <= n ->
    (forall o, In o (olist ((n - 1) / nb + 1) 0 ((K - 1) / nb + 1)) -> s_ok nb n K o) ->
    (forall i j, 0 <= i < n -> 0 <= j < K -> El i j = El' i j) ->
    forall i j, 0 <= i < n -> qmat nb n K El taus i j = qmat nb n K El' taus i j.
  Proof.
    intros nb n K El El' taus Hnb HK HO HE i j Hi. unfold qmat, umat.
    apply (s_all_cong N nb n K Hnb HK); auto.
    - intros o Ho. apply HO. apply in_rev. assumption.
    - intros o Ho i' j' R. apply in_rev in Ho. destruct (s_reads_tile nb n K Hnb ltac:(lia) o i' j' (HO o Ho) R) as (R1 & R2 & R3). apply HE; lia.
    - intros k Hk. reflexivity.
  Qed.

  Lemma unmlq_eff : forall nb ib m n K T bT (El : Z -> Z -> N) M taus, 0 < nb -> 0 < ib -> 0 < K <= n -> K <= m ->
    ltok nb ib m n T -> holds_l nb ib n K T bT El M taus ->
    forall A bA C bC side trans M3, dn nb A -> d_m A = K -> d_n A = n -> dn nb C -> (if side =? PlasmaLeft then d_m C else d_n C) = n ->
    bA <> bC -> bT <> bC -> bA <> bT -> side = PlasmaLeft \/ side = PlasmaRight -> trans = PlasmaNoTrans \/ trans = PlasmaConjTrans ->
    (forall i j, 0 <= i < K -> 0 <= j < n -> el M3 bA A i j = El i j) ->
    (forall l, fst l = bT -> M3 l = M l) ->
    (forall i j, 0 <= i < d_m C -> 0 <= j < d_n C ->
       el (krun (pzunmlq side trans bA A bT T bC C) M3) bC C i j = q_times side trans n (lmat nb n K El taus) (el M3 bC C) i j) /\
    (forall l, fst l <> bC -> krun (pzunmlq side trans bA A bT T bC C) M3 l = M3 l).
  Proof.
    intros nb ib m n K T bT El M taus Hnb Hib HK HKm [HT HTi] HL A bA C bC side trans M3 DA A1 A2 DC Em NAC NTC NAT HS HTr X1 X3.
    assert (SC : 0 <= d_m C /\ 0 <= d_n C) by (pose proof (td_shape _ _ (sq_t _ _ _ DC)) as S; split; [apply (go_m C S)|apply (go_n C S)]).
    destruct (ge_create_succeeds nb n K Hnb ltac:(lia) ltac:(lia)) as (A' & EA & _).
    destruct (ge_create_succeeds nb (d_n C) (d_m C) Hnb ltac:(lia) ltac:(lia)) as (C' & EC & _).
    destruct (ge_create_dn _ _ _ _ _ EA) as (DA' & A1' & A2' & _). destruct (ge_create_dn _ _ _ _ _ EC) as (DC' & C1' & C2' & _). clear EA EC.
    destruct (geqrf_T_ok nb ib n K Hnb Hib ltac:(lia) ltac:(lia)) as (T' & size & ET & HT'). rewrite Z.min_r in HT' by lia. clear ET.
    pose proof (tok_any _ _ _ _ _ Hnb HT') as HT0.
    assert (PA : paired nb A A') by (split; [assumption|split; [assumption|split; lia]]).
    assert (PC : paired nb C C') by (split; [assumption|split; [assumption|split; lia]]).
    assert (HTin : forall k q, 0 <= k <= q -> k * nb < d_m A -> q * nb < d_n A -> in_tiles T k q /\ in_tiles T' q k).
    { intros k q Hk H1 H2. rewrite A1 in H1. rewrite A2 in H2. split; [apply HTi; lia|]. apply (tk_in _ _ _ _ _ HT'). unfold s_ok. cbn. lia. }
    pose (env := [(bA, homeD A (in_tiles A)); (bC, homeD C (in_tiles C)); (bT, homeD T (in_tiles T))]).
    assert (OK := unmlq_okp (N := N) nb ib Hnb Hib T T' bT HT HT0 A A' bA PA HTin env ltac:(cbn; auto) ltac:(cbn; auto) ltac:(assumption) C C' bC PC ltac:(cbn; auto)
      ltac:(auto) side trans HS HTr ltac:(congruence)).
    destruct (okp_all _ _ _ _ _ _ _ _ _ _ _ _ _ _ _ OK) as [_ FR].
    split; [|intros l Hl; apply FR; tauto].
    destruct (mate nb ib Hnb T T' bT A A' C C' bA bC M3 Hib HT0 PA PC ltac:(auto) ltac:(auto)) as (M3' & RM).
    assert (RM2 := pres_run nb ib T T' bT A A' C C' bA bC env False _ _ OK M3 M3' RM). clear OK FR env.
    destruct RM as (RA & RC & RTm). destruct RM2 as (_ & RC2 & _).
    assert (HQ : holds_q nb ib n K T' bT ((n - 1) / nb + 1) ((K - 1) / nb + 1) (conj_tr El) M3' taus).
    { intros o Ho. destruct (HL o Ho) as [HO G]. split; [exact HO|].
      eapply (s_good_cong N nb n K Hnb ltac:(lia)); [assumption|assumption| | | |exact G]; [reflexivity| |reflexivity].
      intros a c Hc Ha. destruct o as [k q]. cbn [fst snd] in *. destruct HO as (O1 & O2 & O3 & O4). cbn [fst snd] in *.
      assert (0 <= c mod ib < ib) by (apply Z.mod_pos_bound; lia).
      rewrite RTm; [|apply HTi; lia|apply (tk_in _ _ _ _ _ HT'); unfold s_ok; cbn; lia|lia|].
      - unfold tel, rd. rewrite X3 by reflexivity. reflexivity.
      - unfold s_k in Hc. cbn in Hc. unfold tsz in Hc. lia. }
    assert (Em' : (if oside side =? PlasmaLeft then d_m C' else d_n C') = n).
    { rewrite C1', C2'. destruct HS as [-> | ->]; exact Em. }
    assert (HS' : oside side = PlasmaLeft \/ oside side = PlasmaRight) by (destruct HS as [-> | ->]; [right|left]; reflexivity).
    pose proof (unmqr_eff nb ib n K T' bT (conj_tr El) M3' taus Hnb Hib HK HT' HQ A' bA C' bC (oside side) trans M3' DA' A1' A2' DC' Em' NAC NTC HS' HTr) as G.
    assert (G2 := G ltac:(intros i j Hi Hj; rewrite (RA j i) by lia; rewrite X1 by lia; reflexivity) ltac:(reflexivity)). clear G.
    intros i j Hi Hj. 
    transitivity (nconj (el (krun (pzunmqr (oside side) trans bA A' bT T' bC C') M3') bC C' j i)).
    { rewrite (RC2 i j) by lia. rewrite nconj_conj. reflexivity. }
    rewrite G2 by lia. unfold q_times. destruct HS as [-> | ->].
    - change (oside PlasmaLeft =? PlasmaLeft) with false. change (PlasmaLeft =? PlasmaLeft) with true in *. cbv iota in *. rewrite nconj_sum. apply nsum_ext. intros l Hl.
      rewrite nconj_mul, (RC l j) by lia. rewrite nconj_conj. unfold lmat, conj_tr, op_of. destruct HTr as [-> | ->].
      + change (PlasmaNoTrans =? PlasmaNoTrans) with true. cbv iota. ring.
      + change (PlasmaConjTrans =? PlasmaNoTrans) with false. change (PlasmaConjTrans =? PlasmaTrans) with false. cbv iota. rewrite nconj_conj. ring.
    - change (oside PlasmaRight =? PlasmaLeft) with true. change (PlasmaRight =? PlasmaLeft) with false in *. cbv iota in *. rewrite nconj_sum. apply nsum_ext. intros l Hl.
      rewrite nconj_mul, (RC i l) by lia. rewrite nconj_conj. unfold lmat, conj_tr, op_of. destruct HTr as [-> | ->].
      + change (PlasmaNoTrans =? PlasmaNoTrans) with true. cbv iota. ring.
      + change (PlasmaConjTrans =? PlasmaNoTrans) with false. change (PlasmaConjTrans =? PlasmaTrans) with false. cbv iota. rewrite nconj_conj. ring.
  Qed.

  (* the tasks of pzgelqf leave the steps of a factorization of the matrix behind *)
  Lemma pzgelqf_eff : forall (lg : N -> list N -> N * N * list N), larfg_ok lg ->
    forall nb ib m n T bT A bA, 0 < nb -> 0 < ib -> 0 < m -> 0 < n -> ltok nb ib m n T ->
    dn nb A -> d_m A = m -> d_n A = n -> bA <> bT ->
    forall M3, exists taus, let M4 := krun (pzgelqf lg bA A bT T) M3 in let K := Z.min m n in
      holds_l nb ib n K T bT (el M4 bA A) M4 taus /\
      (forall i j, 0 <= i < m -> 0 <= j < n ->
         el M3 bA A i j = nsum (fun l => nmul (if l <=? i then el M4 bA A i l else n0) (lmat nb n K (el M4 bA A) taus l j)) 0 n) /\
      (forall l, fst l <> bA -> fst l <> bT -> M4 l = M3 l).
  Proof.
    intros lg LG nb ib m n T bT A bA Hnb Hib Hm Hn [HT HTi] DA A1 A2 NAT M3. cbv zeta.
    destruct (ge_create_succeeds nb n m Hnb ltac:(lia) ltac:(lia)) as (A' & EA & _).
    destruct (ge_create_dn _ _ _ _ _ EA) as (DA' & A1' & A2' & _). clear EA.
    destruct (geqrf_T_ok nb ib n m Hnb Hib ltac:(lia) ltac:(lia)) as (T' & size & ET & HT'). clear ET.
    pose proof (tok_any _ _ _ _ _ Hnb HT') as HT0.
    assert (PA : paired nb A A') by (split; [assumption|split; [assumption|split; lia]]).
    assert (HTin : forall k q, 0 <= k <= q -> k * nb < d_m A -> q * nb < d_n A -> in_tiles T k q /\ in_tiles T' q k).
    { intros k q Hk H1 H2. rewrite A1 in H1. rewrite A2 in H2. split; [apply HTi; lia|]. apply (tk_in _ _ _ _ _ HT'). unfold s_ok. cbn. nia. }
    pose (env := [(bA, homeD A (in_tiles A)); (bT, homeD T (in_tiles T))]).
    assert (OK := gelqf_okp (N := N) nb ib Hnb Hib T T' bT HT HT0 A A' bA PA HTin env ltac:(cbn; auto) ltac:(cbn; auto) NAT lg).
    destruct (okp_all _ _ _ _ _ _ _ _ _ _ _ _ _ _ _ OK) as [_ FR].
    destruct (mate nb ib Hnb T T' bT A A' A A' bA bA M3 Hib HT0 PA PA ltac:(auto) ltac:(auto)) as (M3' & RM).
    assert (RM2 := pres_run nb ib T T' bT A A' A A' bA bA env True _ _ OK M3 M3' RM).
    assert (FR' : forall l, fst l <> bA -> fst l <> bT -> krun (pzgelqf lg bA A bT T) M3 l = M3 l) by (intros l L1 L2; apply FR; tauto).
    clear OK FR env.
    destruct (pzgeqrf_eff lg LG nb ib n m T' bT A' bA Hnb Hib Hn Hm HT' DA' A1' A2' NAT M3') as (taus & G). cbv zeta in G.
    remember (krun (pzgelqf lg bA A bT T) M3) as M4 eqn:E4. clear E4. remember (krun (pzgeqrf lg bA A' bT T') M3') as M4' eqn:E4'. clear E4'.
    rewrite (Z.min_comm n m) in G. remember (Z.min m n) as K eqn:EK. destruct G as (G1 & G2 & _).
    destruct RM as (RA & _ & _). destruct RM2 as (RA4 & _ & RTm).
    exists taus.
    assert (HL : holds_l nb ib n K T bT (el M4 bA A) M4 taus).
    { intros o Ho. destruct (G1 o Ho) as [HO G]. split; [exact HO|].
      eapply (s_good_cong N nb n K Hnb ltac:(lia)); [assumption|assumption| | | |exact G]; [| |reflexivity].
      - intros i j R. destruct (s_reads_tile nb n K Hnb ltac:(lia) o i j HO R) as (R1 & R2 & R3). unfold conj_tr. apply RA4; lia.
      - intros a c Hc Ha. destruct o as [k q]. cbn [fst snd] in *. destruct HO as (O1 & O2 & O3 & O4). cbn [fst snd] in *.
        assert (0 <= c mod ib < ib) by (apply Z.mod_pos_bound; lia).
        apply RTm; [apply HTi; nia|apply (tk_in _ _ _ _ _ HT'); unfold s_ok; cbn; lia|lia|].
        unfold s_k in Hc. cbn in Hc. unfold tsz in Hc. lia. }
    split; [exact HL|]. split; [|exact FR'].
    intros i j Hi Hj. transitivity (nconj (el M3' bA A' j i)); [rewrite (RA i j) by lia; rewrite nconj_conj; reflexivity|].
    rewrite G2 by lia. rewrite nconj_sum. apply nsum_ext. intros l Hl. rewrite nconj_mul. unfold lmat at 1. unfold conj_tr at 1.
    rewrite (qmat_cong nb n K (el M4' bA A') (conj_tr (el M4 bA A)) taus); [|assumption|lia|intros o Ho; apply (HL o Ho)| |assumption].
    - destruct (l <=? i) eqn:E; [rewrite (RA4 i l) by lia; rewrite nconj_conj; ring|rewrite nconj_0; ring].
    - intros i' j' Hi' Hj'. unfold conj_tr. apply RA4; lia.
  Qed.
End Eff.
