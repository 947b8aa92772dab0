(* The tasks of the tile LQ routines against those of the tile QR routines on conjugate transposes;
   sound footprints and declared dependences. *)
From Coq Require Import ZArith List Bool Lia Ring.
From Verif Require Import Base NumModel NumProofs TaskModel TaskSpec TaskProofs DescModel DescSpec DescProofs MatModel MatSpec MatProofs RegionProofs
  LayoutModel LayoutProofs LayoutProofs2 DriverModel OpProofs GemmProofs QrModel QrSpec QrAlgProofs QrStepProofs QrKerProofs QrKerProofs2 QrMulProofs QrLiftProofs QrTaskProofs QrEffProofs
  QrUnmProofs QrFacProofs QrInvProofs QrListProofs LqModel LqDualProofs LqDual2Proofs.
Import ListNotations.
Open Scope Z_scope.

Section Good.
  Context {N : numbers}.
  Variable lg : N -> list N -> N * N * list N.

  Lemma omp_zunmlq_kgood : forall side trans m n k ib A lda T ldt C ldc, m <= ldc ->
    kgood (@omp_zunmlq N side trans m n k ib A lda T ldt C ldc).
  Proof.
    intros side trans m n k ib A lda T ldt C ldc H. unfold omp_zunmlq.
    constructor; cbn; [|apply finite_or; [apply finite_reg|apply finite_or; apply finite_reg]|apply finite_reg]. split; cbn.
    - intros M l HL. unfold core_zunmlq. apply mset_out. assumption.
    - intros M M' l HM (i & j & Hi & Hj & HP & ->). unfold core_zunmlq. cbv zeta. rewrite !mset_in by lia. rewrite HP.
      pose proof (rd_memo_sel M M' A lda k (if side =? PlasmaLeft then m else n) above) as E1.
      unfold above in E1 at 2 3. rewrite E1 by (intros; apply HM; left; assumption).
      pose proof (rd_memo_sel M M' T ldt ib k (t_sel ib)) as E2.
      unfold t_sel in E2 at 2 3. rewrite E2 by (intros; apply HM; right; left; assumption).
      rewrite (rd_memo M M' C ldc m n) by (intros; apply HM; right; right; assumption). reflexivity.
  Qed.

  Lemma omp_ztsmlq_kgood : forall side trans m1 n1 m2 n2 k ib A1 lda1 A2 lda2 V ldv T ldt, m1 <= lda1 -> m2 <= lda2 ->
    kgood (@omp_ztsmlq N side trans m1 n1 m2 n2 k ib A1 lda1 A2 lda2 V ldv T ldt).
  Proof.
    intros side trans m1 n1 m2 n2 k ib A1 lda1 A2 lda2 V ldv T ldt L1 L2.
    assert (E : forall M M' : mem N, (forall x, k_reads (@omp_ztsmlq N side trans m1 n1 m2 n2 k ib A1 lda1 A2 lda2 V ldv T ldt) x -> M x = M' x) ->
      tsmlq_mat side trans m1 n1 m2 n2 k ib (memo k (if side =? PlasmaLeft then m2 else n2) (rd M V ldv))
        (memo ib k (fun a c => if a <=? c mod ib then rd M T ldt a c else n0)) (memo m1 n1 (rd M A1 lda1)) (memo m2 n2 (rd M A2 lda2))
      = tsmlq_mat side trans m1 n1 m2 n2 k ib (memo k (if side =? PlasmaLeft then m2 else n2) (rd M' V ldv))
        (memo ib k (fun a c => if a <=? c mod ib then rd M' T ldt a c else n0)) (memo m1 n1 (rd M' A1 lda1)) (memo m2 n2 (rd M' A2 lda2))).
    { intros M M' HM. cbn in HM.
      pose proof (rd_memo_sel M M' T ldt ib k (t_sel ib)) as E2.
      unfold t_sel in E2 at 2 3. rewrite E2 by (intros; apply HM; auto).
      rewrite (rd_memo M M' V) by (intros; apply HM; auto).
      rewrite (rd_memo M M' A1) by (intros; apply HM; auto).
      rewrite (rd_memo M M' A2) by (intros; apply HM; auto). reflexivity. }
    apply (mset2_kgood N _ A1 lda1 m1 n1 everywhere A2 lda2 m2 n2 everywhere
      (fun M => fst (tsmlq_mat side trans m1 n1 m2 n2 k ib (memo k (if side =? PlasmaLeft then m2 else n2) (rd M V ldv))
        (memo ib k (fun a c => if a <=? c mod ib then rd M T ldt a c else n0)) (memo m1 n1 (rd M A1 lda1)) (memo m2 n2 (rd M A2 lda2))))
      (fun M => snd (tsmlq_mat side trans m1 n1 m2 n2 k ib (memo k (if side =? PlasmaLeft then m2 else n2) (rd M V ldv))
        (memo ib k (fun a c => if a <=? c mod ib then rd M T ldt a c else n0)) (memo m1 n1 (rd M A1 lda1)) (memo m2 n2 (rd M A2 lda2)))));
      auto.
    - repeat (apply finite_or; [apply finite_reg|]). apply finite_reg.
    - intros M M' HM. cbn in E. rewrite (E M M' HM). reflexivity.
    - intros M M' HM. cbn in E. rewrite (E M M' HM). reflexivity.
  Qed.

  Lemma omp_zgelqt_kgood : forall m n ib A lda T ldt, m <= lda -> ib <= ldt -> kgood (omp_zgelqt lg m n ib A lda T ldt).
  Proof.
    intros m n ib A lda T ldt L1 L2.
    apply (mset2_kgood N _ A lda m n everywhere T ldt ib (Z.min m n) (t_sel ib)
      (fun M => fst (gelqt_mat lg m n ib (memo m n (rd M A lda)))) (fun M => snd (gelqt_mat lg m n ib (memo m n (rd M A lda)))));
      auto; [apply finite_reg| |]; intros M M' HM; rewrite (rd_memo M M' A lda m n HM); reflexivity.
  Qed.

  Definition tslqt_val (m n ib : Z) (A1 : loc) (lda1 : Z) (A2 : loc) (lda2 : Z) (M : mem N) :=
    tslqt_mat lg m n ib (memo m m (fun r c => if c <=? r then rd M A1 lda1 r c else n0)) (memo m n (rd M A2 lda2)).

  Lemma core_ztslqt_eq : forall m n ib A1 lda1 A2 lda2 T ldt M,
    core_ztslqt lg m n ib A1 lda1 A2 lda2 T ldt M
    = mset T ldt ib m (t_sel ib) (snd (tslqt_val m n ib A1 lda1 A2 lda2 M))
        (mset A2 lda2 m n everywhere (snd (fst (tslqt_val m n ib A1 lda1 A2 lda2 M)))
           (mset A1 lda1 m m (uplo_sel PlasmaLower) (fst (fst (tslqt_val m n ib A1 lda1 A2 lda2 M))) M)).
  Proof. intros. unfold core_ztslqt, tslqt_val. destruct (tslqt_mat _ _ _ _ _ _) as [[B1 B2] T1]. reflexivity. Qed.

  Lemma omp_ztslqt_kgood : forall m n ib A1 lda1 A2 lda2 T ldt, m <= lda1 -> m <= lda2 -> ib <= ldt ->
    kgood (omp_ztslqt lg m n ib A1 lda1 A2 lda2 T ldt).
  Proof.
    intros m n ib A1 lda1 A2 lda2 T ldt L1 L2 L3. unfold omp_ztslqt.
    assert (E : forall M M' : mem N, (forall x, reg A1 lda1 m m (uplo_sel PlasmaLower) x \/ reg A2 lda2 m n everywhere x -> M x = M' x) ->
      tslqt_val m n ib A1 lda1 A2 lda2 M = tslqt_val m n ib A1 lda1 A2 lda2 M').
    { intros M M' HM. unfold tslqt_val.
      pose proof (rd_memo_sel M M' A1 lda1 m m (uplo_sel PlasmaLower)) as E2.
      change (uplo_sel PlasmaLower) with (fun i j => j <=? i) in E2 at 2 3. cbv beta in E2.
      rewrite E2 by (intros; apply HM; auto). rewrite (rd_memo M M' A2) by (intros; apply HM; auto). reflexivity. }
    pose proof (mset3_kgood N [dep_inout A1; dep_inout A2; dep_out T] A1 lda1 m m (uplo_sel PlasmaLower) A2 lda2 m n everywhere T ldt ib m (t_sel ib)
      (fun M => fst (fst (tslqt_val m n ib A1 lda1 A2 lda2 M))) (fun M => snd (fst (tslqt_val m n ib A1 lda1 A2 lda2 M))) (fun M => snd (tslqt_val m n ib A1 lda1 A2 lda2 M))
      (fun l => reg A1 lda1 m m (uplo_sel PlasmaLower) l \/ reg A2 lda2 m n everywhere l) L1 L2 L3) as G.
    assert (G2 := G ltac:(apply finite_or; apply finite_reg) ltac:(intros M M' HM; cbv beta; rewrite (E M M' HM); reflexivity)
      ltac:(intros M M' HM; cbv beta; rewrite (E M M' HM); reflexivity) ltac:(intros M M' HM; cbv beta; rewrite (E M M' HM); reflexivity)).
    destruct G2 as [[S1 S2] R W]. cbn in S1, S2, R, W.
    constructor; cbn; [|assumption|assumption]. split; cbn.
    - intros M l HL. rewrite core_ztslqt_eq. apply S1. assumption.
    - intros M M' l HM HL. rewrite !core_ztslqt_eq. apply S2; assumption.
  Qed.
End Good.

Section Sim.
  Context {N : numbers}.
  Add Ring lq_sim_ring : (nring N).
  Variables nb ib : Z.
  Hypothesis Hnb : 0 < nb.
  Hypothesis Hib : 0 < ib.

  (* X' is the descriptor of a matrix with the transposed dimensions *)
  Definition paired (X X' : desc) : Prop := dn nb X /\ dn nb X' /\ d_m X' = d_n X /\ d_n X' = d_m X.

  Definition Rel (b : Z) (X X' : desc) (M M' : mem N) : Prop :=
    forall i j, 0 <= i < d_m X -> 0 <= j < d_n X -> el M' b X' j i = nconj (el M b X i j).

  Lemma paired_in : forall X X' x y, paired X X' -> in_tiles X x y <-> in_tiles X' y x.
  Proof. intros X X' x y (D & D' & E1 & E2). rewrite (dn_in nb X x y D), (dn_in nb X' y x D'). lia. Qed.

  Lemma paired_sizes : forall X X' x y, paired X X' -> in_tiles X x y ->
    tile_mview X x = tsz nb (d_m X) x /\ tile_nview X' x = tsz nb (d_m X) x /\
    tile_nview X y = tsz nb (d_n X) y /\ tile_mview X' y = tsz nb (d_n X) y.
  Proof.
    intros X X' x y H HI. assert (HI' := HI). apply (paired_in X X' x y H) in HI'. destruct H as (D & D' & E1 & E2).
    rewrite (sq_mv nb X _ D x y HI), (sq_nv nb X _ D x y HI), (sq_mv nb X' _ D' y x HI'), (sq_nv nb X' _ D' y x HI'), E1, E2. auto.
  Qed.

  Lemma rel_rd : forall b X X' M M' x y mm nn, paired X X' -> Rel b X X' M M' -> in_tiles X x y ->
    mm <= tsz nb (d_m X) x -> nn <= tsz nb (d_n X) y ->
    adj mm nn (rd M (tptr b X x y) (tile_mmain X x)) (rd M' (tptr b X' y x) (tile_mmain X' y)).
  Proof.
    intros b X X' M M' x y mm nn H HR HI H1 H2 i j Hi Hj. assert (HI' := HI). apply (paired_in X X' x y H) in HI'.
    destruct H as (D & D' & E1 & E2).
    assert (X0 : 0 <= x /\ 0 <= y) by (apply (dn_in nb X x y D) in HI; lia).
    rewrite (sq_rd nb X _ D b M x y i j HI) by lia. rewrite (sq_rd nb X' _ D' b M' y x j i HI') by (rewrite ?E1, ?E2; lia).
    apply HR; unfold tsz in *; nia.
  Qed.

  Lemma rel_set : forall b X X' M M' x y mm nn P P' f f', paired X X' -> Rel b X X' M M' -> in_tiles X x y ->
    mm <= tsz nb (d_m X) x -> nn <= tsz nb (d_n X) y -> adj mm nn f f' -> (forall i j, P' j i = P i j) ->
    Rel b X X' (mset (tptr b X x y) (tile_mmain X x) mm nn P f M) (mset (tptr b X' y x) (tile_mmain X' y) nn mm P' f' M').
  Proof.
    intros b X X' M M' x y mm nn P P' f f' H HR HI H1 H2 HF HP i j Hi Hj. assert (HI' := HI). apply (paired_in X X' x y H) in HI'.
    destruct H as (D & D' & E1 & E2).
    pose proof (tile_of nb X i j D Hi Hj) as T1. pose proof (tile_of nb X' j i D' ltac:(lia) ltac:(lia)) as T2.
    rewrite (sq_set_sub N nb X _ b D M x y mm nn P f i j HI T1 Hi Hj H1 H2).
    rewrite (sq_set_sub N nb X' _ b D' M' y x nn mm P' f' j i HI' T2) by (rewrite ?E1, ?E2; lia).
    rewrite HP. rewrite (andb_comm (j / nb =? y)), (andb_comm (j mod nb <? nn)).
    pose proof (Z.mod_pos_bound i nb Hnb). pose proof (Z.mod_pos_bound j nb Hnb).
    destruct ((i / nb =? x) && (j / nb =? y)); cbn [andb]; [|apply HR; assumption].
    destruct (Z.ltb_spec (i mod nb) mm); cbn [andb]; [|apply HR; assumption].
    destruct (Z.ltb_spec (j mod nb) nn); cbn [andb]; [|apply HR; assumption].
    destruct (P (i mod nb) (j mod nb)); [apply HF; lia|apply HR; assumption].
  Qed.

  Lemma rel_other : forall b X X' M M' p p' ld ld' m n m' n' P P' f f', fst p <> b -> fst p' <> b -> Rel b X X' M M' ->
    Rel b X X' (mset p ld m n P f M) (mset p' ld' m' n' P' f' M').
  Proof.
    intros b X X' M M' p p' ld ld' m n m' n' P P' f f' H H' HR i j Hi Hj. unfold el.
    rewrite !mset_out by (intros R; apply reg_block in R; cbn in R; congruence). apply HR; assumption.
  Qed.

  (* the T factors: tile (k,q) of T is tile (q,k) of T' *)
  Variables (T T' : desc) (bT : Z).
  Hypothesis HT : tok nb ib 0 0 T.
  Hypothesis HT' : tok nb ib 0 0 T'.

  Definition RT (M M' : mem N) : Prop :=
    forall k q a c, in_tiles T k q -> in_tiles T' q k -> 0 <= a < ib -> 0 <= c < nb -> tel T' bT M' q k a c = tel T bT M k q a c.

  Variables (A A' B B' : desc) (bA bB : Z).
  Hypothesis PA : paired A A'.
  Hypothesis PB : paired B B'.
  Hypothesis HAB : (bA = bB /\ A = B /\ A' = B') \/ bA <> bB.
  Hypothesis NT : bA <> bT /\ bB <> bT.

  Definition R (M M' : mem N) : Prop := Rel bA A A' M M' /\ Rel bB B B' M M' /\ RT M M'.

  Lemma R_setB : forall M M' x y mm nn P P' f f', R M M' -> in_tiles B x y ->
    mm <= tsz nb (d_m B) x -> nn <= tsz nb (d_n B) y -> adj mm nn f f' -> (forall i j, P' j i = P i j) ->
    R (mset (tptr bB B x y) (tile_mmain B x) mm nn P f M) (mset (tptr bB B' y x) (tile_mmain B' y) nn mm P' f' M').
  Proof.
    intros M M' x y mm nn P P' f f' (R1 & R2 & R3) HI H1 H2 HF HP.
    assert (Y : Rel bB B B' (mset (tptr bB B x y) (tile_mmain B x) mm nn P f M) (mset (tptr bB B' y x) (tile_mmain B' y) nn mm P' f' M'))
      by (apply rel_set; assumption).
    split; [|split; [exact Y|]].
    - destruct HAB as [(-> & -> & ->)|D]; [exact Y|]. apply rel_other; cbn; auto.
    - intros k q a c I1 I2 Ha Hc. rewrite !tel_block by (cbn; tauto). apply R3; assumption.
  Qed.

  Lemma R_setT : forall M M' k q kk P f f', R M M' -> in_tiles T k q -> in_tiles T' q k -> kk <= nb -> teq ib kk f f' ->
    R (mset (tptr bT T k q) (d_mb T) ib kk P f M) (mset (tptr bT T' q k) (d_mb T') ib kk P f' M').
  Proof.
    intros M M' k q kk P f f' (R1 & R2 & R3) HI HI' Hk HF.
    split; [apply rel_other; cbn; intuition congruence|]. split; [apply rel_other; cbn; intuition congruence|].
    intros k2 q2 a c I1 I2 Ha Hc. rewrite (tel_set nb ib 0 0 T bT HT) by assumption. rewrite (tel_set nb ib 0 0 T' bT HT') by assumption.
    rewrite (andb_comm (q2 =? q)). destruct ((k2 =? k) && (q2 =? q)); cbn [andb]; [|apply R3; assumption].
    destruct (Z.ltb_spec c kk); cbn [andb]; [|apply R3; assumption]. destruct (P a c); [apply HF; lia|apply R3; assumption].
  Qed.

  Lemma R_T : forall M M' k q kk, R M M' -> in_tiles T k q -> in_tiles T' q k -> kk <= nb ->
    teq ib kk (memo ib kk (fun a c => if a <=? c mod ib then rd M (tptr bT T k q) (d_mb T) a c else n0))
      (memo ib kk (fun a c => if a <=? c mod ib then rd M' (tptr bT T' q k) (d_mb T') a c else n0)).
  Proof.
    intros M M' k q kk (_ & _ & R3) I1 I2 Hk. apply teq_memo. intros a c Ha Hc. destruct (a <=? c mod ib); [|reflexivity].
    apply R3; try assumption. lia.
  Qed.

  Definition pres (t t' : ktask N) : Prop := forall M M', R M M' -> R (k_fun t M) (k_fun t' M').

  Variable env : list (Z * (Z -> Z -> Prop)).
  Hypothesis HEA : In (bA, homeD A (in_tiles A)) env.
  Hypothesis HEB : In (bB, homeD B (in_tiles B)) env.
  Hypothesis HET : In (bT, homeD T (in_tiles T)) env.

  (* WT: the tasks may write T *)
  Variable WT : Prop.
  Definition okp (t t' : ktask N) : Prop :=
    pres t t' /\ (kgood t /\ kdecl (home_env env) t) /\ forall l, k_writes t l -> fst l = bB \/ (WT /\ fst l = bT).

  Local Ltac hX D E I HR := eapply (homeX nb env); [exact D|exact E|exact I| | |exact HR]; lia.
  Local Ltac hT I HR := eapply (homeT nb ib 0 0 T bT HT env HET); [exact I| |exact HR]; lia.

  Lemma okp_unm : forall side trans mm nn kk k x y, in_tiles B x y -> in_tiles A k k -> in_tiles T k k -> in_tiles T' k k ->
    mm <= tsz nb (d_m B) x -> nn <= tsz nb (d_n B) y -> 0 <= kk <= tsz nb (d_m A) k ->
    (if side =? PlasmaLeft then mm else nn) <= tsz nb (d_n A) k ->
    okp (omp_zunmlq side trans mm nn kk ib (tptr bA A k k) (tile_mmain A k) (tptr bT T k k) (d_mb T) (tptr bB B x y) (tile_mmain B x))
        (omp_zunmqr (oside side) trans nn mm kk ib (tptr bA A' k k) (tile_mmain A' k) (tptr bT T' k k) (d_mb T') (tptr bB B' y x) (tile_mmain B' y)).
  Proof.
    intros side trans mm nn kk k x y IB IA IT IT' H1 H2 H3 H4. assert (Kn : kk <= nb) by (unfold tsz in *; lia).
    assert (DA : dn nb A) by apply PA. assert (DB : dn nb B) by apply PB.
    pose proof (sq_ld nb B _ DB x y IB) as L1.
    split; [|split; [split|]].
    - intros M M' HR. cbn [omp_zunmlq omp_zunmqr k_fun]. unfold core_zunmlq, core_zunmqr. cbv zeta.
      apply R_setB; try assumption; [|reflexivity].
      replace (if oside side =? PlasmaLeft then nn else mm) with (if side =? PlasmaLeft then mm else nn).
      2:{ unfold oside. destruct (side =? PlasmaLeft); reflexivity. }
      apply unmlq_dual; [assumption|lia| |apply R_T; assumption|].
      + apply adj_memo. intros i j Hi Hj. destruct (i <? j); [|rewrite nconj_0; reflexivity].
        apply (rel_rd bA A A' M M' k k kk (if side =? PlasmaLeft then mm else nn)); try assumption; try lia. apply HR.
      + apply adj_memo. apply rel_rd; try assumption. apply HR.
    - apply omp_zunmlq_kgood. lia.
    - apply kdecl_intro; cbn [omp_zunmlq k_deps k_reads k_writes]; intros l HR.
      + left. destruct HR as [HR|[HR|HR]].
        * eexists. split; [left; reflexivity|]. cbn [dep_in dep_addr]. hX DA HEA IA HR.
        * eexists. split; [right; left; reflexivity|]. hT IT HR.
        * eexists. split; [right; right; left; reflexivity|]. hX DB HEB IB HR.
      + eexists. split; [right; right; left; reflexivity|]. split; [|discriminate]. hX DB HEB IB HR.
    - cbn [omp_zunmlq k_writes]. intros l HR. left. apply reg_block in HR. exact HR.
  Qed.

  Lemma okp_tsm : forall side trans m1 n1 m2 n2 kk k q x1 y1 x2 y2, in_tiles B x1 y1 -> in_tiles B x2 y2 -> in_tiles A k q ->
    in_tiles T k q -> in_tiles T' q k ->
    m1 <= tsz nb (d_m B) x1 -> n1 <= tsz nb (d_n B) y1 -> m2 <= tsz nb (d_m B) x2 -> n2 <= tsz nb (d_n B) y2 ->
    0 <= kk <= tsz nb (d_m A) k -> (if side =? PlasmaLeft then m2 else n2) <= tsz nb (d_n A) q ->
    (if side =? PlasmaLeft then n1 = n2 /\ kk <= m1 else m1 = m2 /\ kk <= n1) ->
    okp (omp_ztsmlq side trans m1 n1 m2 n2 kk ib (tptr bB B x1 y1) (tile_mmain B x1) (tptr bB B x2 y2) (tile_mmain B x2)
           (tptr bA A k q) (tile_mmain A k) (tptr bT T k q) (d_mb T))
        (omp_ztsmqr (oside side) trans n1 m1 n2 m2 kk ib (tptr bB B' y1 x1) (tile_mmain B' y1) (tptr bB B' y2 x2) (tile_mmain B' y2)
           (tptr bA A' q k) (tile_mmain A' q) (tptr bT T' q k) (d_mb T')).
  Proof.
    intros side trans m1 n1 m2 n2 kk k q x1 y1 x2 y2 I1 I2 IA IT IT' H1 H2 H3 H4 H5 H6 H7. assert (Kn : kk <= nb) by (unfold tsz in *; lia).
    assert (DA : dn nb A) by apply PA. assert (DB : dn nb B) by apply PB.
    pose proof (sq_ld nb B _ DB x1 y1 I1) as L1. pose proof (sq_ld nb B _ DB x2 y2 I2) as L2.
    split; [|split; [split|]].
    - intros M M' HR. cbn [omp_ztsmlq omp_ztsmqr k_fun]. unfold core_ztsmlq, core_ztsmqr. cbv zeta.
      replace (if oside side =? PlasmaLeft then n2 else m2) with (if side =? PlasmaLeft then m2 else n2).
      2:{ unfold oside. destruct (side =? PlasmaLeft); reflexivity. }
      remember (if side =? PlasmaLeft then m2 else n2) as nq eqn:Enq.
      assert (G : adj m1 n1 (fst (tsmlq_mat side trans m1 n1 m2 n2 kk ib (memo kk nq (rd M (tptr bA A k q) (tile_mmain A k)))
          (memo ib kk (fun a c => if a <=? c mod ib then rd M (tptr bT T k q) (d_mb T) a c else n0))
          (memo m1 n1 (rd M (tptr bB B x1 y1) (tile_mmain B x1))) (memo m2 n2 (rd M (tptr bB B x2 y2) (tile_mmain B x2)))))
          (fst (tsmqr_mat (oside side) trans n1 m1 n2 m2 kk ib (memo nq kk (rd M' (tptr bA A' q k) (tile_mmain A' q)))
          (memo ib kk (fun a c => if a <=? c mod ib then rd M' (tptr bT T' q k) (d_mb T') a c else n0))
          (memo n1 m1 (rd M' (tptr bB B' y1 x1) (tile_mmain B' y1))) (memo n2 m2 (rd M' (tptr bB B' y2 x2) (tile_mmain B' y2))))) /\
        adj m2 n2 (snd (tsmlq_mat side trans m1 n1 m2 n2 kk ib (memo kk nq (rd M (tptr bA A k q) (tile_mmain A k)))
          (memo ib kk (fun a c => if a <=? c mod ib then rd M (tptr bT T k q) (d_mb T) a c else n0))
          (memo m1 n1 (rd M (tptr bB B x1 y1) (tile_mmain B x1))) (memo m2 n2 (rd M (tptr bB B x2 y2) (tile_mmain B x2)))))
          (snd (tsmqr_mat (oside side) trans n1 m1 n2 m2 kk ib (memo nq kk (rd M' (tptr bA A' q k) (tile_mmain A' q)))
          (memo ib kk (fun a c => if a <=? c mod ib then rd M' (tptr bT T' q k) (d_mb T') a c else n0))
          (memo n1 m1 (rd M' (tptr bB B' y1 x1) (tile_mmain B' y1))) (memo n2 m2 (rd M' (tptr bB B' y2 x2) (tile_mmain B' y2)))))).
      { apply tsmlq_dual; [assumption|lia|assumption| |apply R_T; assumption| |].
        - rewrite <- Enq. apply adj_memo. apply rel_rd; try assumption; try lia. apply HR.
        - apply adj_memo. apply rel_rd; try assumption. apply HR.
        - apply adj_memo. apply rel_rd; try assumption. apply HR. }
      destruct G as [G1 G2]. apply R_setB; try assumption; [|reflexivity]. apply R_setB; try assumption. reflexivity.
    - apply omp_ztsmlq_kgood; lia.
    - apply kdecl_intro; cbn [omp_ztsmlq k_deps k_reads k_writes]; intros l HR.
      + left. destruct HR as [HR|[HR|[HR|HR]]].
        * eexists. split; [left; reflexivity|]. cbn [dep_inout dep_addr]. hX DB HEB I1 HR.
        * eexists. split; [right; left; reflexivity|]. hX DB HEB I2 HR.
        * eexists. split; [right; right; left; reflexivity|]. hX DA HEA IA HR.
        * eexists. split; [right; right; right; left; reflexivity|]. hT IT HR.
      + destruct HR as [HR|HR].
        * eexists. split; [left; reflexivity|]. split; [|discriminate]. cbn [dep_inout dep_addr]. hX DB HEB I1 HR.
        * eexists. split; [right; left; reflexivity|]. split; [|discriminate]. hX DB HEB I2 HR.
    - cbn [omp_ztsmlq k_writes]. intros l [HR|HR]; left; apply reg_block in HR; exact HR.
  Qed.

  Variable lg : N -> list N -> N * N * list N.
  Hypothesis HWT : WT.

  Lemma okp_gelqt : forall mm nn k, in_tiles B k k -> in_tiles T k k -> in_tiles T' k k ->
    0 <= mm <= tsz nb (d_m B) k -> 0 <= nn <= tsz nb (d_n B) k ->
    okp (omp_zgelqt lg mm nn ib (tptr bB B k k) (tile_mmain B k) (tptr bT T k k) (d_mb T))
        (omp_zgeqrt lg nn mm ib (tptr bB B' k k) (tile_mmain B' k) (tptr bT T' k k) (d_mb T')).
  Proof.
    intros mm nn k IB IT IT' H1 H2. assert (Kn : Z.min mm nn <= nb) by (unfold tsz in *; lia). assert (DB : dn nb B) by apply PB.
    pose proof (sq_ld nb B _ DB k k IB) as L1.
    split; [|split; [split|]].
    - intros M M' HR. cbn [omp_zgelqt omp_zgeqrt k_fun]. unfold core_zgelqt, core_zgeqrt. cbv zeta.
      assert (G := gelqt_dual lg mm nn ib (memo mm nn (rd M (tptr bB B k k) (tile_mmain B k))) (memo nn mm (rd M' (tptr bB B' k k) (tile_mmain B' k)))
        Hib ltac:(lia) ltac:(lia) ltac:(apply adj_memo; apply rel_rd; try assumption; try lia; apply HR)).
      destruct G as [G1 G2]. rewrite (Z.min_comm nn mm). apply R_setT; try assumption. apply R_setB; try assumption; try lia. reflexivity.
    - apply omp_zgelqt_kgood; [lia|]. rewrite (tk_mb _ _ _ _ _ HT). lia.
    - apply kdecl_intro; cbn [omp_zgelqt k_deps k_reads k_writes]; intros l HR.
      + left. eexists. split; [left; reflexivity|]. cbn [dep_inout dep_addr]. hX DB HEB IB HR.
      + destruct HR as [HR|HR].
        * eexists. split; [left; reflexivity|]. split; [|discriminate]. cbn [dep_inout dep_addr]. hX DB HEB IB HR.
        * eexists. split; [right; left; reflexivity|]. split; [|discriminate]. hT IT HR.
    - cbn [omp_zgelqt k_writes]. intros l [HR|HR]; apply reg_block in HR; [left|right; split; [assumption|]]; exact HR.
  Qed.

  Lemma okp_tslqt : forall mm nn k q, in_tiles B k k -> in_tiles B k q -> in_tiles T k q -> in_tiles T' q k ->
    0 <= mm <= tsz nb (d_m B) k -> mm <= tsz nb (d_n B) k -> nn <= tsz nb (d_n B) q ->
    okp (omp_ztslqt lg mm nn ib (tptr bB B k k) (tile_mmain B k) (tptr bB B k q) (tile_mmain B k) (tptr bT T k q) (d_mb T))
        (omp_ztsqrt lg nn mm ib (tptr bB B' k k) (tile_mmain B' k) (tptr bB B' q k) (tile_mmain B' q) (tptr bT T' q k) (d_mb T')).
  Proof.
    intros mm nn k q I1 I2 IT IT' H1 H2 H3. assert (Kn : mm <= nb) by (unfold tsz in *; lia). assert (DB : dn nb B) by apply PB.
    pose proof (sq_ld nb B _ DB k k I1) as L1.
    split; [|split; [split|]].
    - intros M M' HR. cbn [omp_ztslqt omp_ztsqrt k_fun]. rewrite core_ztslqt_eq. unfold core_ztsqrt.
      assert (G := tslqt_dual lg mm nn ib (memo mm mm (fun r c => if c <=? r then rd M (tptr bB B k k) (tile_mmain B k) r c else n0))
        (memo mm mm (fun r c => if r <=? c then rd M' (tptr bB B' k k) (tile_mmain B' k) r c else n0))
        (memo mm nn (rd M (tptr bB B k q) (tile_mmain B k))) (memo nn mm (rd M' (tptr bB B' q k) (tile_mmain B' q)))
        Hib ltac:(lia)).
      unfold tslqt_val. destruct (tsqrt_mat _ _ _ _ _ _) as [[B1 B2] T1]. cbn [fst snd] in G.
      destruct G as (G1 & G2 & G3).
      + apply adj_memo. intros i j Hi Hj. destruct (j <=? i); [|rewrite nconj_0; reflexivity].
        apply (rel_rd bB B B' M M' k k mm mm); try assumption; try lia. apply HR.
      + apply adj_memo. apply rel_rd; try assumption; try lia. apply HR.
      + cbn [fst snd] in G1, G2, G3. apply R_setT; try assumption. apply R_setB; try assumption; try lia; [|reflexivity].
        apply R_setB; try assumption; try lia. intros i j. reflexivity.
    - apply omp_ztslqt_kgood; [lia|lia|]. rewrite (tk_mb _ _ _ _ _ HT). lia.
    - apply kdecl_intro; cbn [omp_ztslqt k_deps k_reads k_writes]; intros l HR.
      + left. destruct HR as [HR|HR].
        * eexists. split; [left; reflexivity|]. cbn [dep_inout dep_addr]. hX DB HEB I1 HR.
        * eexists. split; [right; left; reflexivity|]. hX DB HEB I2 HR.
      + destruct HR as [HR|[HR|HR]].
        * eexists. split; [left; reflexivity|]. split; [|discriminate]. cbn [dep_inout dep_addr]. hX DB HEB I1 HR.
        * eexists. split; [right; left; reflexivity|]. split; [|discriminate]. hX DB HEB I2 HR.
        * eexists. split; [right; right; left; reflexivity|]. split; [|discriminate]. hT IT HR.
    - cbn [omp_ztslqt k_writes]. intros l [HR|[HR|HR]]; apply reg_block in HR; [left|left|right; split; [assumption|]]; exact HR.
  Qed.
End Sim.
