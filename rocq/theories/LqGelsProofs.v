(* plasma_zgels. *)
From Coq Require Import ZArith List Bool Lia Ring.
From Verif Require Import Base NumModel NumProofs FieldModel ControlModel TaskModel TaskSpec TaskProofs DescModel DescSpec DescDriverModel DescProofs DescProofs3 DescProofs4 DescTProofs
  MatModel MatSpec MatProofs RegionProofs LayoutModel LayoutProofs LayoutProofs2 DriverModel DriverSpec OpProofs OperandProofs GemmProofs GemmDriverProofs RankDriverProofs
  TriModel TriSpec LasetModel QrModel QrSpec QrAlgProofs QrStepProofs QrKerProofs QrKerProofs2 QrMulProofs QrLiftProofs QrTaskProofs QrEffProofs QrUnmProofs QrFacProofs QrInvProofs QrListProofs QrDrvProofs QrDriverProofs
  LsModel LsSpec LsAlgProofs LsViewProofs LsProofs LsQrsProofs LqModel LqDualProofs LqDual2Proofs LqSimProofs LqListProofs LqMateProofs LqEffProofs LqDriverProofs LqSolveProofs LqSolve2Proofs.
Import ListNotations.
Open Scope Z_scope.

Lemma ext_region3 : forall V nb bA A pA lda bC C pC ldc bE hE (comp : list (ktask V)),
  dn nb A -> dn nb C -> d_m A <= lda -> d_m C <= ldc ->
  NoDup [bE; bA; bC] -> (forall b, In b [fst pA; fst pC] -> ~ In b [bE; bA; bC]) ->
  apart pA lda (d_m A) (d_n A) pC ldc (d_m C) (d_n C) -> functionalZ hE ->
  (forall env, In (bA, homeD A (in_tiles A)) env -> In (bC, homeD C (in_tiles C)) env -> In (bE, hE) env ->
     Forall (fun k => kgood k /\ kdecl (home_env env) k) comp) ->
  forall M, region_ensures (pzge2desc pA lda bA A ++ pzge2desc pC ldc bC C ++ comp ++ pzdesc2ge bA A pA lda ++ pzdesc2ge bC C pC ldc) M
    (fun M' => exists M3,
      (forall i j, 0 <= i < d_m A -> 0 <= j < d_n A -> el M3 bA A i j = ul M pA lda i j) /\
      (forall i j, 0 <= i < d_m C -> 0 <= j < d_n C -> el M3 bC C i j = ul M pC ldc i j) /\
      (forall l, fst l <> bA -> fst l <> bC -> M3 l = M l) /\
      (forall i j, 0 <= i < d_m A -> 0 <= j < d_n A -> ul M' pA lda i j = el (krun comp M3) bA A i j) /\
      (forall i j, 0 <= i < d_m C -> 0 <= j < d_n C -> ul M' pC ldc i j = el (krun comp M3) bC C i j) /\
      (forall l, ~ in_user pA lda (d_m A) (d_n A) l -> ~ in_user pC ldc (d_m C) (d_n C) l -> M' l = krun comp M3 l)).
Proof.
  intros V nb bA A pA lda bC C pC ldc bE hE comp HA HC LA LC HND HF HAP E3 CC M.
  set (oA := ge_opnd bA A pA lda). set (oC := ge_opnd bC C pC ldc).
  assert (NAC : bA <> bC /\ bE <> bA /\ bE <> bC).
  { inversion_clear HND as [|? ? N1 N2]. inversion_clear N2 as [|? ? N3 N4]. cbn in *. intuition. }
  destruct NAC as (NAC & NEA & NEC).
  pose proof (HF (fst pA) (or_introl eq_refl)) as FA. pose proof (HF (fst pC) (or_intror (or_introl eq_refl))) as FC. cbn in FA, FC.
  pose proof (ext_region (V := V) nb [oA; oC] [oA; oC] [oA; oC]) as R.
  eapply region_mono; [|replace (pzge2desc pA lda bA A ++ pzge2desc pC ldc bC C ++ comp ++ pzdesc2ge bA A pA lda ++ pzdesc2ge bC C pC ldc)
     with (flat_map (@o_in V) [oA; oC] ++ comp ++ flat_map o_out [oA; oC])
       by (unfold oA, oC; cbn [flat_map]; rewrite !app_nil_r, !ge_opnd_in, !ge_opnd_out, <- app_assoc; reflexivity); eapply R with (bE := bE) (hE := hE); clear R].
  - intros M' (M3 & H1 & H2 & H3 & H4). exists M3. split; [|split; [|split; [|split; [|split]]]].
    + intros i j Hi Hj. apply (H1 oA); [left; reflexivity|]. apply (ge_opnd_el nb); assumption.
    + intros i j Hi Hj. apply (H1 oC); [right; left; reflexivity|]. apply (ge_opnd_el nb); assumption.
    + intros l Hl Hl'. apply H2. intros o [<-|[<-|[]]]; assumption.
    + intros i j Hi Hj. apply (H3 oA); [left; reflexivity|]. apply (ge_opnd_el nb); assumption.
    + intros i j Hi Hj. apply (H3 oC); [right; left; reflexivity|]. apply (ge_opnd_el nb); assumption.
    + intros l Hl Hl'. apply H4. intros o [<-|[<-|[]]] X; [apply Hl|apply Hl']; apply ge_opnd_user in X; exact X.
  - intros o [<-|[<-|[]]]; apply ge_opnd_ok; assumption.
  - apply incl_refl.
  - apply incl_refl.
  - cbn. constructor; [intros [X|[]]; auto|]. constructor; [intros []|constructor].
  - intros o o' [<-|[<-|[]]] [<-|[<-|[]]]; cbn; intros X; first [apply FA; rewrite X; solve [auto]|apply FC; rewrite X; solve [auto]].
  - constructor; [intros [X|[]]|]. { apply (f_equal o_b) in X. cbn in X. auto. } constructor; [intros []|constructor].
  - constructor; [intros [X|[]]|]. { apply (f_equal o_b) in X. cbn in X. auto. } constructor; [intros []|constructor].
  - intros o o' [<-|[<-|[]]] [<-|[<-|[]]]; try (left; reflexivity); right; intros l Hl X; apply ge_opnd_user in X;
      first [exact (HAP l Hl X)|exact (HAP l X Hl)].
  - intros o Ho. left. assumption.
  - intros o [<-|[<-|[]]]; cbn; (split; [assumption|]); intros X; first [apply FA; rewrite X; solve [auto]|apply FC; rewrite X; solve [auto]].
  - exact E3.
  - intros env HE HE'. apply CC; [| |assumption].
    + apply (HE oA). left; reflexivity.
    + apply (HE oC). right; left; reflexivity.
Qed.

Section Gels.
  Context {F : fields}.
  Add Ring num_ring_lq_gels : (nring F).
  Variable lg : F -> list F -> F * F * list F.
  Hypothesis LG : larfg_ok lg.
  Hypothesis NT : (n1 : F) <> n0.

  (* rows 0..c-1 of x solve the least squares problem, the other rows hold the residual *)
  Definition ls_res (r c : Z) (A : Z -> Z -> F) (b x : Z -> F) : Prop :=
    least_squares r c A b x /\
    sum_squares (fun i => nsub (b i) (mat_vec c A x i)) 0 r = sum_squares x c r.

  Lemma ls_res_ext : forall r c (A : Z -> Z -> F) b b' x x', 0 <= c <= r -> (forall i, 0 <= i < r -> b i = b' i) -> (forall i, 0 <= i < r -> x i = x' i) ->
    ls_res r c A b x -> ls_res r c A b' x'.
  Proof.
    intros r c A b b' x x' Hc HB HX [H1 H2]. split.
    - eapply least_ext; [exact HB| |exact H1]. intros i Hi. apply HX. lia.
    - transitivity (sum_squares x c r); [rewrite <- H2|].
      + unfold sum_squares. apply nsum_ext. intros i Hi.
        assert (E : mat_vec c A x' i = mat_vec c A x i) by (unfold mat_vec; apply nsum_ext; intros l Hl; rewrite HX by lia; reflexivity).
        rewrite E, HB by assumption. reflexivity.
      + unfold sum_squares. apply nsum_ext. intros i Hi. rewrite HX by lia. reflexivity.
  Qed.

  Section Tiles.
    Variables (nb ib m n : Z) (A B T : desc) (bA bB bT trans : Z) (A0 : Z -> Z -> F).
    Hypotheses (Hnb : 0 < nb) (Hib : 0 < ib) (Hm : 0 < m) (Hn : 0 < n).
    Hypotheses (GA : gen_ok A) (DA : dn nb A) (A1 : d_m A = m) (A2 : d_n A = n).
    Hypotheses (GB : gen_ok B) (DB : dn nb B) (B1 : d_m B = Z.max m n) (Bn : 0 < d_n B) (B3 : d_i B = 0) (B4 : d_j B = 0).
    Hypotheses (HT : tok nb ib m (Z.min m n) T) (HLT : ltok nb ib m n T).
    Hypotheses (NAB : bA <> bB) (NAT : bA <> bT) (NTB : bT <> bB).
    Hypothesis HTr : trans = PlasmaNoTrans \/ trans = PlasmaConjTrans.

    Let NZ : (d_m A =? 0) || (d_n A =? 0) || (d_n B =? 0) = false.
    Proof. rewrite !orb_false_iff, !Z.eqb_neq. lia. Qed.

    Lemma gels_eq : omp_zgels lg trans bA A bT T bB B
      = if n <=? m then
          pzgeqrf lg bA A bT T ++
          (if trans =? PlasmaNoTrans then pzunmqr PlasmaLeft PlasmaConjTrans bA A bT T bB B ++ view_tasks A B bA bB PlasmaUpper n PlasmaNoTrans
           else down_tasks B bB n ++ view_tasks A B bA bB PlasmaUpper n PlasmaConjTrans ++ pzunmqr PlasmaLeft PlasmaNoTrans bA A bT T bB B)
        else
          pzgelqf lg bA A bT T ++
          (if trans =? PlasmaNoTrans then down_tasks B bB m ++ view_tasks A B bA bB PlasmaLower m PlasmaNoTrans ++ pzunmlq PlasmaLeft PlasmaConjTrans bA A bT T bB B
           else pzunmlq PlasmaLeft PlasmaNoTrans bA A bT T bB B ++ view_tasks A B bA bB PlasmaLower m PlasmaConjTrans).
    Proof.
      unfold omp_zgels. rewrite NZ. rewrite A1, A2. unfold down_tasks, view_tasks. rewrite B1.
      destruct (Z.leb_spec n m); [rewrite Z.max_l by lia|rewrite Z.max_r by lia]; reflexivity.
    Qed.

    Lemma gels_ok : forall env, In (bA, homeD A (in_tiles A)) env -> In (bB, homeD B (in_tiles B)) env -> In (bT, homeD T (in_tiles T)) env ->
      Forall (fun k => kgood k /\ kdecl (home_env env) k) (omp_zgels lg trans bA A bT T bB B).
    Proof.
      intros env EA EB ET. rewrite gels_eq. destruct (Z.leb_spec n m) as [Hnm|Hnm].
      - rewrite Z.min_r in HT by lia. rewrite Z.max_l in B1 by lia.
        assert (QR : Forall (fun k => kgood k /\ kdecl (home_env env) k) (pzgeqrf lg bA A bT T)).
        { apply (geqrf_ok (N := F) lg nb ib m n Hnb T bT); auto. rewrite Z.min_r by lia. assumption. }
        pose proof (td_shape _ _ (sq_t _ _ _ DA)) as SA. pose proof (td_shape _ _ (sq_t _ _ _ DB)) as SB.
        assert (MB : d_mt B = d_mt A).
        { rewrite (mt_aligned B SB), B1, (sq_mb _ _ _ DB), (mt_aligned A SA), A1, (sq_mb _ _ _ DA). reflexivity. }
        assert (UN : forall tr, Forall (fun k => kgood k /\ kdecl (home_env env) k) (pzunmqr (N := F) PlasmaLeft tr bA A bT T bB B)).
        { intros tr. apply (unmqr_left_ok (N := F) nb ib m n Hnb ltac:(lia) T bT HT A bA DA A1 A2 B bB DB tr env); auto. }
        assert (VT : forall tr, Forall (fun k => kgood k /\ kdecl (home_env env) k) (view_tasks (F := F) A B bA bB PlasmaUpper n tr)).
        { intros tr. apply (view_tasks_ok (F := F) nb A B bA bB PlasmaUpper n tr GA DA GB DB (or_introl eq_refl)); try assumption; lia. }
        apply Forall_app. split; [assumption|]. destruct (trans =? PlasmaNoTrans).
        + apply Forall_app. split; auto.
        + apply Forall_app. split; [apply (down_tasks_ok nb B bB n DB GB B3 B4); [lia|assumption]|]. apply Forall_app. split; auto.
      - rewrite Z.max_r in B1 by lia.
        assert (QR : Forall (fun k => kgood k /\ kdecl (home_env env) k) (pzgelqf lg bA A bT T)).
        { apply (gelqf_ok (N := F) lg nb ib m n T bT A bA Hnb Hib Hm Hn HLT DA A1 A2); auto. }
        assert (UN : forall tr, tr = PlasmaNoTrans \/ tr = PlasmaConjTrans -> Forall (fun k => kgood k /\ kdecl (home_env env) k) (pzunmlq (N := F) PlasmaLeft tr bA A bT T bB B)).
        { intros tr Htr. apply (unmlq_ok (N := F) nb ib m n m T bT Hnb Hib); auto; lia. }
        assert (VT : forall tr, Forall (fun k => kgood k /\ kdecl (home_env env) k) (view_tasks (F := F) A B bA bB PlasmaLower m tr)).
        { intros tr. apply (view_tasks_ok (F := F) nb A B bA bB PlasmaLower m tr GA DA GB DB (or_intror eq_refl)); try assumption; lia. }
        apply Forall_app. split; [assumption|]. destruct (trans =? PlasmaNoTrans).
        + apply Forall_app. split; [apply (down_tasks_ok nb B bB m DB GB B3 B4); [lia|assumption]|]. apply Forall_app. split; auto.
        + apply Forall_app. split; auto.
    Qed.

    Lemma gels_eff_qr : forall M3, n <= m -> full_column_rank m n A0 ->
      (forall i j, 0 <= i < m -> 0 <= j < n -> el M3 bA A i j = A0 i j) ->
      let M9 := krun (omp_zgels lg trans bA A bT T bB B) M3 in
      (forall j, 0 <= j < d_n B ->
         (trans = PlasmaNoTrans -> ls_res m n A0 (fun i => el M3 bB B i j) (fun i => el M9 bB B i j)) /\
         (trans = PlasmaConjTrans -> minimum_norm n m (fun i j => nconj (A0 j i)) (fun i => el M3 bB B i j) (fun i => el M9 bB B i j))) /\
      (exists Q, is_unitary m Q /\ forall i j, 0 <= i < m -> 0 <= j < n ->
         A0 i j = nsum (fun l => nmul (Q i l) (if l <=? j then el M9 bA A l j else n0)) 0 m) /\
      (forall l, fst l <> bA -> fst l <> bB -> fst l <> bT -> M9 l = M3 l).
    Proof.
      intros M3 Hnm RK HA0. cbv zeta. rewrite gels_eq. destruct (Z.leb_spec n m) as [_|X]; [|lia].
      rewrite Z.max_l in B1 by lia.
      destruct (pzgeqrf_eff (N := F) lg LG nb ib m n T bT A bA Hnb Hib Hm Hn HT DA A1 A2 NAT M3) as (taus & P1 & P2 & P3).
      rewrite Z.min_r in P1, P2, HT by lia. rewrite krun_app.
      remember (krun (pzgeqrf lg bA A bT T) M3) as M4 eqn:E4. clear E4.
      pose proof (qmat_unitary (N := F) nb ib m n T bT (el M4 bA A) M4 taus Hnb ltac:(lia) P1) as UN.
      assert (HF : forall i j, 0 <= i < m -> 0 <= j < n -> A0 i j = nsum (fun l => nmul (qmat nb m n (el M4 bA A) taus i l) (rt (el M4 bA A) l j)) 0 m).
      { intros i j Hi Hj. rewrite <- HA0 by assumption. rewrite (P2 i j Hi Hj). reflexivity. }
      assert (FB : forall i j, el M4 bB B i j = el M3 bB B i j) by (intros; unfold el; apply P3; cbn; congruence).
      destruct HTr as [-> | ->].
      - change (PlasmaNoTrans =? PlasmaNoTrans) with true. cbv iota. rewrite krun_app.
        destruct (unmqr_left_eff (N := F) nb ib m n T bT (el M4 bA A) M4 taus Hnb Hib ltac:(lia) HT P1 A bA B bB PlasmaConjTrans M4 DA A1 A2 DB B1 NAB NTB (or_intror eq_refl) ltac:(reflexivity) ltac:(reflexivity)) as [U1 U2].
        remember (krun (pzunmqr PlasmaLeft PlasmaConjTrans bA A bT T bB B) M4) as M5 eqn:E5. clear E5.
        destruct (over_fin (F := F) nb m n A B bA bB PlasmaUpper PlasmaNoTrans GA DA GB DB (or_introl eq_refl) ltac:(lia) ltac:(lia) ltac:(lia) B1 Bn NAB
          A0 (qmat nb m n (el M4 bA A) taus) (el M4 bA A) UN HF NT RK M4 M5 (rt (el M4 bA A))) as [R1 R2].
        { intros i j Hi Hj. rewrite U1 by lia. reflexivity. }
        { intros i j Hi Hj. unfold rt, uplo_sel. cbn. destruct (i <=? j); [|reflexivity]. unfold el. symmetry. apply U2. cbn. assumption. }
        { intros i l Hi Hl. reflexivity. }
        { intros i Hi. left. unfold rt. rewrite Z.leb_refl. reflexivity. }
        remember (krun (view_tasks A B bA bB PlasmaUpper n PlasmaNoTrans) M5) as M9 eqn:E9. clear E9.
        split; [|split].
        + intros j Hj. split; [intros _|discriminate]. eapply ls_res_ext; [lia| |reflexivity|exact (R1 j Hj)]. intros i Hi. cbv beta. apply FB.
        + exists (qmat nb m n (el M4 bA A) taus). split; [exact UN|]. intros i j Hi Hj. rewrite HF by assumption. apply nsum_ext. intros l Hl. f_equal.
          unfold rt. destruct (l <=? j); [|reflexivity]. unfold el. rewrite R2, U2 by (cbn; assumption). reflexivity.
        + intros l L1 L2 L3. rewrite R2, U2 by assumption. apply P3; assumption.
      - change (PlasmaConjTrans =? PlasmaNoTrans) with false. cbv iota. rewrite !krun_app.
        pose proof (under_fin (F := F) nb m n A B bA bB PlasmaUpper PlasmaConjTrans GA DA GB DB (or_introl eq_refl) ltac:(lia) ltac:(lia) ltac:(lia) B1 Bn NAB
          A0 (qmat nb m n (el M4 bA A) taus) (el M4 bA A) UN HF NT RK B3 B4 M4 (rt (el M4 bA A))) as UF. cbv zeta in UF.
        destruct UF as [R2 R1].
        { intros i j Hi Hj. unfold rt, uplo_sel. cbn. destruct (i <=? j); reflexivity. }
        { intros i l Hi Hl. reflexivity. }
        { intros i Hi. left. unfold rt. rewrite Z.leb_refl. reflexivity. }
        remember (krun (view_tasks A B bA bB PlasmaUpper n PlasmaConjTrans) (krun (down_tasks B bB n) M4)) as M5 eqn:E5. clear E5.
        destruct (unmqr_left_eff (N := F) nb ib m n T bT (el M4 bA A) M4 taus Hnb Hib ltac:(lia) HT P1 A bA B bB PlasmaNoTrans M5 DA A1 A2 DB B1 NAB NTB (or_introl eq_refl)) as [U1 U2].
        { intros i j Hi Hj. unfold el. apply R2. cbn. assumption. }
        { intros l Hl. apply R2. congruence. }
        remember (krun (pzunmqr PlasmaLeft PlasmaNoTrans bA A bT T bB B) M5) as M9 eqn:E9. clear E9.
        assert (R3 := R1 M9 ltac:(intros i j Hi Hj; rewrite U1 by lia; reflexivity)). clear R1.
        split; [|split].
        + intros j Hj. split; [discriminate|intros _]. eapply min_norm_ext; [| |exact (R3 j Hj)]; [|reflexivity]. intros i Hi. cbv beta. apply FB.
        + exists (qmat nb m n (el M4 bA A) taus). split; [exact UN|]. intros i j Hi Hj. rewrite HF by assumption. apply nsum_ext. intros l Hl. f_equal.
          unfold rt. destruct (l <=? j); [|reflexivity]. unfold el. rewrite U2, R2 by (cbn; assumption). reflexivity.
        + intros l L1 L2 L3. rewrite U2, R2 by assumption. apply P3; assumption.
    Qed.

    Lemma gels_eff_lq : forall M3, m < n -> full_row_rank m n A0 ->
      (forall i j, 0 <= i < m -> 0 <= j < n -> el M3 bA A i j = A0 i j) ->
      let M9 := krun (omp_zgels lg trans bA A bT T bB B) M3 in
      (forall j, 0 <= j < d_n B ->
         (trans = PlasmaNoTrans -> minimum_norm m n A0 (fun i => el M3 bB B i j) (fun i => el M9 bB B i j)) /\
         (trans = PlasmaConjTrans -> ls_res n m (fun i j => nconj (A0 j i)) (fun i => el M3 bB B i j) (fun i => el M9 bB B i j))) /\
      (exists Q, is_unitary n Q /\ forall i j, 0 <= i < m -> 0 <= j < n ->
         A0 i j = nsum (fun l => nmul (if l <=? i then el M9 bA A i l else n0) (Q l j)) 0 n) /\
      (forall l, fst l <> bA -> fst l <> bB -> fst l <> bT -> M9 l = M3 l).
    Proof.
      intros M3 Hnm RK HA0. cbv zeta. rewrite gels_eq. destruct (Z.leb_spec n m) as [X|_]; [lia|].
      rewrite Z.max_r in B1 by lia.
      destruct (pzgelqf_eff (N := F) lg LG nb ib m n T bT A bA Hnb Hib Hm Hn HLT DA A1 A2 NAT M3) as (taus & P1 & P2 & P3).
      rewrite Z.min_l in P1, P2 by lia. rewrite krun_app.
      remember (krun (pzgelqf lg bA A bT T) M3) as M4 eqn:E4. clear E4.
      pose proof (lmat_unitary (N := F) nb ib n m T bT (el M4 bA A) M4 taus Hnb ltac:(lia) P1) as UN.
      remember (lmat nb n m (el M4 bA A) taus) as Q eqn:EQ.
      assert (HF : forall i j, 0 <= i < m -> 0 <= j < n -> A0 i j = nsum (fun l => nmul (if l <=? i then el M4 bA A i l else n0) (Q l j)) 0 n).
      { intros i j Hi Hj. rewrite <- HA0 by assumption. rewrite (P2 i j Hi Hj). reflexivity. }
      pose proof (conj_tr_unitary n Q UN) as UC.
      pose proof (lq_adj m n A0 (el M4 bA A) Q ltac:(lia) HF) as HFC.
      pose proof (row_col_rank _ _ _ RK) as RKC.
      assert (FB : forall i j, el M4 bB B i j = el M3 bB B i j) by (intros; unfold el; apply P3; cbn; congruence).
      destruct HTr as [-> | ->].
      - change (PlasmaNoTrans =? PlasmaNoTrans) with true. cbv iota. rewrite !krun_app.
        pose proof (under_fin (F := F) nb n m A B bA bB PlasmaLower PlasmaNoTrans GA DA GB DB (or_intror eq_refl) ltac:(lia) ltac:(lia) ltac:(lia) B1 Bn NAB
          (conj_tr (N := F) A0) (conj_tr (N := F) Q) (conj_tr (N := F) (el M4 bA A)) UC HFC NT RKC B3 B4
          M4 (fun i j => if j <=? i then el M4 bA A i j else n0)) as UF. cbv zeta in UF.
        destruct UF as [R2 R1].
        { intros i j Hi Hj. unfold uplo_sel. change (PlasmaLower =? PlasmaUpper) with false. change (PlasmaLower =? PlasmaLower) with true. cbv iota. reflexivity. }
        { intros i l Hi Hl. unfold op_of, rt, conj_tr. change (PlasmaNoTrans =? PlasmaNoTrans) with true. cbv iota.
          destruct (l <=? i); [rewrite nconj_conj|rewrite nconj_0]; reflexivity. }
        { intros i Hi. rewrite Z.leb_refl. right. unfold conj_tr. rewrite nconj_conj. reflexivity. }
        remember (krun (view_tasks A B bA bB PlasmaLower m PlasmaNoTrans) (krun (down_tasks B bB m) M4)) as M5 eqn:E5. clear E5.
        destruct (unmlq_eff (N := F) nb ib m n m T bT (el M4 bA A) M4 taus Hnb Hib ltac:(lia) ltac:(lia) HLT P1 A bA B bB PlasmaLeft PlasmaConjTrans M5 DA A1 A2 DB B1 NAB NTB NAT
          (or_introl eq_refl) (or_intror eq_refl)) as [U1 U2].
        { intros i j Hi Hj. unfold el. apply R2. cbn. assumption. }
        { intros l Hl. apply R2. congruence. }
        remember (krun (pzunmlq PlasmaLeft PlasmaConjTrans bA A bT T bB B) M5) as M9 eqn:E9. clear E9.
        assert (R3 := R1 M9 ltac:(intros i j Hi Hj; rewrite U1 by lia; rewrite <- EQ; reflexivity)). clear R1.
        split; [|split].
        + intros j Hj. split; [intros _|discriminate]. eapply min_norm_ext; [| |apply min_norm_adj; exact (R3 j Hj)]; [|reflexivity]. intros i Hi. cbv beta. apply FB.
        + exists Q. split; [exact UN|]. intros i j Hi Hj. rewrite HF by assumption. apply nsum_ext. intros l Hl. f_equal.
          destruct (l <=? i); [|reflexivity]. unfold el. rewrite U2, R2 by (cbn; assumption). reflexivity.
        + intros l L1 L2 L3. rewrite U2, R2 by assumption. apply P3; assumption.
      - change (PlasmaConjTrans =? PlasmaNoTrans) with false. cbv iota. rewrite krun_app.
        destruct (unmlq_eff (N := F) nb ib m n m T bT (el M4 bA A) M4 taus Hnb Hib ltac:(lia) ltac:(lia) HLT P1 A bA B bB PlasmaLeft PlasmaNoTrans M4 DA A1 A2 DB B1 NAB NTB NAT
          (or_introl eq_refl) (or_introl eq_refl) ltac:(reflexivity) ltac:(reflexivity)) as [U1 U2].
        remember (krun (pzunmlq PlasmaLeft PlasmaNoTrans bA A bT T bB B) M4) as M5 eqn:E5. clear E5.
        destruct (over_fin (F := F) nb n m A B bA bB PlasmaLower PlasmaConjTrans GA DA GB DB (or_intror eq_refl) ltac:(lia) ltac:(lia) ltac:(lia) B1 Bn NAB
          (conj_tr (N := F) A0) (conj_tr (N := F) Q) (conj_tr (N := F) (el M4 bA A)) UC HFC NT RKC
          M4 M5 (fun i j => if j <=? i then el M4 bA A i j else n0)) as [R1 R2].
        { intros i j Hi Hj. rewrite U1 by lia. rewrite <- EQ. unfold q_times. change (PlasmaLeft =? PlasmaLeft) with true. cbv iota. apply nsum_ext. intros l Hl.
          unfold conj_tr, op_of. change (PlasmaNoTrans =? PlasmaNoTrans) with true. cbv iota. rewrite nconj_conj. reflexivity. }
        { intros i j Hi Hj. unfold uplo_sel. change (PlasmaLower =? PlasmaUpper) with false. change (PlasmaLower =? PlasmaLower) with true. cbv iota.
          destruct (j <=? i); [|reflexivity]. unfold el. symmetry. apply U2. cbn. assumption. }
        { intros i l Hi Hl. unfold op_of, rt, conj_tr. change (PlasmaConjTrans =? PlasmaNoTrans) with false. change (PlasmaConjTrans =? PlasmaTrans) with false. cbv iota.
          destruct (i <=? l); [reflexivity|apply nconj_0]. }
        { intros i Hi. rewrite Z.leb_refl. right. unfold conj_tr. rewrite nconj_conj. reflexivity. }
        remember (krun (view_tasks A B bA bB PlasmaLower m PlasmaConjTrans) M5) as M9 eqn:E9. clear E9.
        split; [|split].
        + intros j Hj. split; [discriminate|intros _]. eapply ls_res_ext; [lia| |reflexivity|exact (R1 j Hj)]. intros i Hi. cbv beta. apply FB.
        + exists Q. split; [exact UN|]. intros i j Hi Hj. rewrite HF by assumption. apply nsum_ext. intros l Hl. f_equal.
          destruct (l <=? i); [|reflexivity]. unfold el. rewrite R2, U2 by (cbn; assumption). reflexivity.
        + intros l L1 L2 L3. rewrite R2, U2 by assumption. apply P3; assumption.
    Qed.
  End Tiles.

  Lemma region_one : forall (k : ktask F) M, kgood k -> region_ensures [k] M (fun M' => meq M' (k_fun k M)).
  Proof.
    intros k M G. apply region_intro; [constructor; [assumption|constructor]| |auto].
    intros l1 a l2 b l3 E _. exfalso. apply (f_equal (@length _)) in E. rewrite app_length in E. cbn [length] in E. rewrite app_length in E. cbn [length] in E. lia.
  Qed.

  Lemma zgels_main : forall nb ib trans m n nrhs pA lda pB ldb bA bB bT M,
    0 < nb -> 0 < ib -> trans = PlasmaNoTrans \/ trans = PlasmaConjTrans ->
    0 <= m -> 0 <= n -> 0 <= nrhs -> Z.max 1 m <= lda -> Z.max 1 (Z.max m n) <= ldb ->
    NoDup [bT; bA; bB] -> (forall b, In b [fst pA; fst pB] -> ~ In b [bT; bA; bB]) ->
    apart pA lda m n pB ldb (Z.max m n) nrhs ->
    (n <= m -> full_column_rank m n (ul M pA lda)) -> (m < n -> full_row_rank m n (ul M pA lda)) ->
    driver_ensures (zgels lg nb ib trans m n nrhs pA lda pB ldb bA bB bT) M (fun M' =>
      (forall j, 0 <= j < nrhs ->
         let A := ul M pA lda in let AH := fun r c => nconj (A c r) in
         let b := fun i => ul M pB ldb i j in let x := fun i => ul M' pB ldb i j in
         (trans = PlasmaNoTrans -> n <= m -> least_squares m n A b x /\
            (0 < n -> sum_squares (fun i => nsub (b i) (mat_vec n A x i)) 0 m = sum_squares x n m)) /\
         (trans = PlasmaNoTrans -> m < n -> minimum_norm m n A b x) /\
         (trans = PlasmaConjTrans -> n <= m -> minimum_norm n m AH b x) /\
         (trans = PlasmaConjTrans -> m < n -> least_squares n m AH b x /\
            (0 < m -> sum_squares (fun i => nsub (b i) (mat_vec m AH x i)) 0 n = sum_squares x m n))) /\
      (0 < nrhs -> n <= m -> exists Q, is_unitary m Q /\ forall i j, 0 <= i < m -> 0 <= j < n ->
         ul M pA lda i j = nsum (fun l => nmul (Q i l) (if l <=? j then ul M' pA lda l j else n0)) 0 m) /\
      (0 < nrhs -> m < n -> exists Q, is_unitary n Q /\ forall i j, 0 <= i < m -> 0 <= j < n ->
         ul M pA lda i j = nsum (fun l => nmul (if l <=? i then ul M' pA lda i l else n0) (Q l j)) 0 n) /\
      (forall l, fst l <> bA -> fst l <> bB -> fst l <> bT -> ~ in_user pA lda m n l -> ~ in_user pB ldb (Z.max m n) nrhs l -> M' l = M l)).
  Proof.
    intros nb ib trans m n nrhs pA lda pB ldb bA bB bT M Hnb Hib HTr Hm Hn Hnr Hlda Hldb HND HFr HAP RK1 RK2.
    unfold zgels.
    replace (negb (trans =? PlasmaNoTrans) && negb (trans =? PlasmaConjTrans)) with false by (destruct HTr as [-> | ->]; reflexivity).
    destruct (Z.ltb_spec m 0); [lia|]. destruct (Z.ltb_spec n 0); [lia|]. destruct (Z.ltb_spec nrhs 0); [lia|].
    destruct (Z.ltb_spec lda (Z.max 1 m)); [lia|]. destruct (Z.ltb_spec ldb (Z.max 1 (Z.max m n))); [lia|].
    destruct (Z.eqb_spec (Z.min m (Z.min n nrhs)) 0) as [QR|QR].
    { cbn [driver_ensures]. eapply region_mono; [|apply region_one].
      2:{ apply (mset_kgood F _ pB ldb (Z.max m n) nrhs _ (fun _ _ _ => n0)); [lia|apply finite_none|reflexivity]. }
      intros M' HM'. cbn [k_fun] in HM'.
      assert (ZB : forall i j, 0 <= i < Z.max m n -> 0 <= j < nrhs -> ul M' pB ldb i j = n0).
      { intros i j Hi Hj. unfold ul. rewrite HM'. pose proof (mset_in F pB ldb (Z.max m n) nrhs everywhere (fun _ _ => n0) M i j Hi Hj ltac:(lia)) as X.
        unfold at_ in X. rewrite X. reflexivity. }
      assert (MN : forall (r c : Z) (A : Z -> Z -> F) (b : Z -> F) j, r = 0 -> c <= Z.max m n -> 0 <= j < nrhs -> minimum_norm r c A b (fun i => ul M' pB ldb i j)).
      { intros r c A b j Hr Hc Hj. split; [intros; lia|]. intros z _. apply nsum_0. intros l Hl. rewrite ZB by lia. rewrite nconj_0. ring. }
      split; [|split; [|split]].
      - intros j Hj. cbv zeta. split; [|split; [|split]].
        + intros _ Hnm. split; [|lia]. intros r Hr. lia.
        + intros _ Hnm. apply MN; lia.
        + intros _ Hnm. apply MN; lia.
        + intros _ Hnm. split; [|lia]. intros r Hr. lia.
      - intros Hr Hnm. exists (umat F (fun x => x)). split; [apply id_unitary|]. intros; lia.
      - intros Hr Hnm. exists (umat F (fun x => x)). split; [apply id_unitary|]. intros; lia.
      - intros l _ _ _ _ HB. rewrite HM'. apply mset_out. intros R. apply HB. destruct R as (i & j & Hi & Hj & _ & ->). exists i, j. auto. }
    destruct (ge_create_succeeds nb m n Hnb ltac:(lia) ltac:(lia)) as (A & EA & _).
    destruct (ge_create_succeeds nb (Z.max m n) nrhs Hnb ltac:(lia) ltac:(lia)) as (B & EB & _).
    destruct (geqrf_T_ok nb ib m n Hnb Hib ltac:(lia) ltac:(lia)) as (T & size & ET & HT).
    destruct (gelqf_T_ok nb ib m n Hnb Hib ltac:(lia) ltac:(lia)) as (T' & size' & ET' & HLT).
    unfold geqrf_T in ET. unfold gelqf_T in ET'. rewrite EA in ET, ET'.
    assert (T' = T) by congruence. subst T'. clear ET'. rewrite EA, EB. cbn [with_desc]. rewrite ET. cbn [with_desc driver_ensures].
    destruct (ge_create_dn _ _ _ _ _ EA) as (DA & A1 & A2 & _).
    destruct (ge_create_dn _ _ _ _ _ EB) as (DB & B1 & B2 & B3 & B4).
    destruct (ge_create_gen _ _ _ _ _ EA) as (GA & _). destruct (ge_create_gen _ _ _ _ _ EB) as (GB & _). clear EA EB ET.
    assert (NAC : bA <> bB /\ bT <> bA /\ bT <> bB).
    { inversion_clear HND as [|? ? N1 N2]. inversion_clear N2 as [|? ? N3 N4]. cbn in *. intuition. }
    destruct NAC as (NAB & NTA & NTB).
    assert (FT : functionalZ (homeD T (in_tiles T))) by (apply homeD_functional; apply (tk_t _ _ _ _ _ HT)).
    assert (NAT : bA <> bT) by auto.
    eapply region_mono; [|apply (ext_region3 F nb bA A pA lda bB B pB ldb bT (homeD T (in_tiles T))); auto; rewrite ?A1, ?A2, ?B1, ?B2; auto; try lia].
    2:{ intros env HEA HEB HET. apply (gels_ok nb ib m n); auto; lia. }
    intros M' (M3 & H1' & H2' & H3' & H4' & H5' & H6'). rewrite A1, A2 in H1', H4', H6'. rewrite B1, B2 in H2', H5', H6'.
    assert (FB : forall i, 0 <= i < Z.max m n -> forall j, 0 <= j < nrhs -> el M3 bB B i j = ul M pB ldb i j) by auto.
    destruct (Z.le_gt_cases n m) as [Hnm|Hnm].
    - destruct (gels_eff_qr nb ib m n A B T bA bB bT trans (ul M pA lda) Hnb Hib ltac:(lia) ltac:(lia) GA DA A1 A2 GB DB B1 ltac:(lia) B3 B4 HT NAB NAT NTB HTr M3 Hnm (RK1 Hnm) H1') as (E1 & E2 & E3).
      remember (krun (omp_zgels lg trans bA A bT T bB B) M3) as M9 eqn:E9. clear E9.
      split; [|split; [|split]].
      + intros j Hj. cbv zeta. destruct (E1 j ltac:(lia)) as [L1 L2]. split; [|split; [|split]]; try (intros; lia).
        * intros Ht _. specialize (L1 Ht). eapply ls_res_ext in L1; [destruct L1 as [L3 L4]; split; [exact L3|intros _; exact L4]|lia| |]; intros i Hi; cbv beta.
          { apply FB; lia. }
          { symmetry. apply H5'; lia. }
        * intros Ht _. specialize (L2 Ht). eapply min_norm_ext; [| |exact L2]; intros i Hi; cbv beta.
          { apply FB; lia. }
          { symmetry. apply H5'; lia. }
      + intros _ _. destruct E2 as (Q & UQ & E2). exists Q. split; [exact UQ|]. intros i j Hi Hj. rewrite (E2 i j Hi Hj). apply nsum_ext. intros l Hl.
        f_equal. destruct (Z.leb_spec l j); [|reflexivity]. symmetry. apply H4'; lia.
      + intros; lia.
      + intros l L1 L2 L3 L4 L5. rewrite H6', E3 by assumption. apply H3'; assumption.
    - destruct (gels_eff_lq nb ib m n A B T bA bB bT trans (ul M pA lda) Hnb Hib ltac:(lia) ltac:(lia) GA DA A1 A2 GB DB B1 ltac:(lia) B3 B4 HLT NAB NAT NTB HTr M3 Hnm (RK2 Hnm) H1') as (E1 & E2 & E3).
      remember (krun (omp_zgels lg trans bA A bT T bB B) M3) as M9 eqn:E9. clear E9.
      split; [|split; [|split]].
      + intros j Hj. cbv zeta. destruct (E1 j ltac:(lia)) as [L1 L2]. split; [|split; [|split]]; try (intros; lia).
        * intros Ht _. specialize (L1 Ht). eapply min_norm_ext; [| |exact L1]; intros i Hi; cbv beta.
          { apply FB; lia. }
          { symmetry. apply H5'; lia. }
        * intros Ht _. specialize (L2 Ht). eapply ls_res_ext in L2; [destruct L2 as [L3 L4]; split; [exact L3|intros _; exact L4]|lia| |]; intros i Hi; cbv beta.
          { apply FB; lia. }
          { symmetry. apply H5'; lia. }
      + intros; lia.
      + intros _ _. destruct E2 as (Q & UQ & E2). exists Q. split; [exact UQ|]. intros i j Hi Hj. rewrite (E2 i j Hi Hj). apply nsum_ext. intros l Hl.
        f_equal. destruct (Z.leb_spec l i); [|reflexivity]. symmetry. apply H4'; lia.
      + intros l L1 L2 L3 L4 L5. rewrite H6', E3 by assumption. apply H3'; assumption.
  Qed.
End Gels.
