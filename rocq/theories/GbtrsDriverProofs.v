(* plasma_zgbtrs *)
From Coq Require Import ZArith List Bool Lia.
From Verif Require Import Base NumModel NumProofs FieldModel TaskModel TaskSpec TaskProofs DescModel DescSpec
  DescDriverModel DescProofs DescPackProofs DescProofs3 DescProofs4 MatModel MatSpec MatProofs RegionProofs
  LayoutModel LayoutProofs LayoutProofs2 DriverModel DriverSpec OpProofs SimProofs OperandProofs
  GemmModel GemmProofs GemmDriverProofs RankProofs RankDriverProofs LasetModel LasetProofs TriModel TriSpec
  TriVecProofs TriProofs TrmmProofs TrmmDriverProofs TrsmProofs TrsmDriverProofs BandModel BandSpec BandProofs
  BandLayoutProofs BandRegionProofs PbtrsModel SwpModel SwpSpec SwpProofs SwpDriverProofs NormSpec NormBandSpec
  NormGbLayoutProofs TbsmProofs GbtrsModel GbtrsSpec GbtrsVecProofs GbtrsStepProofs GbtrsSwapProofs GbtrsProofs.
Import ListNotations.
Open Scope Z_scope.

Section Region.
  Context {F : fields}.
  Variables (nb n kl ku : Z) (A B : desc) (bA bB : Z) (ipiv : Z -> Z) (pA : loc) (ld : Z) (pB : loc) (ldb : Z).
  Hypothesis HA : gd_ok A nb n n kl ku.
  Hypothesis G : gen_ok B.
  Hypothesis Bmb : d_mb B = nb.
  Hypothesis Bnb : d_nb B = nb.
  Hypothesis Bm : d_m B = n.
  Hypothesis HP : legal_pivots ipiv n.
  Hypothesis LB : d_m B <= ldb.
  Hypothesis NB : bA <> bB.
  Hypothesis HF : forall b, In b [fst pA; fst pB] -> ~ In b [bA; bB].
  Hypothesis NP : fst pA <> fst pB.
  Let HB : dn nb B := mat_dn nb B G Bmb Bnb.

  Let FA1 : fst pA <> bA.
  Proof. intros E. apply (HF (fst pA)); cbn; auto. Qed.
  Let FA2 : fst pA <> bB.
  Proof. intros E. apply (HF (fst pA)); cbn; auto. Qed.
  Let FB1 : fst pB <> bA.
  Proof. intros E. apply (HF (fst pB)); cbn; auto. Qed.
  Let FB2 : fst pB <> bB.
  Proof. intros E. apply (HF (fst pB)); cbn; auto. Qed.
  Let OB : ook nb (ge_opnd bB B pB ldb).
  Proof. apply ge_opnd_ok; assumption. Qed.
  Let SQ : n <= n \/ n mod nb = 0.
  Proof. left. lia. Qed.

  Definition gs_env : list (Z * (Z -> Z -> Prop)) :=
    [(bA, homeD A (in_tb A)); (bB, homeD B (in_tiles B)); (fst pB, homeU B (in_tiles B) pB ldb)].

  Lemma gs_functional : functional (home_env gs_env).
  Proof.
    apply home_env_functional.
    - cbn. repeat constructor; cbn; intuition congruence.
    - intros b h [E|[E|[E|[]]]]; injection E as <- <-.
      + apply homeD_functional. apply (sq_t nb A _ (gd_sq _ _ _ _ _ _ HA)).
      + apply homeD_functional. apply (sq_t nb B _ HB).
      + apply (homeU_functional_o nb _ OB).
  Qed.

  Definition gs_in : list (ktask F) := pzpb2desc pA ld bA A ++ pzge2desc pB ldb bB B.
  Lemma gs_in_kgood : Forall kgood gs_in.
  Proof.
    apply Forall_app. split; [apply (gd_copy_kgood A nb n n kl ku); assumption|].
    rewrite <- ge_opnd_in. destruct OB as [Q1 Q2 Q3 Q4]. eapply copy_in_kgood; eauto using sq_t.
  Qed.
  Lemma gs_in_kdecl : Forall (kdecl (home_env gs_env)) gs_in.
  Proof.
    apply Forall_app. split.
    - apply (gd_copy_kdecl A nb n n kl ku); try assumption; [left; reflexivity|]. cbn. intuition congruence.
    - rewrite <- ge_opnd_in. destruct OB as [Q1 Q2 Q3 Q4]. eapply copy_in_kdecl; eauto using sq_t.
      + right. left. reflexivity.
      + right. right. right. left. reflexivity.
  Qed.
  Lemma gs_in_spec : forall (M : mem F) (a : Z -> Z -> F), band_factors nb n M kl ku pA ld a ->
    let M3 := krun gs_in M in
    (forall i j, in_matrix n n i j -> in_tb A (i / nb) (j / nb) -> el M3 bA A i j = a i j) /\
    (forall i j, 0 <= i < d_m B -> 0 <= j < d_n B -> el M3 bB B i j = ul M pB ldb i j) /\
    (forall l, ~ In (fst l) [bA; bB] -> M3 l = M l).
  Proof.
    intros M a [Ha Hz]. cbv zeta. unfold gs_in. rewrite krun_app.
    assert (SP : forall i j, in_matrix n n i j -> in_tb A (i / nb) (j / nb) -> el (krun (pzpb2desc pA ld bA A) M) bA A i j = a i j).
    { apply (gd_copy_gen A nb n n kl ku); try assumption. intros i j HI HN. apply Hz; [assumption|]. lia. }
    remember (krun (pzpb2desc pA ld bA A) M) as M1 eqn:E1.
    assert (FR : forall l, fst l <> bB -> krun (pzge2desc pB ldb bB B) M1 l = M1 l).
    { intros l Hl. rewrite <- ge_opnd_in. destruct OB as [Q1 Q2 Q3 Q4].
      exact (copy_in_frame _ _ _ _ _ (sq_t _ _ _ Q1) _ Q2 M1 l FB2 Hl). }
    assert (FR1 : forall l, fst l <> bA -> M1 l = M l).
    { intros l Hl. rewrite E1. apply (gd_copy_frame A nb n n kl ku); assumption. }
    split; [|split].
    - intros i j HM HI. rewrite <- SP by assumption. unfold el. apply FR. exact NB.
    - intros i j Hi Hj. transitivity (ul M1 pB ldb i j); [|unfold ul; apply FR1; exact FB1].
      rewrite <- ge_opnd_in. destruct OB as [Q1 Q2 Q3 Q4].
      pose proof (ge_opnd_el nb bB B pB ldb i j HB Hi Hj) as (_ & _ & Q5).
      exact (copy_in_spec _ _ _ _ _ (sq_t _ _ _ Q1) _ Q2 Q3 M1 i j FB2 Hi Hj Q5).
    - intros l Hl. cbn in Hl. rewrite FR, FR1 by intuition. reflexivity.
  Qed.

  Let bo : list (ktask F) := pzdesc2ge bB B pB ldb.
  Lemma gs_out_kgood : Forall kgood bo.
  Proof. unfold bo. rewrite <- ge_opnd_out. destruct OB as [Q1 Q2 Q3 Q4]. eapply copy_out_kgood; eauto using sq_t. Qed.
  Lemma gs_out_kdecl : Forall (kdecl (home_env gs_env)) bo.
  Proof.
    unfold bo. rewrite <- ge_opnd_out. destruct OB as [Q1 Q2 Q3 Q4]. eapply copy_out_kdecl; eauto using sq_t.
    - right. left. reflexivity.
    - right. right. left. reflexivity.
  Qed.
  Lemma gs_out_frame : forall M l, ~ in_user pB ldb (d_m B) (d_n B) l -> krun bo M l = M l.
  Proof.
    intros M l Hl. unfold bo. rewrite <- ge_opnd_out. destruct OB as [Q1 Q2 Q3 Q4].
    apply (copy_out_frame _ _ _ _ _ (sq_t _ _ _ Q1) _ Q2 Q4). intros i j Hi Hj _ E. apply Hl. exists i, j. auto.
  Qed.
  Lemma gs_out_spec : forall M i j, 0 <= i < d_m B -> 0 <= j < d_n B -> ul (krun bo M) pB ldb i j = el M bB B i j.
  Proof.
    intros M i j Hi Hj. unfold bo. rewrite <- ge_opnd_out. destruct OB as [Q1 Q2 Q3 Q4].
    pose proof (ge_opnd_el nb bB B pB ldb i j HB Hi Hj) as (_ & _ & Q5).
    exact (copy_out_spec _ _ _ _ _ (sq_t _ _ _ Q1) _ Q2 Q3 Q4 M i j FB2 Hi Hj Q5).
  Qed.

  Lemma gs_phases : forall items : list (item F), Forall kgood (map it_task items) ->
    (forall env, In (bA, homeD A (in_tb A)) env -> In (bB, homeD B (in_tiles B)) env ->
       Forall (it_decl (home_env env)) items) ->
    forall M, phases_ensures (waits [] (map Task gs_in ++ items ++ map Task bo)) M (fun M' =>
      (forall i j, 0 <= i < d_m B -> 0 <= j < d_n B -> ul M' pB ldb i j = el (krun (map it_task items) (krun gs_in M)) bB B i j) /\
      (forall l, ~ in_user pB ldb (d_m B) (d_n B) l -> M' l = krun (map it_task items) (krun gs_in M) l)).
  Proof.
    intros items CG CD M. apply (waits_ensures (home_env gs_env) gs_functional).
    - constructor.
    - rewrite !map_app, !map_it_task, !Forall_app. split; [apply gs_in_kgood|]. split; [assumption|apply gs_out_kgood].
    - constructor.
    - rewrite !Forall_app, !Forall_map. cbn [it_decl]. split; [apply gs_in_kdecl|]. split; [|apply gs_out_kdecl].
      apply CD; [left; reflexivity|right; left; reflexivity].
    - intros M' E. cbn [app] in E. rewrite !map_app, !map_it_task, !krun_app in E. split.
      + intros i j Hi Hj. unfold ul at 1. rewrite E. apply gs_out_spec; assumption.
      + intros l Hl. rewrite E. apply gs_out_frame. assumption.
  Qed.
End Region.

Lemma phases_mono : forall V (ph : list (list (ktask V))) M (Q Q' : mem V -> Prop),
  (forall M', Q M' -> Q' M') -> phases_ensures ph M Q -> phases_ensures ph M Q'.
Proof.
  intros V ph. induction ph as [|ks ph IH]; intros M Q Q' H HE; cbn [phases_ensures] in *; [auto|].
  eapply region_mono; [|exact HE]. intros M1. apply IH. exact H.
Qed.

Section Driver.
  Context {F : fields}.

  Lemma zgbtrs_main : forall (a : Z -> Z -> F) nb trans n kl ku nrhs pA ld ipiv pB ldb bA bB M,
    0 < nb -> valid_trans trans -> 0 <= kl < n -> 0 <= ku < n -> 0 <= nrhs -> kl + ku < ld -> n <= ldb ->
    NoDup [bA; bB; fst pA; fst pB] ->
    band_factors nb n M kl ku pA ld a -> legal_pivots ipiv n -> (forall i, 0 <= i < n -> a i i <> n0) ->
    pdriver_ensures (zgbtrs nb trans n kl ku nrhs pA ld ipiv pB ldb bA bB) M (fun M' code => code = 0 /\
      (forall i j, in_matrix n nrhs i j ->
         nsum (fun l => nmul (op_of trans (factored nb n a ipiv (zrange 0 (ntl nb n))) i l) (ul M' pB ldb l j)) 0 n = ul M pB ldb i j) /\
      (forall l, ~ In (fst l) [bA; bB] -> ~ in_user pB ldb n nrhs l -> M' l = M l)).
  Proof.
    intros a nb trans n kl ku nrhs pA ld ipiv pB ldb bA bB M Hb Ht Hl Hu Hr LA LB ND HT HP HD. unfold zgbtrs.
    replace (negb (trans =? PlasmaNoTrans) && negb (trans =? PlasmaTrans) && negb (trans =? PlasmaConjTrans)) with false
      by (destruct Ht as [->|[->| ->]]; reflexivity).
    replace (n <? 0) with false by (symmetry; apply Z.ltb_ge; lia).
    replace (kl <? 0) with false by (symmetry; apply Z.ltb_ge; lia).
    replace (ku <? 0) with false by (symmetry; apply Z.ltb_ge; lia).
    replace (nrhs <? 0) with false by (symmetry; apply Z.ltb_ge; lia).
    replace (ld <? Z.max 1 (1 + kl + ku)) with false by (symmetry; apply Z.ltb_ge; lia).
    replace (ldb <? Z.max 1 n) with false by (symmetry; apply Z.ltb_ge; lia).
    replace (Z.max n nrhs =? 0) with false by (symmetry; apply Z.eqb_neq; lia).
    destruct (gb_create_succeeds nb n n kl ku Hb) as (A & sz & EA); [lia..|]. rewrite EA.
    pose proof (gb_create_gd nb n n kl ku A sz ltac:(lia) ltac:(lia) EA) as TA. clear EA.
    destruct (ge_create_succeeds nb n nrhs Hb ltac:(lia) Hr) as (B & EB & _). rewrite EB.
    destruct (ge_create_gen _ _ _ _ _ EB) as (GB & B3 & B4 & B1 & B2). clear EB.
    pose proof (gd_m _ _ _ _ _ _ TA) as DM. pose proof (gd_n _ _ _ _ _ _ TA) as DN.
    assert (NDS : bA <> bB /\ (forall b, In b [fst pA; fst pB] -> ~ In b [bA; bB]) /\ fst pA <> fst pB).
    { inversion_clear ND as [|? ? X1 Y1]. inversion_clear Y1 as [|? ? X2 Y2]. inversion_clear Y2 as [|? ? X3 Y3].
      cbn in X1, X2, X3. cbn. intuition congruence. }
    destruct NDS as (N1 & HF & NP).
    replace (d_m A =? 0) with false by (symmetry; apply Z.eqb_neq; lia).
    replace (d_n A =? 0) with false by (symmetry; apply Z.eqb_neq; lia). cbn [orb].
    fold (gs_in (F := F) A B bA bB pA ld pB ldb). cbn [pdriver_ensures].
    assert (LB' : d_m B <= ldb) by lia.
    destruct (gs_in_spec nb n kl ku A B bA bB pA ld pB ldb TA GB B3 B4 LB' N1 HF NP M a HT) as (I1 & I2 & I3).
    destruct HT as [_ HZ].
    eapply phases_mono; [|apply (gs_phases nb n kl ku A B bA bB pA ld pB ldb TA GB B3 B4 LB' N1 HF NP)].
    - intros M' (H1 & H2). split; [reflexivity|]. rewrite B1, B2 in I2, H1, H2.
      remember (krun (gs_in A B bA bB pA ld pB ldb) M) as M3 eqn:EM3.
      destruct (Z.eq_dec nrhs 0) as [Z2|Z2].
      + split; [intros i j [_ Hj]; lia|]. intros l Hl' Hl''. rewrite H2 by assumption.
        unfold omp_zgbtrs. rewrite B2, Z2. rewrite orb_true_r. cbn. apply I3. assumption.
      + rewrite (omp_zgbtrs_eq nb n kl ku) in H1, H2 by (try assumption; lia).
        destruct (solves_at nb n kl ku A B bA bB ipiv TA GB B3 B4 B1 HP N1 a HZ HD trans M3) as [X V]; try assumption; [lia|].
        rewrite B2 in V. split.
        * intros i j [Hi Hj]. rewrite <- I2 by assumption. rewrite <- V by assumption.
          apply nsum_ext. intros l Hl'. rewrite H1 by assumption. reflexivity.
        * intros l Hl' Hl''. rewrite H2 by assumption. rewrite <- I3 by assumption. apply X. cbn in Hl'. intuition.
    - destruct (Z.eq_dec nrhs 0) as [Z2|Z2].
      + unfold omp_zgbtrs. rewrite B2, Z2, orb_true_r. constructor.
      + rewrite (omp_zgbtrs_eq nb n kl ku) by (try assumption; lia). apply (solves_good nb n kl ku); assumption.
    - intros env E1 E2. destruct (Z.eq_dec nrhs 0) as [Z2|Z2].
      + unfold omp_zgbtrs. rewrite B2, Z2, orb_true_r. constructor.
      + rewrite (omp_zgbtrs_eq nb n kl ku) by (try assumption; lia). apply (solves_decl nb n kl ku); assumption.
  Qed.
End Driver.

Lemma zgbtrs_empty : exists nb trans n kl ku nrhs ldab ldb,
  0 < nb /\ trans = PlasmaNoTrans /\ 0 <= n /\ 0 <= kl /\ 0 <= ku /\ 0 <= nrhs /\
  Z.max 1 (1 + kl + ku) <= ldab /\ Z.max 1 n <= ldb /\ n = 0 /\
  forall (F : fields) pA ipiv pB bA bB,
    zgbtrs (F := F) nb trans n kl ku nrhs pA ldab ipiv pB ldb bA bB = PReturns PlasmaErrorIllegalValue.
Proof.
  exists 2, PlasmaNoTrans, 0, 0, 0, 1, 1, 1. repeat (split; [cbn; reflexivity || lia|]). reflexivity.
Qed.

Lemma zgbtrs_wide_band : exists nb trans n kl ku nrhs ldab ldb,
  0 < nb /\ trans = PlasmaNoTrans /\ 0 < n /\ 0 <= kl /\ 0 <= ku /\ 0 < nrhs /\
  Z.max 1 (1 + kl + ku) <= ldab /\ Z.max 1 n <= ldb /\
  forall (F : fields) pA ipiv pB bA bB,
    zgbtrs (F := F) nb trans n kl ku nrhs pA ldab ipiv pB ldb bA bB = PReturns PlasmaErrorIllegalValue.
Proof.
  exists 2, PlasmaNoTrans, 1, 1, 0, 1, 2, 1. repeat (split; [cbn; reflexivity || lia|]). reflexivity.
Qed.

(* with kl = 1 and ku = 0, (1,0) is in row 2 of column 0, which is row 0 of column 1, that of (0,1) *)
Lemma gb_least_ld : exists nb n kl ku,
  0 < nb /\ 0 <= kl < n /\ 0 <= ku < n /\
  forall (F : fields) (a : Z -> Z -> F) M p, band_factors nb n M kl ku p (1 + kl + ku) a -> a 1 0 = a 0 1.
Proof.
  exists 2, 2, 1, 0. split; [lia|]. split; [lia|]. split; [lia|]. intros F a M p [H _].
  rewrite <- (H 1 0), <- (H 0 1); [unfold gb_row; f_equal; f_equal; lia| | | |]; unfold in_matrix, gb_reads; try lia; split; try (left; reflexivity); vm_compute; discriminate.
Qed.
