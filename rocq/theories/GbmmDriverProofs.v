From Coq Require Import ZArith List Bool Lia Ring.
From Verif Require Import Base NumModel NumProofs TaskModel TaskSpec TaskProofs DescModel DescSpec
  DescDriverModel DescProofs DescProofs3 DescProofs4 MatModel MatSpec MatProofs RegionProofs
  LayoutModel LayoutProofs LayoutProofs2 DriverModel DriverSpec OpProofs GemmModel GemmProofs GemmDriverProofs
  GbmmModel GbmmProofs.
Import ListNotations.
Open Scope Z_scope.

Lemma ge_type : forall nb m n A size, ge_create nb m n = CrOk A size -> d_type A = PlasmaGeneral.
Proof.
  intros nb m n A size H. unfold ge_create in H.
  destruct (general_create_ok _ _ _ _ _ _ _ _ _ _ _ (Z.le_refl 0) (Z.le_refl 0) H) as (G & _).
  apply (gk_type _ G).
Qed.

(* the translation of a band matrix *)
Section BandStage.
  Context {N : numbers}.
  Variables (nb m n kl ku : Z) (A : desc) (b : Z) (p : loc) (ld : Z).
  Hypotheses (HA : gb_ok A nb m n kl ku) (Hnb : 0 < nb) (Hku : 0 <= ku).
  Let HT := sq_t nb A _ (gb_sq _ _ _ _ _ _ HA).

  Lemma inb_kgood : Forall kgood (@pzgb2desc N p ld b A).
  Proof.
    rewrite (pzgb2desc_eq A nb m n kl ku) by assumption.
    apply (copy_in_kgood A (in_gb nb kl ku A)); auto. apply idx_gb_in.
  Qed.

  Lemma inb_el : forall (M : mem N) i j, fst p <> b -> 0 <= i < d_m A -> 0 <= j < d_n A ->
    in_gb nb kl ku A (i / nb) (j / nb) -> el (krun (pzgb2desc p ld b A) M) b A i j = ul M p ld i j.
  Proof.
    intros M i j HB Hi Hj HS. rewrite (pzgb2desc_eq A nb m n kl ku) by assumption.
    apply (copy_in_spec A (in_gb nb kl ku A)); auto; [apply idx_gb_in|apply idx_gb_NoDup|].
    rewrite (sq_mb nb A _ (gb_sq _ _ _ _ _ _ HA)), (sq_nb nb A _ (gb_sq _ _ _ _ _ _ HA)). assumption.
  Qed.

  Lemma inb_other : forall (M : mem N) l, fst p <> b -> fst l <> b -> krun (pzgb2desc p ld b A) M l = M l.
  Proof.
    intros M l HB Hl. rewrite (pzgb2desc_eq A nb m n kl ku) by assumption.
    apply (copy_in_frame A (in_gb nb kl ku A)); auto. apply idx_gb_in.
  Qed.

  Lemma inb_kdecl : forall env, In (b, homeD A (in_gb nb kl ku A)) env ->
    (forall l, in_user p ld (d_m A) (d_n A) l -> ~ exists a, home_env env l a) ->
    Forall (kdecl (home_env env)) (@pzgb2desc N p ld b A).
  Proof.
    intros env HE HU. rewrite (pzgb2desc_eq A nb m n kl ku) by assumption.
    eapply (copy_in_kdecl env A (in_gb nb kl ku A)); eauto. apply idx_gb_in.
  Qed.
End BandStage.

Section Zero.
  Context {N : numbers}.
  Add Ring num_ring_gbz : (nring N).
  Lemma nmul_zero_l : forall x : N, nmul n0 x = n0.
  Proof. intros x. ring. Qed.
End Zero.

Lemma band_op_el : forall (N : numbers) (M M' : mem N) t b A p ld nb kl ku i l,
  (forall i j, 0 <= i < d_m A -> 0 <= j < d_n A -> in_gb nb kl ku A (i / nb) (j / nb) ->
     el M b A i j = ul M' p ld i j) ->
  0 <= i < op_m t A -> 0 <= l < op_n t A -> op_S t (in_gb nb kl ku A) (i / nb) (l / nb) ->
  op_el M t b A i l = op_ul M' t p ld i l.
Proof.
  intros N M M' t b A p ld nb kl ku i l H Hi Hl HS. unfold op_m, op_n, op_S in *. unfold op_el, op_ul.
  destruct (t =? PlasmaNoTrans); [|destruct (t =? PlasmaTrans)]; rewrite H; auto.
Qed.

Lemma band_op_0 : forall (N : numbers) (M : mem N) t A p ld kl ku i l,
  (forall i j, 0 <= i < d_m A -> 0 <= j < d_n A -> kl < i - j \/ ku < j - i -> ul M p ld i j = n0) ->
  0 <= i < op_m t A -> 0 <= l < op_n t A -> blo kl ku t < i - l \/ bhi kl ku t < l - i ->
  op_ul M t p ld i l = n0.
Proof.
  intros N M t A p ld kl ku i l H Hi Hl HS. unfold op_m, op_n, blo, bhi in *. unfold op_ul.
  destruct (t =? PlasmaNoTrans); [|destruct (t =? PlasmaTrans)]; rewrite H; auto; try lia.
  apply nconj_0.
Qed.

Lemma zgbmm_main : forall (N : numbers) nb ta tb m n k kl ku (alpha : N) pA lda pB ldb beta pC ldc bA bB bC M,
  0 < nb -> valid_trans ta -> valid_trans tb -> 0 <= n ->
  0 <= kl < m -> 0 <= ku < k ->
  let am := if ta =? PlasmaNoTrans then m else k in
  let an := if ta =? PlasmaNoTrans then k else m in
  let bm := if tb =? PlasmaNoTrans then k else n in
  let bn := if tb =? PlasmaNoTrans then n else k in
  kl < am -> ku < an ->
  Z.max 1 am <= lda -> Z.max 1 bm <= ldb -> Z.max 1 m <= ldc ->
  NoDup [bA; bB; bC] ->
  (forall b, In b [fst pA; fst pB; fst pC] -> ~ In b [bA; bB; bC]) ->
  apart pA lda am an pC ldc m n -> apart pB ldb bm bn pC ldc m n ->
  (forall i j, in_matrix am an i j -> kl < i - j \/ ku < j - i -> ul M pA lda i j = n0) ->
  driver_ensures (zgbmm nb ta tb m n k kl ku alpha pA lda pB ldb beta pC ldc bA bB bC) M (fun M' =>
    (forall i j, in_matrix m n i j ->
       ul M' pC ldc i j
       = nadd (nmul alpha (nsum (fun l => nmul (op_ul M ta pA lda i l) (op_ul M tb pB ldb l j)) 0 k))
              (nmul beta (ul M pC ldc i j))) /\
    (forall l, ~ In (fst l) [bA; bB; bC] -> ~ in_user pC ldc m n l -> M' l = M l)).
Proof.
  intros N nb ta tb m n k kl ku alpha pA lda pB ldb beta pC ldc bA bB bC M Hnb Hta Htb Hn Hkl Hku
    am an bm bn Hkl' Hku' Hlda Hldb Hldc HND HFR APA APB HZ.
  assert (Hm : 0 <= m) by lia. assert (Hk : 0 <= k) by lia.
  unfold zgbmm. fold am an bm bn.
  rewrite (valid_trans_b ta Hta), (valid_trans_b tb Htb). cbn [negb].
  replace (m <? 0) with false by (symmetry; apply Z.ltb_ge; lia).
  replace (n <? 0) with false by (symmetry; apply Z.ltb_ge; lia).
  replace (k <? 0) with false by (symmetry; apply Z.ltb_ge; lia).
  replace (kl <? 0) with false by (symmetry; apply Z.ltb_ge; lia).
  replace (ku <? 0) with false by (symmetry; apply Z.ltb_ge; lia).
  replace (m - 1 <? kl) with false by (symmetry; apply Z.ltb_ge; lia).
  replace (k - 1 <? ku) with false by (symmetry; apply Z.ltb_ge; lia).
  cbn [orb].
  replace (lda <? Z.max 1 am) with false by (symmetry; apply Z.ltb_ge; lia).
  replace (ldb <? Z.max 1 bm) with false by (symmetry; apply Z.ltb_ge; lia).
  replace (ldc <? Z.max 1 m) with false by (symmetry; apply Z.ltb_ge; lia).
  cbv zeta.
  assert (Ham : 0 <= am) by (unfold am; destruct (ta =? PlasmaNoTrans); lia).
  assert (Han : 0 <= an) by (unfold an; destruct (ta =? PlasmaNoTrans); lia).
  assert (Hbm : 0 <= bm) by (unfold bm; destruct (tb =? PlasmaNoTrans); lia).
  assert (Hbn : 0 <= bn) by (unfold bn; destruct (tb =? PlasmaNoTrans); lia).
  destruct ((m =? 0) || (n =? 0) || ((neqb alpha n0 || (k =? 0)) && neqb beta n1)) eqn:QR.
  - (* quick return *)
    cbn. split; [reflexivity|]. split; [|reflexivity]. intros i j [Hi Hj].
    rewrite !orb_true_iff, andb_true_iff, orb_true_iff, !Z.eqb_eq, !neqb_eq in QR.
    assert (QR' : (alpha = n0 \/ k = 0) /\ beta = n1) by (destruct QR as [[Q|Q]|Q]; [lia|lia|exact Q]).
    destruct QR' as [Q Qb]. symmetry. apply quick_scale; [|assumption].
    destruct Q as [Q|Q]; [left; assumption|right]. rewrite Q. apply nsum_nil. lia.
  - destruct (gb_create_succeeds nb am an kl ku Hnb (conj (proj1 Hkl) Hkl') (conj (proj1 Hku) Hku')) as (A & sA & EA). rewrite EA.
    destruct (ge_create_succeeds nb bm bn Hnb Hbm Hbn) as (B & EB & _). rewrite EB.
    destruct (ge_create_succeeds nb m n Hnb Hm Hn) as (C & EC & _). rewrite EC.
    cbn [with_desc driver_ensures].
    pose proof (gb_create_gb _ _ _ _ _ _ _ (proj1 Hkl) (proj1 Hku) EA) as GA.
    pose proof (gb_m _ _ _ _ _ _ GA) as A1. pose proof (gb_n _ _ _ _ _ _ GA) as A2.
    pose proof (gb_sq _ _ _ _ _ _ GA) as DA. pose proof (gb_type _ _ _ _ _ _ GA) as TA.
    destruct (ge_create_dn _ _ _ _ _ EB) as (DB & B1 & B2 & _).
    destruct (ge_create_dn _ _ _ _ _ EC) as (DC & C1 & C2 & _).
    pose proof (ge_type _ _ _ _ _ EB) as TB. pose proof (ge_type _ _ _ _ _ EC) as TC.
    clear EA EB EC.
    assert (CM : op_m ta A = d_m C) by (unfold op_m; rewrite A1, A2, C1; unfold am, an; destruct (ta =? PlasmaNoTrans); reflexivity).
    assert (EK : op_n ta A = k) by (unfold op_n; rewrite A1, A2; unfold am, an; destruct (ta =? PlasmaNoTrans); reflexivity).
    assert (CK : op_m tb B = op_n ta A) by (rewrite EK; unfold op_m; rewrite B1, B2; unfold bm, bn; destruct (tb =? PlasmaNoTrans); reflexivity).
    assert (CN : op_n tb B = d_n C) by (unfold op_n; rewrite B1, B2, C2; unfold bm, bn; destruct (tb =? PlasmaNoTrans); reflexivity).
    unfold omp_async_zgbmm, omp_async_zgb2desc.
    rewrite TA, TB, TC.
    replace (if ta =? PlasmaNoTrans then d_n A else d_m A) with k by (rewrite <- EK; reflexivity).
    rewrite C1, C2, QR.
    assert (QR' : 0 < m /\ 0 < n).
    { rewrite !orb_false_iff, !Z.eqb_neq in QR. lia. }
    rewrite A1, A2, B1, B2.
    replace (am =? 0) with false by (symmetry; apply Z.eqb_neq; lia).
    replace (an =? 0) with false by (symmetry; apply Z.eqb_neq; lia).
    replace (bm =? 0) with false by (symmetry; apply Z.eqb_neq; unfold bm; destruct (tb =? PlasmaNoTrans); lia).
    replace (bn =? 0) with false by (symmetry; apply Z.eqb_neq; unfold bn; destruct (tb =? PlasmaNoTrans); lia).
    replace (m =? 0) with false by (symmetry; apply Z.eqb_neq; lia).
    replace (n =? 0) with false by (symmetry; apply Z.eqb_neq; lia).
    cbn [orb]. clearbody am an bm bn. assert (KP : 0 < bK A ta) by (unfold bK; rewrite EK; lia).
    change (PlasmaGeneralBand =? PlasmaGeneral) with false. change (PlasmaGeneral =? PlasmaGeneral) with true. cbv iota.
    inversion_clear HND as [|? ? N1 HND']. inversion_clear HND' as [|? ? N2 _]. cbn in N1, N2.
    assert (FA : ~ In (fst pA) [bA; bB; bC]) by (apply HFR; cbn; auto).
    assert (FB : ~ In (fst pB) [bA; bB; bC]) by (apply HFR; cbn; auto).
    assert (FC : ~ In (fst pC) [bA; bB; bC]) by (apply HFR; cbn; auto).
    cbn in FA, FB, FC.
    set (env := [(bA, homeD A ((in_gb nb kl ku A))); (bB, homeD B (in_tiles B)); (bC, homeD C (in_tiles C));
                 (fst pC, homeU C (in_tiles C) pC ldc)]).
    assert (NU : forall p ld' m' n', ~ In (fst p) [bA; bB; bC] -> apart p ld' m' n' pC ldc m n ->
      forall l, in_user p ld' m' n' l -> ~ exists a, home_env env l a).
    { intros p ld' m' n' F AP l Hl. cbn in F. assert (El := in_user_block _ _ _ _ _ Hl). unfold env.
      apply no_home_cons; [intros E; exfalso; intuition congruence|].
      apply no_home_cons; [intros E; exfalso; intuition congruence|].
      apply no_home_cons; [intros E; exfalso; intuition congruence|].
      apply no_home_cons; [|apply no_home_nil]. intros E a Ha.
      apply (AP l Hl). rewrite <- C1, <- C2. eapply homeU_in_user; eauto. }
    assert (LC : d_m C <= ldc) by lia.
    apply (region_env N env).
    + cbn. repeat constructor; cbn; intuition congruence.
    + intros b h [E|[E|[E|[E|[]]]]]; injection E as <- <-.
      * apply homeD_functional. apply (sq_t nb A _ DA).
      * eapply homeD_dn; eauto.
      * eapply homeD_dn; eauto.
      * eapply homeU_dn; eauto.
    + rewrite !Forall_app. repeat split.
      * apply (inb_kgood nb am an kl ku); auto; lia.
      * eapply in_kgood; eauto.
      * eapply in_kgood; eauto.
      * apply (pzgemm_band_kgood nb am an kl ku); auto; lia.
      * eapply out_kgood; eauto.
    + rewrite !Forall_app. repeat split.
      * apply (inb_kdecl nb am an kl ku); auto; [lia|cbn; auto|]. apply NU; auto. rewrite A1, A2. assumption.
      * eapply in_kdecl; eauto; [cbn; auto|]. left. apply NU; auto. rewrite B1, B2. assumption.
      * eapply in_kdecl; eauto; [cbn; auto|]. right. cbn; auto.
      * apply (pzgemm_band_kdecl nb am an kl ku); auto; try lia; cbn; auto.
      * eapply out_kdecl; eauto; cbn; auto.
    + intros M' E. rewrite !krun_app in E.
      remember (krun (pzgb2desc pA lda bA A) M) as M1 eqn:E1.
      remember (krun (pzge2desc pB ldb bB B) M1) as M2 eqn:E2.
      remember (krun (pzge2desc pC ldc bC C) M2) as M3 eqn:E3.
      remember (krun (pzgemm_band ta tb alpha bA A bB B beta bC C) M3) as M4 eqn:E4.
      assert (O1 : forall l, fst l <> bA -> M1 l = M l) by (intros; rewrite E1; apply (inb_other nb am an kl ku); auto; try lia; intuition congruence).
      assert (O2 : forall l, fst l <> bB -> M2 l = M1 l) by (intros; rewrite E2; eapply in_other; eauto; intuition congruence).
      assert (O3 : forall l, fst l <> bC -> M3 l = M2 l) by (intros; rewrite E3; eapply in_other; eauto; intuition congruence).
      assert (XA : forall i j, 0 <= i < d_m A -> 0 <= j < d_n A -> in_gb nb kl ku A (i / nb) (j / nb) ->
        el M3 bA A i j = ul M pA lda i j).
      { intros i j Hi Hj HS. rewrite (el_ext _ M3 M1); [rewrite E1; apply (inb_el nb am an kl ku); auto; try lia; intuition congruence|].
        intros l Hl. rewrite O3, O2; auto; intuition congruence. }
      assert (XB : forall i j, 0 <= i < d_m B -> 0 <= j < d_n B -> el M3 bB B i j = ul M pB ldb i j).
      { intros i j Hi Hj. rewrite (el_ext _ M3 M2); [|intros l Hl; rewrite O3; auto; intuition congruence].
        rewrite E2. rewrite (in_el nb) by (auto; intuition congruence).
        apply ul_ext. intros l Hl. apply O1. intuition congruence. }
      assert (XC : forall i j, 0 <= i < d_m C -> 0 <= j < d_n C -> el M3 bC C i j = ul M pC ldc i j).
      { intros i j Hi Hj. rewrite E3. rewrite (in_el nb) by (auto; intuition congruence).
        apply ul_ext. intros l Hl. rewrite O2, O1; auto; intuition congruence. }
      split.
      * intros i j [Hi Hj]. rewrite <- C1 in Hi. rewrite <- C2 in Hj.
        rewrite (ul_ext _ M' (krun (pzdesc2ge bC C pC ldc) M4)) by (intros; apply E).
        rewrite (out_ul nb) by (auto; intuition congruence).
        rewrite E4. rewrite (pzgemm_band_el nb am an kl ku) by (try assumption; try apply Hkl; try apply Hku; intuition congruence).
        rewrite XC by assumption. apply f_equal2; [|reflexivity]. apply f_equal.
        rewrite <- EK. change (op_n ta A) with (bK A ta).
        rewrite (band_sum nb kl ku A C ta) with (i := i); [|exact DC|apply Hkl|apply Hku|exact KP|exact Hi|].
        -- apply nsum_ext. intros l Hl. unfold bterm.
           assert (HS : op_S ta (in_gb nb kl ku A) (i / nb) (l / nb)).
           { apply (used_stored nb am an kl ku A B C ta tb); try assumption; [apply Hkl|apply Hku]. }
           assert (S0 : 0 <= ks nb kl ku ta (i / nb)) by (apply Z.div_pos; [apply Z.le_max_l|exact Hnb]).
           assert (S1 := Z.mul_nonneg_nonneg _ _ S0 (Z.lt_le_incl _ _ Hnb)).
           assert (HL : 0 <= l < bK A ta) by (clear - S1 Hl; lia).
           apply f_equal2.
           ++ apply (band_op_el N _ _ ta bA A pA lda nb kl ku); [exact XA|rewrite CM; exact Hi|exact HL|exact HS].
           ++ apply op_el_ul; [exact XB|rewrite CK; exact HL|rewrite CN; exact Hj].
        -- intros l Hl HB'. 
           rewrite (band_op_0 N M ta A pA lda kl ku).
           ++ apply nmul_zero_l.
           ++ intros x y Hx Hy. apply HZ. split; [rewrite <- A1; exact Hx|rewrite <- A2; exact Hy].
           ++ rewrite CM. exact Hi.
           ++ exact Hl.
           ++ exact HB'.
      * intros l Hl Hu. cbn in Hl. rewrite E. rewrite (out_other nb) by (auto; rewrite C1, C2; assumption).
        rewrite E4. rewrite (pzgemm_band_other nb am an kl ku) by (try assumption; try apply Hkl; try apply Hku; intuition congruence).
        rewrite O3, O2, O1; auto; intuition congruence.
Qed.
