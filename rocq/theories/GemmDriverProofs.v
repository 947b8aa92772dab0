From Coq Require Import ZArith List Bool Lia Ring.
From Verif Require Import Base NumModel NumProofs TaskModel TaskSpec TaskProofs DescModel DescSpec
  DescDriverModel DescProofs DescProofs3 DescProofs4 MatModel MatSpec MatProofs RegionProofs
  LayoutModel LayoutProofs LayoutProofs2 DriverModel DriverSpec OpProofs GemmModel GemmProofs.
Import ListNotations.
Open Scope Z_scope.

(* ------------------------------------------------------------------ *)
(* translation stages of a driver, for dense operands                    *)

Section Stages.
  Context {V : Type}.
  Variables (nb : Z) (A : desc) (b : Z) (p : loc) (ld : Z).
  Hypothesis HA : dn nb A.
  Let HT := sq_t nb A _ HA.

  Lemma in_kgood : Forall kgood (@pzge2desc V p ld b A).
  Proof. rewrite pzge2desc_eq. apply (copy_in_kgood A (in_tiles A)); auto. apply idx_all_in. Qed.

  Lemma in_el : forall (M : mem V) i j, fst p <> b -> 0 <= i < d_m A -> 0 <= j < d_n A ->
    el (krun (pzge2desc p ld b A) M) b A i j = ul M p ld i j.
  Proof.
    intros M i j HB Hi Hj. rewrite pzge2desc_eq.
    apply (copy_in_spec A (in_tiles A)); auto; [apply idx_all_in|apply idx_all_NoDup|].
    apply in_tiles_pos; auto. apply (td_shape _ _ HT).
  Qed.

  Lemma in_other : forall (M : mem V) l, fst p <> b -> fst l <> b -> krun (pzge2desc p ld b A) M l = M l.
  Proof.
    intros M l HB Hl. rewrite pzge2desc_eq. apply (copy_in_frame A (in_tiles A)); auto. apply idx_all_in.
  Qed.

  Lemma in_kdecl : forall env, In (b, homeD A (in_tiles A)) env ->
    (forall l, in_user p ld (d_m A) (d_n A) l -> ~ exists a, home_env env l a)
      \/ In (fst p, homeU A (in_tiles A) p ld) env ->
    Forall (kdecl (home_env env)) (@pzge2desc V p ld b A).
  Proof.
    intros env HE HU. rewrite pzge2desc_eq. eapply (copy_in_kdecl env A (in_tiles A)); eauto.
    apply idx_all_in.
  Qed.

  Hypothesis Hld : d_m A <= ld.

  Lemma out_kgood : Forall kgood (@pzdesc2ge V b A p ld).
  Proof. rewrite pzdesc2ge_eq. apply (copy_out_kgood A (in_tiles A)); auto. apply idx_all_in. Qed.

  Lemma out_ul : forall (M : mem V) i j, fst p <> b -> 0 <= i < d_m A -> 0 <= j < d_n A ->
    ul (krun (pzdesc2ge b A p ld) M) p ld i j = el M b A i j.
  Proof.
    intros M i j HB Hi Hj. rewrite pzdesc2ge_eq.
    apply (copy_out_spec A (in_tiles A)); auto; [apply idx_all_in|apply idx_all_NoDup|].
    apply in_tiles_pos; auto. apply (td_shape _ _ HT).
  Qed.

  Lemma out_other : forall (M : mem V) l, ~ in_user p ld (d_m A) (d_n A) l ->
    krun (pzdesc2ge b A p ld) M l = M l.
  Proof.
    intros M l Hl. rewrite pzdesc2ge_eq. apply (copy_out_frame A (in_tiles A)); auto; [apply idx_all_in|].
    intros i j Hi Hj _ E. apply Hl. exists i, j. auto.
  Qed.

  Lemma out_kdecl : forall env, In (b, homeD A (in_tiles A)) env ->
    In (fst p, homeU A (in_tiles A) p ld) env ->
    Forall (kdecl (home_env env)) (@pzdesc2ge V b A p ld).
  Proof.
    intros env HE HU. rewrite pzdesc2ge_eq. eapply (copy_out_kdecl env A (in_tiles A)); eauto.
    apply idx_all_in.
  Qed.

  Lemma homeU_dn : functionalZ (homeU A (in_tiles A) p ld).
  Proof. apply homeU_functional; auto. Qed.
  Lemma homeD_dn : functionalZ (homeD A (in_tiles A)).
  Proof. apply homeD_functional; auto. Qed.

  (* a location outside the user's matrix has no home in it *)
  Lemma homeU_in_user : forall l a, fst l = fst p -> homeU A (in_tiles A) p ld (snd l) a ->
    in_user p ld (d_m A) (d_n A) l.
  Proof.
    intros [lb lo] a E (m & n & r & c & [Hm Hn] & Hr & Hc & Ho & _). cbn in *. subst.
    pose proof (td_shape _ _ HT) as SH.
    destruct (tile_row A m r SH Hm Hr) as (R1 & _). destruct (tile_col A n c SH Hn Hc) as (C1 & _).
    exists (m * d_mb A + r), (n * d_nb A + c). repeat split; auto; lia.
  Qed.
End Stages.

(* a location without home: not in a tile block, not in the user's output matrix *)
Lemma no_home_cons : forall b h env l, (fst l = b -> forall a, ~ h (snd l) a) ->
  (~ exists a, home_env env l a) -> ~ exists a, home_env ((b, h) :: env) l a.
Proof.
  intros b h env l H1 H2 [a (E & h' & [I|I] & H3)].
  - injection I as Eb Eh. subst h'. apply (H1 (eq_sym Eb) (snd a)). assumption.
  - apply H2. exists a. split; [assumption|]. exists h'. auto.
Qed.

Lemma no_home_nil : forall l, ~ exists a, home_env [] l a.
Proof. intros l [a (_ & h & [] & _)]. Qed.

Lemma el_ext : forall V (M M' : mem V) b A i j, (forall l, fst l = b -> M l = M' l) ->
  el M b A i j = el M' b A i j.
Proof. intros. unfold el. apply H. reflexivity. Qed.

Lemma ul_ext : forall V (M M' : mem V) p ld i j, (forall l, fst l = fst p -> M l = M' l) ->
  ul M p ld i j = ul M' p ld i j.
Proof. intros. unfold ul. apply H. reflexivity. Qed.

Lemma valid_trans_b : forall t, valid_trans t ->
  (t =? PlasmaNoTrans) || (t =? PlasmaTrans) || (t =? PlasmaConjTrans) = true.
Proof. intros t [->|[->| ->]]; reflexivity. Qed.

Section Quick.
  Context {N : numbers}.
  Add Ring num_ring_quick : (nring N).
  Lemma quick_scale : forall (alpha beta s c : N), alpha = n0 \/ s = n0 -> beta = n1 ->
    nadd (nmul alpha s) (nmul beta c) = c.
  Proof. intros alpha beta s c [->| ->] ->; ring. Qed.
End Quick.

(* translating a whole matrix translates op of it *)
Lemma op_el_ul : forall (N : numbers) (M M' : mem N) t b A p ld i j,
  (forall i j, 0 <= i < d_m A -> 0 <= j < d_n A -> el M b A i j = ul M' p ld i j) ->
  0 <= i < op_m t A -> 0 <= j < op_n t A ->
  op_el M t b A i j = op_ul M' t p ld i j.
Proof.
  intros N M M' t b A p ld i j H Hi Hj. unfold op_m, op_n in *. unfold op_el, op_ul.
  destruct (t =? PlasmaNoTrans); [|destruct (t =? PlasmaTrans)]; rewrite H; auto.
Qed.

Lemma zgemm_main : forall (N : numbers) nb ta tb m n k (alpha : N) pA lda pB ldb beta pC ldc bA bB bC M,
  0 < nb -> valid_trans ta -> valid_trans tb -> 0 <= m -> 0 <= n -> 0 <= k ->
  let am := if ta =? PlasmaNoTrans then m else k in
  let an := if ta =? PlasmaNoTrans then k else m in
  let bm := if tb =? PlasmaNoTrans then k else n in
  let bn := if tb =? PlasmaNoTrans then n else k in
  Z.max 1 am <= lda -> Z.max 1 bm <= ldb -> Z.max 1 m <= ldc ->
  NoDup [bA; bB; bC] ->
  (forall b, In b [fst pA; fst pB; fst pC] -> ~ In b [bA; bB; bC]) ->
  apart pA lda am an pC ldc m n -> apart pB ldb bm bn pC ldc m n ->
  driver_ensures (zgemm nb ta tb m n k alpha pA lda pB ldb beta pC ldc bA bB bC) M (fun M' =>
    (forall i j, in_matrix m n i j ->
       ul M' pC ldc i j
       = nadd (nmul alpha (nsum (fun l => nmul (op_ul M ta pA lda i l) (op_ul M tb pB ldb l j)) 0 k))
              (nmul beta (ul M pC ldc i j))) /\
    (forall l, ~ In (fst l) [bA; bB; bC] -> ~ in_user pC ldc m n l -> M' l = M l)).
Proof.
  intros N nb ta tb m n k alpha pA lda pB ldb beta pC ldc bA bB bC M Hnb Hta Htb Hm Hn Hk
    am an bm bn Hlda Hldb Hldc HND HFR APA APB.
  unfold zgemm. fold am an bm bn.
  rewrite (valid_trans_b ta Hta), (valid_trans_b tb Htb). cbn [negb].
  replace (m <? 0) with false by (symmetry; apply Z.ltb_ge; lia).
  replace (n <? 0) with false by (symmetry; apply Z.ltb_ge; lia).
  replace (k <? 0) with false by (symmetry; apply Z.ltb_ge; lia).
  replace (lda <? Z.max 1 am) with false by (symmetry; apply Z.ltb_ge; lia).
  replace (ldb <? Z.max 1 bm) with false by (symmetry; apply Z.ltb_ge; lia).
  replace (ldc <? Z.max 1 m) with false by (symmetry; apply Z.ltb_ge; lia).
  cbv zeta.
  assert (Ham : 0 <= am) by (unfold am; destruct (ta =? PlasmaNoTrans); lia).
  assert (Han : 0 <= an) by (unfold an; destruct (ta =? PlasmaNoTrans); lia).
  assert (Hbm : 0 <= bm) by (unfold bm; destruct (tb =? PlasmaNoTrans); lia).
  assert (Hbn : 0 <= bn) by (unfold bn; destruct (tb =? PlasmaNoTrans); lia).
  destruct ((m =? 0) || (n =? 0) || ((neqb alpha n0 || (k =? 0)) && neqb beta n1)) eqn:QR.
  - (* quick return *)
    cbn. split; [reflexivity|]. split; [|reflexivity]. intros i j [Hi Hj].
    rewrite !orb_true_iff, andb_true_iff, orb_true_iff, !Z.eqb_eq, !neqb_eq in QR.
    assert (QR' : (alpha = n0 \/ k = 0) /\ beta = n1) by (destruct QR as [[Q|Q]|Q]; [lia|lia|exact Q]).
    destruct QR' as [Q Qb]. symmetry. apply quick_scale; [|assumption].
    destruct Q as [Q|Q]; [left; assumption|right]. rewrite Q. apply nsum_nil. lia.
  - destruct (ge_create_succeeds nb am an Hnb Ham Han) as (A & EA & _). rewrite EA.
    destruct (ge_create_succeeds nb bm bn Hnb Hbm Hbn) as (B & EB & _). rewrite EB.
    destruct (ge_create_succeeds nb m n Hnb Hm Hn) as (C & EC & _). rewrite EC.
    cbn [with_desc driver_ensures].
    destruct (ge_create_dn _ _ _ _ _ EA) as (DA & A1 & A2 & _).
    destruct (ge_create_dn _ _ _ _ _ EB) as (DB & B1 & B2 & _).
    destruct (ge_create_dn _ _ _ _ _ EC) as (DC & C1 & C2 & _).
    clear EA EB EC.
    assert (CM : op_m ta A = d_m C) by (unfold op_m; rewrite A1, A2, C1; unfold am, an; destruct (ta =? PlasmaNoTrans); reflexivity).
    assert (EK : op_n ta A = k) by (unfold op_n; rewrite A1, A2; unfold am, an; destruct (ta =? PlasmaNoTrans); reflexivity).
    assert (CK : op_m tb B = op_n ta A) by (rewrite EK; unfold op_m; rewrite B1, B2; unfold bm, bn; destruct (tb =? PlasmaNoTrans); reflexivity).
    assert (CN : op_n tb B = d_n C) by (unfold op_n; rewrite B1, B2, C2; unfold bm, bn; destruct (tb =? PlasmaNoTrans); reflexivity).
    unfold omp_async_zgemm.
    replace (if ta =? PlasmaNoTrans then d_n A else d_m A) with k by (rewrite <- EK; reflexivity).
    rewrite C1, C2, QR.
    inversion_clear HND as [|? ? N1 HND']. inversion_clear HND' as [|? ? N2 _]. cbn in N1, N2.
    assert (FA : ~ In (fst pA) [bA; bB; bC]) by (apply HFR; cbn; auto).
    assert (FB : ~ In (fst pB) [bA; bB; bC]) by (apply HFR; cbn; auto).
    assert (FC : ~ In (fst pC) [bA; bB; bC]) by (apply HFR; cbn; auto).
    cbn in FA, FB, FC.
    set (env := [(bA, homeD A (in_tiles A)); (bB, homeD B (in_tiles B)); (bC, homeD C (in_tiles C));
                 (fst pC, homeU C (in_tiles C) pC ldc)]).
    assert (NU : forall p ld' m' n', ~ In (fst p) [bA; bB; bC] -> apart p ld' m' n' pC ldc m n ->
      forall l, in_user p ld' m' n' l -> ~ exists a, home_env env l a).
    { intros p ld' m' n' F AP l Hl. cbn in F. assert (El := in_user_block _ _ _ _ _ Hl). unfold env.
      apply no_home_cons; [intros E; exfalso; intuition congruence|].
      apply no_home_cons; [intros E; exfalso; intuition congruence|].
      apply no_home_cons; [intros E; exfalso; intuition congruence|].
      apply no_home_cons; [|apply no_home_nil]. intros E a Ha.
      apply (AP l Hl). rewrite <- C1, <- C2. eapply homeU_in_user; eauto. }
    assert (LC : d_m C <= ldc) by lia.
    apply (region_env N env).
    + cbn. repeat constructor; cbn; intuition congruence.
    + intros b h [E|[E|[E|[E|[]]]]]; injection E as <- <-.
      * eapply homeD_dn; eauto.
      * eapply homeD_dn; eauto.
      * eapply homeD_dn; eauto.
      * eapply homeU_dn; eauto.
    + rewrite !Forall_app. repeat split.
      * eapply in_kgood; eauto.
      * eapply in_kgood; eauto.
      * eapply in_kgood; eauto.
      * eapply pzgemm_kgood; eauto.
      * eapply out_kgood; eauto.
    + rewrite !Forall_app. repeat split.
      * eapply in_kdecl; eauto; [cbn; auto|]. left. apply NU; auto. rewrite A1, A2. assumption.
      * eapply in_kdecl; eauto; [cbn; auto|]. left. apply NU; auto. rewrite B1, B2. assumption.
      * eapply in_kdecl; eauto; [cbn; auto|]. right. cbn; auto.
      * eapply pzgemm_kdecl; eauto; cbn; auto.
      * eapply out_kdecl; eauto; cbn; auto.
    + intros M' E. rewrite !krun_app in E.
      remember (krun (pzge2desc pA lda bA A) M) as M1 eqn:E1.
      remember (krun (pzge2desc pB ldb bB B) M1) as M2 eqn:E2.
      remember (krun (pzge2desc pC ldc bC C) M2) as M3 eqn:E3.
      remember (krun (pzgemm ta tb alpha bA A bB B beta bC C) M3) as M4 eqn:E4.
      assert (O1 : forall l, fst l <> bA -> M1 l = M l) by (intros; rewrite E1; eapply in_other; eauto; intuition congruence).
      assert (O2 : forall l, fst l <> bB -> M2 l = M1 l) by (intros; rewrite E2; eapply in_other; eauto; intuition congruence).
      assert (O3 : forall l, fst l <> bC -> M3 l = M2 l) by (intros; rewrite E3; eapply in_other; eauto; intuition congruence).
      assert (XA : forall i j, 0 <= i < d_m A -> 0 <= j < d_n A -> el M3 bA A i j = ul M pA lda i j).
      { intros i j Hi Hj. rewrite (el_ext _ M3 M1); [rewrite E1; eapply in_el; eauto; intuition congruence|].
        intros l Hl. rewrite O3, O2; auto; intuition congruence. }
      assert (XB : forall i j, 0 <= i < d_m B -> 0 <= j < d_n B -> el M3 bB B i j = ul M pB ldb i j).
      { intros i j Hi Hj. rewrite (el_ext _ M3 M2); [|intros l Hl; rewrite O3; auto; intuition congruence].
        rewrite E2. rewrite (in_el nb) by (auto; intuition congruence).
        apply ul_ext. intros l Hl. apply O1. intuition congruence. }
      assert (XC : forall i j, 0 <= i < d_m C -> 0 <= j < d_n C -> el M3 bC C i j = ul M pC ldc i j).
      { intros i j Hi Hj. rewrite E3. rewrite (in_el nb) by (auto; intuition congruence).
        apply ul_ext. intros l Hl. rewrite O2, O1; auto; intuition congruence. }
      split.
      * intros i j [Hi Hj]. rewrite <- C1 in Hi. rewrite <- C2 in Hj.
        rewrite (ul_ext _ M' (krun (pzdesc2ge bC C pC ldc) M4)) by (intros; apply E).
        rewrite (out_ul nb) by (auto; intuition congruence).
        rewrite E4. rewrite (pzgemm_el nb) by (auto; intuition congruence).
        rewrite XC by assumption. unfold gsum. rewrite EK. apply f_equal2; [|reflexivity].
        apply f_equal. apply nsum_ext. intros l Hl. apply f_equal2.
        -- apply op_el_ul; [exact XA|rewrite CM; exact Hi|rewrite EK; exact Hl].
        -- apply op_el_ul; [exact XB|rewrite CK, EK; exact Hl|rewrite CN; exact Hj].
      * intros l Hl Hu. cbn in Hl. rewrite E. rewrite (out_other nb) by (auto; rewrite C1, C2; assumption).
        rewrite E4. rewrite (pzgemm_other nb) by (auto; intuition congruence).
        rewrite O3, O2, O1; auto; intuition congruence.
Qed.
