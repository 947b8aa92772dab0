From Coq Require Import ZArith List Bool Lia Ring.
From Verif Require Import Base NumModel NumInstances NumProofs TaskModel TaskSpec TaskProofs DescModel DescSpec
  DescDriverModel DescProofs DescProofs3 DescProofs4 MatModel MatSpec MatProofs RegionProofs
  LayoutModel LayoutProofs LayoutProofs2 DriverModel DriverSpec OpProofs SimProofs OperandProofs
  GemmModel GemmProofs GemmDriverProofs RankModel RankProofs.
Import ListNotations.
Open Scope Z_scope.

Lemma ge_apart : forall b A p ld b' A' p' ld',
  apart p ld (d_m A) (d_n A) p' ld' (d_m A') (d_n A') ->
  oapart (ge_opnd b A p ld) (ge_opnd b' A' p' ld').
Proof. intros b A p ld b' A' p' ld' H l Hl Hu. apply ge_opnd_user in Hu. exact (H l Hl Hu). Qed.

(* dense operands: xs read, c read and written *)
Lemma ge_user_out : forall b A p ld l, ~ in_user p ld (d_m A) (d_n A) l -> ~ o_user (ge_opnd b A p ld) l.
Proof. intros b A p ld l H Hu. apply H. eapply ge_opnd_user; eauto. Qed.

Lemma ge_region2 : forall V nb bA A pA lda bC C pC ldc (comp : list (ktask V)),
  dn nb A -> dn nb C -> d_m A <= lda -> d_m C <= ldc ->
  NoDup [bA; bC] -> (forall b, In b [fst pA; fst pC] -> ~ In b [bA; bC]) ->
  apart pA lda (d_m A) (d_n A) pC ldc (d_m C) (d_n C) ->
  Forall kgood comp ->
  (forall env, In (bA, homeD A (in_tiles A)) env -> In (bC, homeD C (in_tiles C)) env ->
     Forall (kdecl (home_env env)) comp) ->
  forall M, region_ensures (pzge2desc pA lda bA A ++ pzge2desc pC ldc bC C ++ comp ++ pzdesc2ge bC C pC ldc) M
    (fun M' => exists M3,
      (forall i j, 0 <= i < d_m A -> 0 <= j < d_n A -> el M3 bA A i j = ul M pA lda i j) /\
      (forall i j, 0 <= i < d_m C -> 0 <= j < d_n C -> el M3 bC C i j = ul M pC ldc i j) /\
      (forall l, ~ In (fst l) [bA; bC] -> M3 l = M l) /\
      (forall i j, 0 <= i < d_m C -> 0 <= j < d_n C -> ul M' pC ldc i j = el (krun comp M3) bC C i j) /\
      (forall l, ~ in_user pC ldc (d_m C) (d_n C) l -> M' l = krun comp M3 l)).
Proof.
  intros V nb bA A pA lda bC C pC ldc comp HA HC LA LC ND HF AP CG CD M.
  pose proof (std_region V nb [ge_opnd bA A pA lda] (ge_opnd bC C pC ldc) comp) as R.
  cbn [flat_map] in R. rewrite !ge_opnd_in, ge_opnd_out, app_nil_r in R.
  eapply region_mono; [|apply R; clear R]; auto.
  - intros M' (M3 & H1 & H2 & H3 & H4). exists M3. split; [|split; [|split; [|split]]].
    + intros i j Hi Hj. apply (H1 (ge_opnd bA A pA lda)); [right; left; reflexivity|].
      apply (ge_opnd_el nb); assumption.
    + intros i j Hi Hj. apply (H1 (ge_opnd bC C pC ldc)); [left; reflexivity|].
      apply (ge_opnd_el nb); assumption.
    + intros l Hl. apply H2. cbn in *. tauto.
    + intros i j Hi Hj. apply H3. apply (ge_opnd_el nb); assumption.
    + intros l Hl. apply H4. apply ge_user_out. assumption.
  - intros o [<-|[<-|[]]]; apply ge_opnd_ok; assumption.
  - cbn. inversion_clear ND as [|? ? N1 N2]. cbn in N1. constructor; [|constructor; [|constructor]]; cbn; intuition.
  - assert (F1 := HF (fst pA)). assert (F2 := HF (fst pC)). cbn in F1, F2.
    intros o [<-|[<-|[]]]; cbn; tauto.
  - intros o [<-|[]]. apply ge_apart. assumption.
  - intros env HE. apply CD.
    + apply (HE (ge_opnd bA A pA lda)). right; left; reflexivity.
    + apply (HE (ge_opnd bC C pC ldc)). left; reflexivity.
Qed.

Lemma ge_region3 : forall V nb bA A pA lda bB B pB ldb bC C pC ldc (comp : list (ktask V)),
  dn nb A -> dn nb B -> dn nb C -> d_m A <= lda -> d_m B <= ldb -> d_m C <= ldc ->
  NoDup [bA; bB; bC] -> (forall b, In b [fst pA; fst pB; fst pC] -> ~ In b [bA; bB; bC]) ->
  apart pA lda (d_m A) (d_n A) pC ldc (d_m C) (d_n C) ->
  apart pB ldb (d_m B) (d_n B) pC ldc (d_m C) (d_n C) ->
  Forall kgood comp ->
  (forall env, In (bA, homeD A (in_tiles A)) env -> In (bB, homeD B (in_tiles B)) env ->
     In (bC, homeD C (in_tiles C)) env -> Forall (kdecl (home_env env)) comp) ->
  forall M, region_ensures (pzge2desc pA lda bA A ++ pzge2desc pB ldb bB B ++ pzge2desc pC ldc bC C
                            ++ comp ++ pzdesc2ge bC C pC ldc) M
    (fun M' => exists M3,
      (forall i j, 0 <= i < d_m A -> 0 <= j < d_n A -> el M3 bA A i j = ul M pA lda i j) /\
      (forall i j, 0 <= i < d_m B -> 0 <= j < d_n B -> el M3 bB B i j = ul M pB ldb i j) /\
      (forall i j, 0 <= i < d_m C -> 0 <= j < d_n C -> el M3 bC C i j = ul M pC ldc i j) /\
      (forall l, ~ In (fst l) [bA; bB; bC] -> M3 l = M l) /\
      (forall i j, 0 <= i < d_m C -> 0 <= j < d_n C -> ul M' pC ldc i j = el (krun comp M3) bC C i j) /\
      (forall l, ~ in_user pC ldc (d_m C) (d_n C) l -> M' l = krun comp M3 l)).
Proof.
  intros V nb bA A pA lda bB B pB ldb bC C pC ldc comp HA HB HC LA LB LC ND HF AP BP CG CD M.
  pose proof (std_region V nb [ge_opnd bA A pA lda; ge_opnd bB B pB ldb] (ge_opnd bC C pC ldc) comp) as R.
  cbn [flat_map] in R. rewrite !ge_opnd_in, ge_opnd_out, app_nil_r, <- app_assoc in R.
  eapply region_mono; [|apply R; clear R]; auto.
  - intros M' (M3 & H1 & H2 & H3 & H4). exists M3. split; [|split; [|split; [|split; [|split]]]].
    + intros i j Hi Hj. apply (H1 (ge_opnd bA A pA lda)); [right; left; reflexivity|].
      apply (ge_opnd_el nb); assumption.
    + intros i j Hi Hj. apply (H1 (ge_opnd bB B pB ldb)); [right; right; left; reflexivity|].
      apply (ge_opnd_el nb); assumption.
    + intros i j Hi Hj. apply (H1 (ge_opnd bC C pC ldc)); [left; reflexivity|].
      apply (ge_opnd_el nb); assumption.
    + intros l Hl. apply H2. cbn in *. tauto.
    + intros i j Hi Hj. apply H3. apply (ge_opnd_el nb); assumption.
    + intros l Hl. apply H4. apply ge_user_out. assumption.
  - intros o [<-|[<-|[<-|[]]]]; apply ge_opnd_ok; assumption.
  - cbn. inversion_clear ND as [|? ? N1 N2]. inversion_clear N2 as [|? ? N3 N4]. cbn in N1, N3.
    constructor; [|constructor; [|constructor; [|constructor]]]; cbn; intuition.
  - assert (F1 := HF (fst pA)). assert (F2 := HF (fst pB)). assert (F3 := HF (fst pC)). cbn in F1, F2, F3.
    intros o [<-|[<-|[<-|[]]]]; cbn; tauto.
  - intros o [<-|[<-|[]]]; apply ge_apart; assumption.
  - intros env HE. apply CD.
    + apply (HE (ge_opnd bA A pA lda)). right; left; reflexivity.
    + apply (HE (ge_opnd bB B pB ldb)). right; right; left; reflexivity.
    + apply (HE (ge_opnd bC C pC ldc)). left; reflexivity.
Qed.

Section Drivers.
  Context {N : numbers}.
  Add Ring num_ring_rd : (nring N).

  Definition rsum (M : mem N) (ct trans : Z) (p : loc) (ld : Z) (p' : loc) (ld' : Z) (i j a b : Z) : N :=
    nsum (fun l => nmul (op_ul M trans p ld i l) (op_ul M (rank_t2 ct trans) p' ld' l j)) a b.

  Lemma uplo_b : forall uplo, uplo = PlasmaUpper \/ uplo = PlasmaLower ->
    (uplo =? PlasmaUpper) || (uplo =? PlasmaLower) = true.
  Proof. intros uplo [->| ->]; reflexivity. Qed.
  Lemma trans_b : forall ct trans, trans = PlasmaNoTrans \/ trans = ct ->
    (trans =? PlasmaNoTrans) || (trans =? ct) = true.
  Proof. intros ct trans [->| ->]; [reflexivity|]. rewrite Z.eqb_refl. apply orb_true_r. Qed.

  Section Common.
  Variables (rp : N -> N) (sc : N -> Prop) (ct nb uplo trans n k : Z) (beta : N).
  Hypothesis sc_rp : forall x, sc x -> rp x = x.
  Hypothesis sc_add : forall x y, sc x -> sc y -> sc (nadd x y).
  Hypothesis sc_beta : forall x, sc x -> sc (nmul beta x).
  Hypothesis Hct : ct <> PlasmaNoTrans.
  Hypothesis Hnb : 0 < nb.
  Hypothesis Hu : uplo = PlasmaUpper \/ uplo = PlasmaLower.
  Hypothesis Htr : trans = PlasmaNoTrans \/ trans = ct.
  Hypotheses (Hn : 0 <= n) (Hk : 0 <= k).
  Let am := if trans =? PlasmaNoTrans then n else k.
  Let an := if trans =? PlasmaNoTrans then k else n.

  Lemma full_ul : forall M3 M bX bY A pX ldX pY ldY i j a b,
    op_m trans A = n -> op_n trans A = k ->
    (forall i j, 0 <= i < d_m A -> 0 <= j < d_n A -> el M3 bX A i j = ul M pX ldX i j) ->
    (forall i j, 0 <= i < d_m A -> 0 <= j < d_n A -> el M3 bY A i j = ul M pY ldY i j) ->
    0 <= i < n -> 0 <= j < n -> 0 <= a -> b <= k ->
    nsum (fun l => nmul (op_el M3 trans bX A i l) (op_el M3 (rank_t2 ct trans) bY A l j)) a b
    = rsum M ct trans pX ldX pY ldY i j a b.
  Proof.
    intros M3 M bX bY A pX ldX pY ldY i j a b E1 E2 HX HY Hi Hj Ha Hbk.
    apply nsum_ext. intros l Hl. apply f_equal2.
    - apply op_el_ul; auto; lia.
    - destruct (rank_t2_mn ct trans A Hct) as [F1 F2]. apply op_el_ul; auto; lia.
  Qed.

  Lemma rank_k_gen : forall (alpha : N) pA lda pC ldc bA bC M,
    Z.max 1 am <= lda -> Z.max 1 n <= ldc ->
    NoDup [bA; bC] -> (forall b, In b [fst pA; fst pC] -> ~ In b [bA; bC]) ->
    apart pA lda am an pC ldc n n ->
    (forall i, 0 <= i < n -> sc (ul M pC ldc i i)) ->
    (forall i a b, 0 <= i < n -> 0 <= a -> b <= k -> sc (nmul alpha (rsum M ct trans pA lda pA lda i i a b))) ->
    driver_ensures (rank_k rp ct nb uplo trans n k alpha pA lda beta pC ldc bA bC) M (fun M' =>
      (forall i j, 0 <= i < n -> 0 <= j < n -> ul M' pC ldc i j =
         if uplo_sel uplo i j
         then if k =? 0 then ul M pC ldc i j
              else nadd (nmul alpha (rsum M ct trans pA lda pA lda i j 0 k)) (nmul beta (ul M pC ldc i j))
         else ul M pC ldc i j) /\
      (forall l, ~ In (fst l) [bA; bC] -> ~ in_user pC ldc n n l -> M' l = M l)).
  Proof.
    intros alpha pA lda pC ldc bA bC M Hlda Hldc ND HF AP SC SP. unfold rank_k. fold am an.
    rewrite (uplo_b uplo Hu), (trans_b ct trans Htr). cbn [negb].
    replace (n <? 0) with false by (symmetry; apply Z.ltb_ge; lia).
    replace (k <? 0) with false by (symmetry; apply Z.ltb_ge; lia). cbv zeta.
    replace (lda <? Z.max 1 am) with false by (symmetry; apply Z.ltb_ge; lia).
    replace (ldc <? Z.max 1 n) with false by (symmetry; apply Z.ltb_ge; lia).
    assert (Ham : 0 <= am) by (unfold am; destruct (trans =? PlasmaNoTrans); lia).
    assert (Han : 0 <= an) by (unfold an; destruct (trans =? PlasmaNoTrans); lia).
    destruct ((n =? 0) || ((neqb alpha n0 || (k =? 0)) && neqb beta n1)) eqn:QR.
    - cbn. split; [reflexivity|]. split; [|reflexivity]. intros i j Hi Hj.
      destruct (uplo_sel uplo i j); [|reflexivity]. destruct (k =? 0) eqn:K0; [reflexivity|].
      rewrite orb_true_iff, andb_true_iff, orb_true_iff, !Z.eqb_eq, !neqb_eq in QR.
      destruct QR as [Q|[[Q|Q] Qb]]; [lia| |discriminate].
      symmetry. apply quick_scale; auto.
    - destruct (ge_create_succeeds nb am an Hnb Ham Han) as (A & EA & _). rewrite EA.
      destruct (ge_create_succeeds nb n n Hnb Hn Hn) as (C & EC & _). rewrite EC.
      cbn [with_desc driver_ensures].
      destruct (ge_create_dn _ _ _ _ _ EA) as (DA & A1 & A2 & _).
      destruct (ge_create_dn _ _ _ _ _ EC) as (DC & C1 & C2 & _). clear EA EC.
      assert (EM : op_m trans A = n) by (unfold op_m; rewrite A1, A2; unfold am, an; destruct (trans =? PlasmaNoTrans); reflexivity).
      assert (EK : op_n trans A = k) by (unfold op_n; rewrite A1, A2; unfold am, an; destruct (trans =? PlasmaNoTrans); reflexivity).
      replace (if trans =? PlasmaNoTrans then d_n A else d_m A) with k by (rewrite <- EK; reflexivity).
      rewrite C1, QR.
      assert (CM : op_m trans A = d_m C) by congruence. assert (CN : d_m C = d_n C) by congruence.
      assert (N1 : bA <> bC) by (inversion_clear ND as [|? ? X _]; cbn in X; intuition).
      eapply region_mono; [|apply (ge_region2 N nb bA A pA lda bC C pC ldc)]; auto.
      + intros M' (M3 & H1 & H2 & H3 & H4 & H5). rewrite C1, C2 in H2, H4, H5.
        assert (AT : forall i j, 0 <= i < n -> 0 <= j < n -> at_elem M3 bC C i j
                   (krun (prank_k rp ct uplo trans alpha bA A beta bC C) M3)
                   (if uplo_sel uplo i j then fin A trans beta (nmul alpha (full A ct trans M3 bA bA i j)) (el M3 bC C i j)
                    else el M3 bC C i j)).
        { intros i j Hi Hj. apply (prank_k_at nb) with (sc := sc); auto; try (rewrite C2; assumption).
          - intros <-. rewrite H2 by lia. apply SC. assumption.
          - intros t Ht <-. unfold part.
            rewrite (full_ul M3 M bA bA A pA lda pA lda) by (auto; nia). apply SP; auto; nia. }
        split.
        * intros i j Hi Hj. rewrite H4 by assumption. destruct (AT i j Hi Hj) as [_ ->].
          rewrite H2 by assumption. unfold fin, full. rewrite EK.
          rewrite (full_ul M3 M bA bA A pA lda pA lda) by (auto; lia). reflexivity.
        * intros l Hl Hl'. rewrite H5 by assumption. rewrite <- H3 by assumption.
          assert (n <> 0) by (intros ->; cbn in QR; discriminate).
          assert (Z0 : 0 <= 0 < n) by lia.
          destruct (AT 0 0 Z0 Z0) as [X _]. apply X. cbn in Hl. intuition.
      + rewrite A1. lia.
      + rewrite C1. lia.
      + rewrite A1, A2, C1, C2. assumption.
      + apply (prank_k_kgood nb); auto.
      + intros env E1 E2. apply (prank_k_kdecl nb); auto.
  Qed.

  Lemma rank_2k_gen : forall (alpha alpha2 : N) pA lda pB ldb pC ldc bA bB bC M,
    (alpha = n0 -> alpha2 = n0) ->
    Z.max 1 am <= lda -> Z.max 1 am <= ldb -> Z.max 1 n <= ldc ->
    NoDup [bA; bB; bC] -> (forall b, In b [fst pA; fst pB; fst pC] -> ~ In b [bA; bB; bC]) ->
    apart pA lda am an pC ldc n n -> apart pB ldb am an pC ldc n n ->
    (forall i, 0 <= i < n -> sc (ul M pC ldc i i)) ->
    (forall i a b, 0 <= i < n -> 0 <= a -> b <= k ->
       sc (nadd (nmul alpha (rsum M ct trans pA lda pB ldb i i a b))
                (nmul alpha2 (rsum M ct trans pB ldb pA lda i i a b)))) ->
    driver_ensures (rank_2k rp ct nb uplo trans n k alpha alpha2 pA lda pB ldb beta pC ldc bA bB bC) M (fun M' =>
      (forall i j, 0 <= i < n -> 0 <= j < n -> ul M' pC ldc i j =
         if uplo_sel uplo i j
         then if k =? 0 then ul M pC ldc i j
              else nadd (nadd (nmul alpha (rsum M ct trans pA lda pB ldb i j 0 k))
                              (nmul alpha2 (rsum M ct trans pB ldb pA lda i j 0 k)))
                        (nmul beta (ul M pC ldc i j))
         else ul M pC ldc i j) /\
      (forall l, ~ In (fst l) [bA; bB; bC] -> ~ in_user pC ldc n n l -> M' l = M l)).
  Proof.
    intros alpha alpha2 pA lda pB ldb pC ldc bA bB bC M HA2 Hlda Hldb Hldc ND HF AP BP SC SP.
    unfold rank_2k. fold am an.
    rewrite (uplo_b uplo Hu), (trans_b ct trans Htr). cbn [negb].
    replace (n <? 0) with false by (symmetry; apply Z.ltb_ge; lia).
    replace (k <? 0) with false by (symmetry; apply Z.ltb_ge; lia). cbv zeta.
    replace (lda <? Z.max 1 am) with false by (symmetry; apply Z.ltb_ge; lia).
    replace (ldb <? Z.max 1 am) with false by (symmetry; apply Z.ltb_ge; lia).
    replace (ldc <? Z.max 1 n) with false by (symmetry; apply Z.ltb_ge; lia).
    assert (Ham : 0 <= am) by (unfold am; destruct (trans =? PlasmaNoTrans); lia).
    assert (Han : 0 <= an) by (unfold an; destruct (trans =? PlasmaNoTrans); lia).
    destruct ((n =? 0) || ((neqb alpha n0 || (k =? 0)) && neqb beta n1)) eqn:QR.
    - cbn. split; [reflexivity|]. split; [|reflexivity]. intros i j Hi Hj.
      destruct (uplo_sel uplo i j); [|reflexivity]. destruct (k =? 0) eqn:K0; [reflexivity|].
      rewrite orb_true_iff, andb_true_iff, orb_true_iff, !Z.eqb_eq, !neqb_eq in QR.
      destruct QR as [Q|[[Q|Q] Qb]]; [lia| |discriminate].
      rewrite Q, (HA2 Q), Qb. ring.
    - destruct (ge_create_succeeds nb am an Hnb Ham Han) as (A & EA & _). rewrite EA.
      destruct (ge_create_succeeds nb n n Hnb Hn Hn) as (C & EC & _). rewrite EC.
      cbn [with_desc driver_ensures].
      destruct (ge_create_dn _ _ _ _ _ EA) as (DA & A1 & A2 & _).
      destruct (ge_create_dn _ _ _ _ _ EC) as (DC & C1 & C2 & _). clear EA EC.
      assert (EM : op_m trans A = n) by (unfold op_m; rewrite A1, A2; unfold am, an; destruct (trans =? PlasmaNoTrans); reflexivity).
      assert (EK : op_n trans A = k) by (unfold op_n; rewrite A1, A2; unfold am, an; destruct (trans =? PlasmaNoTrans); reflexivity).
      replace (if trans =? PlasmaNoTrans then d_n A else d_m A) with k by (rewrite <- EK; reflexivity).
      rewrite C1, QR.
      assert (CM : op_m trans A = d_m C) by congruence. assert (CN : d_m C = d_n C) by congruence.
      assert (N12 : bA <> bC /\ bB <> bC).
      { inversion_clear ND as [|? ? X Y]. inversion_clear Y as [|? ? Z _]. cbn in X, Z. intuition. }
      destruct N12 as [N1 N2].
      eapply region_mono; [|apply (ge_region3 N nb bA A pA lda bB A pB ldb bC C pC ldc)]; auto.
      + intros M' (M3 & H1 & H1' & H2 & H3 & H4 & H5). rewrite C1, C2 in H2, H4, H5.
        assert (AT : forall i j, 0 <= i < n -> 0 <= j < n -> at_elem M3 bC C i j
                   (krun (prank_2k rp ct uplo trans alpha alpha2 bA A bB A beta bC C) M3)
                   (if uplo_sel uplo i j
                    then fin A trans beta (nadd (nmul alpha (full A ct trans M3 bA bB i j))
                                                (nmul alpha2 (full A ct trans M3 bB bA i j))) (el M3 bC C i j)
                    else el M3 bC C i j)).
        { intros i j Hi Hj. apply (prank_2k_at nb) with (sc := sc); auto; try (rewrite C2; assumption).
          - intros <-. rewrite H2 by lia. apply SC. assumption.
          - intros t Ht <-. unfold part.
            rewrite (full_ul M3 M bA bB A pA lda pB ldb) by (auto; nia).
            rewrite (full_ul M3 M bB bA A pB ldb pA lda) by (auto; nia). apply SP; auto; nia. }
        split.
        * intros i j Hi Hj. rewrite H4 by assumption. destruct (AT i j Hi Hj) as [_ ->].
          rewrite H2 by assumption. unfold fin, full. rewrite EK.
          rewrite (full_ul M3 M bA bB A pA lda pB ldb) by (auto; lia).
          rewrite (full_ul M3 M bB bA A pB ldb pA lda) by (auto; lia). reflexivity.
        * intros l Hl Hl'. rewrite H5 by assumption. rewrite <- H3 by assumption.
          assert (n <> 0) by (intros ->; cbn in QR; discriminate).
          assert (Z0 : 0 <= 0 < n) by lia.
          destruct (AT 0 0 Z0 Z0) as [X _]. apply X. cbn in Hl. intuition.
      + rewrite A1. lia.
      + rewrite A1. lia.
      + rewrite C1. lia.
      + rewrite A1, A2, C1, C2. assumption.
      + rewrite A1, A2, C1, C2. assumption.
      + apply (prank_2k_kgood nb); auto.
      + intros env E1 E2 E3. apply (prank_2k_kdecl nb); auto.
  Qed.
  End Common.
End Drivers.

Lemma selects_sel : forall uplo i j, valid_uplo uplo -> (uplo_sel uplo i j = true <-> selects uplo i j).
Proof.
  intros uplo i j [->| ->]; unfold uplo_sel, selects; cbn; rewrite Z.leb_le; split; intros H; auto;
    destruct H as [[E H]|[E H]]; auto; discriminate.
Qed.
Lemma selects_sel_false : forall uplo i j, valid_uplo uplo -> ~ selects uplo i j -> uplo_sel uplo i j = false.
Proof.
  intros uplo i j Hu H. destruct (uplo_sel uplo i j) eqn:E; [|reflexivity].
  exfalso. apply H. apply selects_sel; assumption.
Qed.

Lemma ul_tr : forall (N : numbers) (M : mem N) trans p ld l j, trans = PlasmaNoTrans \/ trans = PlasmaTrans ->
  op_ul M (rank_t2 PlasmaTrans trans) p ld l j = op_ul M trans p ld j l.
Proof. intros N M trans p ld l j [->| ->]; reflexivity. Qed.
Lemma ul_ct : forall (N : numbers) (M : mem N) trans p ld l j, trans = PlasmaNoTrans \/ trans = PlasmaConjTrans ->
  op_ul M (rank_t2 PlasmaConjTrans trans) p ld l j = nconj (op_ul M trans p ld j l).
Proof.
  intros N M trans p ld l j [->| ->]; unfold op_ul, rank_t2; cbn; [reflexivity|].
  rewrite nconj_conj. reflexivity.
Qed.

Lemma rsum_syr : forall (N : numbers) (M : mem N) trans p ld p' ld' i j a b,
  trans = PlasmaNoTrans \/ trans = PlasmaTrans ->
  rsum M PlasmaTrans trans p ld p' ld' i j a b
  = nsum (fun l => nmul (op_ul M trans p ld i l) (op_ul M trans p' ld' j l)) a b.
Proof. intros. apply nsum_ext. intros l _. rewrite ul_tr by assumption. reflexivity. Qed.
Lemma rsum_her : forall (N : numbers) (M : mem N) trans p ld p' ld' i j a b,
  trans = PlasmaNoTrans \/ trans = PlasmaConjTrans ->
  rsum M PlasmaConjTrans trans p ld p' ld' i j a b
  = nsum (fun l => nmul (op_ul M trans p ld i l) (nconj (op_ul M trans p' ld' j l))) a b.
Proof. intros. apply nsum_ext. intros l _. rewrite ul_ct by assumption. reflexivity. Qed.

Section Final.
  Context {N : numbers}.
  Add Ring num_ring_rf : (nring N).

  Lemma her_conj : forall (M : mem N) trans p ld p' ld' i a b,
    trans = PlasmaNoTrans \/ trans = PlasmaConjTrans ->
    nconj (rsum M PlasmaConjTrans trans p ld p' ld' i i a b) = rsum M PlasmaConjTrans trans p' ld' p ld i i a b.
  Proof.
    intros. rewrite !rsum_her by assumption. rewrite nconj_sum. apply nsum_ext. intros l _.
    rewrite nconj_mul, nconj_conj. ring.
  Qed.

  Lemma k0 : forall k (x s : N) (alpha beta : N), 0 < k \/ beta = n1 -> (k = 0 -> s = n0) ->
    (if k =? 0 then x else nadd (nmul alpha s) (nmul beta x)) = nadd (nmul alpha s) (nmul beta x).
  Proof.
    intros k x s alpha beta H Hs. destruct (k =? 0) eqn:E; [|reflexivity].
    apply Z.eqb_eq in E. destruct H as [H|H]; [lia|]. rewrite Hs, H by assumption. ring.
  Qed.
  Lemma k0' : forall k (x s s2 : N) (alpha alpha2 beta : N), 0 < k \/ beta = n1 -> (k = 0 -> s = n0 /\ s2 = n0) ->
    (if k =? 0 then x else nadd (nadd (nmul alpha s) (nmul alpha2 s2)) (nmul beta x))
    = nadd (nadd (nmul alpha s) (nmul alpha2 s2)) (nmul beta x).
  Proof.
    intros k x s s2 alpha alpha2 beta H Hs. destruct (k =? 0) eqn:E; [|reflexivity].
    apply Z.eqb_eq in E. destruct H as [H|H]; [lia|]. destruct (Hs E) as [-> ->]. rewrite H. ring.
  Qed.

  Lemma driver_mono : forall (d : driver N) M (Q Q' : mem N -> Prop), (forall M', Q M' -> Q' M') ->
    driver_ensures d M Q -> driver_ensures d M Q'.
  Proof.
    intros d M Q Q' H HD. destruct d; cbn in *.
    - destruct HD; split; auto.
    - eapply region_mono; eauto.
  Qed.

  Lemma zsyrk_main : forall nb uplo trans n k (alpha : N) pA lda beta pC ldc bA bC M,
    0 < nb -> valid_uplo uplo -> trans = PlasmaNoTrans \/ trans = PlasmaTrans -> 0 <= n -> 0 <= k ->
    0 < k \/ beta = n1 ->
    let am := if trans =? PlasmaNoTrans then n else k in
    let an := if trans =? PlasmaNoTrans then k else n in
    Z.max 1 am <= lda -> Z.max 1 n <= ldc ->
    NoDup [bA; bC] -> (forall b, In b [fst pA; fst pC] -> ~ In b [bA; bC]) ->
    apart pA lda am an pC ldc n n ->
    driver_ensures (zsyrk nb uplo trans n k alpha pA lda beta pC ldc bA bC) M (fun M' =>
      (forall i j, in_matrix n n i j -> selects uplo i j ->
         ul M' pC ldc i j
         = nadd (nmul alpha (nsum (fun l => nmul (op_ul M trans pA lda i l) (op_ul M trans pA lda j l)) 0 k))
                (nmul beta (ul M pC ldc i j))) /\
      (forall i j, in_matrix n n i j -> ~ selects uplo i j -> ul M' pC ldc i j = ul M pC ldc i j) /\
      (forall l, ~ In (fst l) [bA; bC] -> ~ in_user pC ldc n n l -> M' l = M l)).
  Proof.
    intros nb uplo trans n k alpha pA lda beta pC ldc bA bC M Hnb Hu Ht Hn Hk Hk0 am an Hlda Hldc ND HF AP.
    eapply driver_mono; [|apply (rank_k_gen (fun x => x) (fun _ => True) PlasmaTrans nb uplo trans n k beta); auto; discriminate].
    intros M' [H1 H2]. split; [|split; [|assumption]].
    - intros i j [Hi Hj] HS. rewrite H1 by assumption.
      apply selects_sel in HS; auto. rewrite HS. rewrite k0.
      + rewrite rsum_syr by assumption. reflexivity.
      + assumption.
      + intros ->. apply nsum_nil. lia.
    - intros i j [Hi Hj] HS. rewrite H1 by assumption.
      rewrite (selects_sel_false uplo i j Hu HS). reflexivity.
  Qed.

  Lemma zherk_main : forall rp nb uplo trans n k (alpha : N) pA lda beta pC ldc bA bC M,
    0 < nb -> valid_uplo uplo -> trans = PlasmaNoTrans \/ trans = PlasmaConjTrans -> 0 <= n -> 0 <= k ->
    0 < k \/ beta = n1 ->
    let am := if trans =? PlasmaNoTrans then n else k in
    let an := if trans =? PlasmaNoTrans then k else n in
    Z.max 1 am <= lda -> Z.max 1 n <= ldc ->
    NoDup [bA; bC] -> (forall b, In b [fst pA; fst pC] -> ~ In b [bA; bC]) ->
    apart pA lda am an pC ldc n n ->
    (forall x : N, nconj x = x -> rp x = x) ->
    nconj alpha = alpha -> nconj beta = beta ->
    (forall i, 0 <= i < n -> nconj (ul M pC ldc i i) = ul M pC ldc i i) ->
    driver_ensures (zherk rp nb uplo trans n k alpha pA lda beta pC ldc bA bC) M (fun M' =>
      (forall i j, in_matrix n n i j -> selects uplo i j ->
         ul M' pC ldc i j
         = nadd (nmul alpha (nsum (fun l => nmul (op_ul M trans pA lda i l) (nconj (op_ul M trans pA lda j l))) 0 k))
                (nmul beta (ul M pC ldc i j))) /\
      (forall i j, in_matrix n n i j -> ~ selects uplo i j -> ul M' pC ldc i j = ul M pC ldc i j) /\
      (forall l, ~ In (fst l) [bA; bC] -> ~ in_user pC ldc n n l -> M' l = M l)).
  Proof.
    intros rp nb uplo trans n k alpha pA lda beta pC ldc bA bC M Hnb Hu Ht Hn Hk Hk0 am an Hlda Hldc ND HF AP
      HR Ha Hb HD.
    eapply driver_mono; [|apply (rank_k_gen rp (fun x => nconj x = x) PlasmaConjTrans nb uplo trans n k beta); auto].
    - intros M' [H1 H2]. split; [|split; [|assumption]].
      + intros i j [Hi Hj] HS. rewrite H1 by assumption.
        apply selects_sel in HS; auto. rewrite HS. rewrite k0.
        * rewrite rsum_her by assumption. reflexivity.
        * assumption.
        * intros ->. apply nsum_nil. lia.
      + intros i j [Hi Hj] HS. rewrite H1 by assumption.
        rewrite (selects_sel_false uplo i j Hu HS). reflexivity.
    - intros x y Hx Hy. rewrite nconj_add, Hx, Hy. reflexivity.
    - intros x Hx. rewrite nconj_mul, Hb, Hx. reflexivity.
    - discriminate.
    - intros i a b Hi _ _. rewrite nconj_mul, Ha, her_conj by assumption. reflexivity.
  Qed.

  Lemma zsyr2k_main : forall nb uplo trans n k (alpha : N) pA lda pB ldb beta pC ldc bA bB bC M,
    0 < nb -> valid_uplo uplo -> trans = PlasmaNoTrans \/ trans = PlasmaTrans -> 0 <= n -> 0 <= k ->
    0 < k \/ beta = n1 ->
    let am := if trans =? PlasmaNoTrans then n else k in
    let an := if trans =? PlasmaNoTrans then k else n in
    Z.max 1 am <= lda -> Z.max 1 am <= ldb -> Z.max 1 n <= ldc ->
    NoDup [bA; bB; bC] -> (forall b, In b [fst pA; fst pB; fst pC] -> ~ In b [bA; bB; bC]) ->
    apart pA lda am an pC ldc n n -> apart pB ldb am an pC ldc n n ->
    driver_ensures (zsyr2k nb uplo trans n k alpha pA lda pB ldb beta pC ldc bA bB bC) M (fun M' =>
      (forall i j, in_matrix n n i j -> selects uplo i j ->
         ul M' pC ldc i j
         = nadd (nadd (nmul alpha (nsum (fun l => nmul (op_ul M trans pA lda i l) (op_ul M trans pB ldb j l)) 0 k))
                      (nmul alpha (nsum (fun l => nmul (op_ul M trans pB ldb i l) (op_ul M trans pA lda j l)) 0 k)))
                (nmul beta (ul M pC ldc i j))) /\
      (forall i j, in_matrix n n i j -> ~ selects uplo i j -> ul M' pC ldc i j = ul M pC ldc i j) /\
      (forall l, ~ In (fst l) [bA; bB; bC] -> ~ in_user pC ldc n n l -> M' l = M l)).
  Proof.
    intros nb uplo trans n k alpha pA lda pB ldb beta pC ldc bA bB bC M Hnb Hu Ht Hn Hk Hk0 am an Hlda Hldb Hldc
      ND HF AP BP.
    eapply driver_mono; [|apply (rank_2k_gen (fun x => x) (fun _ => True) PlasmaTrans nb uplo trans n k beta); auto; discriminate].
    intros M' [H1 H2]. split; [|split; [|assumption]].
    - intros i j [Hi Hj] HS. rewrite H1 by assumption.
      apply selects_sel in HS; auto. rewrite HS. rewrite k0'.
      + rewrite !rsum_syr by assumption. reflexivity.
      + assumption.
      + intros ->. split; apply nsum_nil; lia.
    - intros i j [Hi Hj] HS. rewrite H1 by assumption.
      rewrite (selects_sel_false uplo i j Hu HS). reflexivity.
  Qed.

  Lemma zher2k_main : forall rp nb uplo trans n k (alpha : N) pA lda pB ldb beta pC ldc bA bB bC M,
    0 < nb -> valid_uplo uplo -> trans = PlasmaNoTrans \/ trans = PlasmaConjTrans -> 0 <= n -> 0 <= k ->
    0 < k \/ beta = n1 ->
    let am := if trans =? PlasmaNoTrans then n else k in
    let an := if trans =? PlasmaNoTrans then k else n in
    Z.max 1 am <= lda -> Z.max 1 am <= ldb -> Z.max 1 n <= ldc ->
    NoDup [bA; bB; bC] -> (forall b, In b [fst pA; fst pB; fst pC] -> ~ In b [bA; bB; bC]) ->
    apart pA lda am an pC ldc n n -> apart pB ldb am an pC ldc n n ->
    (forall x : N, nconj x = x -> rp x = x) ->
    nconj beta = beta ->
    (forall i, 0 <= i < n -> nconj (ul M pC ldc i i) = ul M pC ldc i i) ->
    driver_ensures (zher2k rp nb uplo trans n k alpha pA lda pB ldb beta pC ldc bA bB bC) M (fun M' =>
      (forall i j, in_matrix n n i j -> selects uplo i j ->
         ul M' pC ldc i j
         = nadd (nadd (nmul alpha (nsum (fun l => nmul (op_ul M trans pA lda i l) (nconj (op_ul M trans pB ldb j l))) 0 k))
                      (nmul (nconj alpha)
                         (nsum (fun l => nmul (op_ul M trans pB ldb i l) (nconj (op_ul M trans pA lda j l))) 0 k)))
                (nmul beta (ul M pC ldc i j))) /\
      (forall i j, in_matrix n n i j -> ~ selects uplo i j -> ul M' pC ldc i j = ul M pC ldc i j) /\
      (forall l, ~ In (fst l) [bA; bB; bC] -> ~ in_user pC ldc n n l -> M' l = M l)).
  Proof.
    intros rp nb uplo trans n k alpha pA lda pB ldb beta pC ldc bA bB bC M Hnb Hu Ht Hn Hk Hk0 am an Hlda Hldb Hldc
      ND HF AP BP HR Hb HD.
    eapply driver_mono; [|apply (rank_2k_gen rp (fun x => nconj x = x) PlasmaConjTrans nb uplo trans n k beta); auto].
    - intros M' [H1 H2]. split; [|split; [|assumption]].
      + intros i j [Hi Hj] HS. rewrite H1 by assumption.
        apply selects_sel in HS; auto. rewrite HS. rewrite k0'.
        * rewrite !rsum_her by assumption. reflexivity.
        * assumption.
        * intros ->. split; apply nsum_nil; lia.
      + intros i j [Hi Hj] HS. rewrite H1 by assumption.
        rewrite (selects_sel_false uplo i j Hu HS). reflexivity.
    - intros x y Hx Hy. rewrite nconj_add, Hx, Hy. reflexivity.
    - intros x Hx. rewrite nconj_mul, Hb, Hx. reflexivity.
    - discriminate.
    - intros ->. apply nconj_0.
    - intros i a b Hi _ _. rewrite nconj_add, !nconj_mul, !her_conj, nconj_conj by assumption. ring.
  Qed.

  (* nothing at all happens to C when k = 0 *)
  Lemma zsyrk_k0 : forall nb uplo trans n (alpha : N) pA lda beta pC ldc bA bC M,
    0 < nb -> valid_uplo uplo -> trans = PlasmaNoTrans \/ trans = PlasmaTrans -> 0 <= n ->
    Z.max 1 (if trans =? PlasmaNoTrans then n else 0) <= lda -> Z.max 1 n <= ldc ->
    NoDup [bA; bC] -> (forall b, In b [fst pA; fst pC] -> ~ In b [bA; bC]) ->
    driver_ensures (zsyrk nb uplo trans n 0 alpha pA lda beta pC ldc bA bC) M (fun M' =>
      forall i j, in_matrix n n i j -> ul M' pC ldc i j = ul M pC ldc i j).
  Proof.
    intros nb uplo trans n alpha pA lda beta pC ldc bA bC M Hnb Hu Ht Hn Hlda Hldc ND HF.
    eapply driver_mono; [|apply (rank_k_gen (fun x => x) (fun _ => True) PlasmaTrans nb uplo trans n 0 beta); auto; try discriminate; try lia].
    - intros M' [H1 _] i j [Hi Hj]. rewrite H1 by assumption. cbn. destruct (uplo_sel uplo i j); reflexivity.
    - intros l (i & j & Hi & Hj & _) _. destruct (trans =? PlasmaNoTrans); lia.
  Qed.
  Lemma zsyr2k_k0 : forall nb uplo trans n (alpha : N) pA lda pB ldb beta pC ldc bA bB bC M,
    0 < nb -> valid_uplo uplo -> trans = PlasmaNoTrans \/ trans = PlasmaTrans -> 0 <= n ->
    Z.max 1 (if trans =? PlasmaNoTrans then n else 0) <= lda ->
    Z.max 1 (if trans =? PlasmaNoTrans then n else 0) <= ldb -> Z.max 1 n <= ldc ->
    NoDup [bA; bB; bC] -> (forall b, In b [fst pA; fst pB; fst pC] -> ~ In b [bA; bB; bC]) ->
    driver_ensures (zsyr2k nb uplo trans n 0 alpha pA lda pB ldb beta pC ldc bA bB bC) M (fun M' =>
      forall i j, in_matrix n n i j -> ul M' pC ldc i j = ul M pC ldc i j).
  Proof.
    intros nb uplo trans n alpha pA lda pB ldb beta pC ldc bA bB bC M Hnb Hu Ht Hn Hlda Hldb Hldc ND HF.
    eapply driver_mono; [|apply (rank_2k_gen (fun x => x) (fun _ => True) PlasmaTrans nb uplo trans n 0 beta); auto; try discriminate; try lia].
    - intros M' [H1 _] i j [Hi Hj]. rewrite H1 by assumption. cbn. destruct (uplo_sel uplo i j); reflexivity.
    - intros l (i & j & Hi & Hj & _) _. destruct (trans =? PlasmaNoTrans); lia.
    - intros l (i & j & Hi & Hj & _) _. destruct (trans =? PlasmaNoTrans); lia.
  Qed.
End Final.

Lemma zsyrk_k0_bad : exists nb n (alpha beta : Z_numbers) pA lda pC ldc bA bC (M : mem Z_numbers),
  0 < nb /\ Z.max 1 n <= lda /\ Z.max 1 n <= ldc /\ NoDup [bA; bC] /\
  (forall b, In b [fst pA; fst pC] -> ~ In b [bA; bC]) /\ in_matrix n n 0 0 /\
  driver_ensures (zsyrk nb PlasmaLower PlasmaNoTrans n 0 alpha pA lda beta pC ldc bA bC) M (fun M' =>
    ul M' pC ldc 0 0
    <> nadd (nmul alpha (nsum (fun l => nmul (op_ul M PlasmaNoTrans pA lda 0 l) (op_ul M PlasmaNoTrans pA lda 0 l)) 0 0))
            (nmul beta (ul M pC ldc 0 0))).
Proof.
  exists 2, 1, 1, 3, (0, 0), 1, (0, 1), 1, 1, 2, (fun _ => 5).
  assert (ND : NoDup [1; 2]) by (repeat constructor; cbn; lia).
  assert (HF : forall b, In b [fst (0, 0); fst (0, 1)] -> ~ In b [1; 2]) by (cbn; lia).
  assert (IM : in_matrix 1 1 0 0) by (split; lia).
  split; [lia|]. split; [lia|]. split; [lia|]. split; [assumption|]. split; [assumption|]. split; [assumption|].
  eapply driver_mono; [|apply (@zsyrk_k0 Z_numbers); auto; try lia].
  - intros M' H. rewrite H by assumption. cbn. discriminate.
  - right; reflexivity.
  - cbn. lia.
Qed.

Lemma zsyr2k_k0_bad : exists nb n (alpha beta : Z_numbers) pA lda pB ldb pC ldc bA bB bC (M : mem Z_numbers),
  0 < nb /\ Z.max 1 n <= lda /\ Z.max 1 n <= ldb /\ Z.max 1 n <= ldc /\ NoDup [bA; bB; bC] /\
  (forall b, In b [fst pA; fst pB; fst pC] -> ~ In b [bA; bB; bC]) /\ in_matrix n n 0 0 /\
  driver_ensures (zsyr2k nb PlasmaLower PlasmaNoTrans n 0 alpha pA lda pB ldb beta pC ldc bA bB bC) M (fun M' =>
    ul M' pC ldc 0 0
    <> nadd (nadd (nmul alpha (nsum (fun l => nmul (op_ul M PlasmaNoTrans pA lda 0 l) (op_ul M PlasmaNoTrans pB ldb 0 l)) 0 0))
                  (nmul alpha (nsum (fun l => nmul (op_ul M PlasmaNoTrans pB ldb 0 l) (op_ul M PlasmaNoTrans pA lda 0 l)) 0 0)))
            (nmul beta (ul M pC ldc 0 0))).
Proof.
  exists 2, 1, 1, 3, (0, 0), 1, (0, 2), 1, (0, 1), 1, 1, 2, 3, (fun _ => 5).
  assert (ND : NoDup [1; 2; 3]) by (repeat constructor; cbn; lia).
  assert (HF : forall b, In b [fst (0, 0); fst (0, 2); fst (0, 1)] -> ~ In b [1; 2; 3]) by (cbn; lia).
  assert (IM : in_matrix 1 1 0 0) by (split; lia).
  split; [lia|]. split; [lia|]. split; [lia|]. split; [lia|]. split; [assumption|]. split; [assumption|]. split; [assumption|].
  eapply driver_mono; [|apply (@zsyr2k_k0 Z_numbers); auto; try lia].
  - intros M' H. rewrite H by assumption. cbn. discriminate.
  - right; reflexivity.
  - cbn. lia.
  - cbn. lia.
Qed.
