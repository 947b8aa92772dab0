From Coq Require Import ZArith List Bool Lia.
From Verif Require Import Base DescModel MatModel RefineModel RefineSpec.
Import ListNotations.
Open Scope Z_scope.

Section RefineProofs.
  Context {D S P T : Type} (o : rops D S P T).
  Notation st := (rstate D S P T).

  Lemma conv_spec rn xn n cte :
    conv o rn xn n cte = true <->
    (forall i, 0 <= i < n -> o_gt o (rn i) (o_mul o (xn i) cte) = false).
  Proof.
    unfold conv.
    assert (H : forall l, conv_from o rn xn cte l = true <->
                (forall i, In i l -> o_gt o (rn i) (o_mul o (xn i) cte) = false)).
    { induction l as [|a l IH]; cbn [conv_from].
      - split; [intros _ i []|reflexivity].
      - destruct (o_gt o (rn a) (o_mul o (xn a) cte)) eqn:E.
        + split; [discriminate|]. intros K. rewrite (K a (or_introl eq_refl)) in E. discriminate.
        + rewrite IH. split.
          * intros K i [<-|I]; auto.
          * intros K i I. apply K. now right. }
    rewrite H. split; intros K i I; apply K.
    - now apply in_zrange.
    - now apply in_zrange in I.
  Qed.

  Variables (r : refinement D) (sees : st -> D -> Prop) (body : st -> st) (cn : Z) (cte : T).
  Hypothesis sees_body : forall s x, sees s x -> sees (body s) (next r x).
  Hypothesis sees_conv : forall s x, sees s x ->
    (conv o (r_Rnorm s) (r_Xnorm s) cn cte = true <-> accept r x).

  Lemma refine_for_spec : forall m k s,
    sees s (iterate r k) -> (forall j, (j <= k)%nat -> ~ accept r (iterate r j)) ->
    match refine_for o body cn cte (zrange (Z.of_nat k) (Z.of_nat k + Z.of_nat m)) s with
    | (Some i, s') => exists k', (k < k' <= k + m)%nat /\ i = Z.of_nat k' /\ sees s' (iterate r k') /\
        accept r (iterate r k') /\ (forall j, (j < k')%nat -> ~ accept r (iterate r j))
    | (None, s') => sees s' (iterate r (k + m)) /\
        (forall j, (j <= k + m)%nat -> ~ accept r (iterate r j))
    end.
  Proof.
    induction m as [|m IH]; intros k s Hs Hn.
    - rewrite (zrange_nil (Z.of_nat k) (Z.of_nat k + Z.of_nat 0)) by lia. cbn [refine_for].
      rewrite Nat.add_0_r. auto.
    - rewrite (zrange_cons (Z.of_nat k) (Z.of_nat k + Z.of_nat (Datatypes.S m))) by lia.
      cbn [refine_for].
      pose proof (sees_body _ _ Hs) as Hb.
      change (next r (iterate r k)) with (iterate r (Datatypes.S k)) in Hb.
      destruct (conv o (r_Rnorm (body s)) (r_Xnorm (body s)) cn cte) eqn:E.
      + exists (Datatypes.S k). split; [lia|]. split; [lia|]. split; [exact Hb|].
        split; [now apply (sees_conv _ _ Hb)|].
        intros j Hj. apply Hn. lia.
      + assert (Hn' : forall j, (j <= Datatypes.S k)%nat -> ~ accept r (iterate r j)).
        { intros j Hj. destruct (Nat.eq_dec j (Datatypes.S k)) as [->|].
          - intros A. apply (sees_conv _ _ Hb) in A. congruence.
          - apply Hn. lia. }
        specialize (IH (Datatypes.S k) (body s) Hb Hn').
        replace (Z.of_nat k + 1) with (Z.of_nat (Datatypes.S k)) by lia.
        replace (Z.of_nat k + Z.of_nat (Datatypes.S m)) with (Z.of_nat (Datatypes.S k) + Z.of_nat m) by lia.
        destruct (refine_for o body cn cte _ (body s)) as [[i|] s'].
        * destruct IH as (k' & Hk & A). exists k'. split; [lia|exact A].
        * replace (k + Datatypes.S m)%nat with (Datatypes.S k + m)%nat by lia. exact IH.
  Qed.
End RefineProofs.

Section Routines.
  Context {D S P T : Type} (o : rops D S P T).
  Notation st := (rstate D S P T).

  Record holds (A B : D) (LU : S) (p : P) (s : st) (x : D) : Prop := mkholds {
    h_A : r_A s = A; h_B : r_B s = B; h_LU : r_As s = LU; h_p : r_ipiv s = p;
    h_X : r_X s = x; h_R : r_R s = o_mm o (-1) A x 1 B;
    h_an : r_Anorm s = o_lange o A;
    h_xn : r_Xnorm s = o_amax o x; h_rn : r_Rnorm s = o_amax o (o_mm o (-1) A x 1 B);
    h_st : r_status s = 0 }.

  Lemma calls_cons f fs (s : st) : r_status s = 0 -> calls (f :: fs) s = calls fs (f s).
  Proof. intros H. unfold calls. cbn [fold_left]. now rewrite H. Qed.

  Lemma calls_app (f g : list (st -> st)) s : calls (f ++ g) s = calls g (calls f s).
  Proof. unfold calls. apply fold_left_app. Qed.

  Lemma calls_failed fs (s : st) : r_status s <> 0 -> calls fs s = s.
  Proof.
    intros H. unfold calls. induction fs as [|f fs IH]; [reflexivity|].
    cbn [fold_left]. apply Z.eqb_neq in H. now rewrite H.
  Qed.


  Variables (A B : D) (LU : S) (p : P) (F : D) (p' : P) (info' : Z).

  (* the low-precision solve as a list of calls *)
  Definition solves (solve : list (st -> st)) (f : S -> S) : Prop :=
    forall s, r_status s = 0 -> r_As s = LU -> r_ipiv s = p ->
      calls solve s = mkrstate (r_A s) (r_B s) (r_X s) (r_R s) LU (f (r_Xs s)) p
                        (r_Anorm s) (r_Xnorm s) (r_Rnorm s) 0.

  Lemma start_holds solve f s :
    solves solve f -> r_status s = 0 -> r_A s = A -> r_B s = B ->
    o_factor_s o (o_lag2c o A) = (LU, p, 0) ->
    holds A B LU p
      (calls ([r_lange o; r_lag2c_B o; r_lag2c_A o; r_factor_s o] ++ solve ++ [r_clag2z_X o]
              ++ [r_lacpy_R; r_mm o; r_amax_X o; r_amax_R o]) s)
      (o_clag2z o (f (o_lag2c o B))).
  Proof.
    intros Hs H0 HA HB HF.
    rewrite calls_app, calls_app.
    assert (E : calls [r_lange o; r_lag2c_B o; r_lag2c_A o; r_factor_s o] s =
                mkrstate A B (r_X s) (r_R s) LU (o_lag2c o B) p (o_lange o A) (r_Xnorm s) (r_Rnorm s) 0).
    { destruct s. cbn in H0, HA, HB. subst. unfold calls. cbn.
      unfold r_factor_s. cbn. rewrite HF. reflexivity. }
    rewrite E, Hs by reflexivity.
    unfold calls. cbn. constructor; reflexivity.
  Qed.

  Lemma body_holds solve f s x :
    solves solve f -> holds A B LU p s x ->
    holds A B LU p
      (calls ([r_lag2c_R o] ++ solve ++ [r_clag2z_R o; r_geadd o]
              ++ [r_lacpy_R; r_mm o; r_amax_X o; r_amax_R o]) s)
      (o_geadd o 1 (o_clag2z o (f (o_lag2c o (o_mm o (-1) A x 1 B)))) 1 x).
  Proof.
    intros Hs [].
    rewrite calls_app, calls_app, calls_cons by assumption.
    change (calls [] (r_lag2c_R o s)) with (r_lag2c_R o s).
    rewrite Hs by assumption.
    unfold calls. cbn. rewrite h_A0, h_B0, h_X0, h_R0. constructor; try reflexivity.
    all: cbn; try reflexivity; assumption.
  Qed.

  Lemma routine solve f direct nrhs cte0 s :
    solves solve f ->
    (forall s x, holds A B LU p s x ->
       calls direct s = mkrstate F B (r_X (calls direct s)) (r_R s) LU (r_Xs s) p' (r_Anorm s) (r_Xnorm s)
                         (r_Rnorm s) info' /\
       (info' <> 0 -> r_X (calls direct s) = x)) ->
    r_status s = 0 -> r_A s = A -> r_B s = B ->
    o_factor_s o (o_lag2c o A) = (LU, p, 0) ->
    forall dx, (forall s x, holds A B LU p s x -> info' = 0 -> r_X (calls direct s) = dx) ->
    let resid x := o_mm o (-1) A x 1 B in
    let r := mkref (o_clag2z o (f (o_lag2c o B)))
               (fun x => o_geadd o 1 (o_clag2z o (f (o_lag2c o (resid x)))) 1 x)
               (fun x => forall i, 0 <= i < nrhs ->
                  o_gt o (o_amax o (resid x) i) (o_mul o (o_amax o x i) (cte0 (o_lange o A))) = false) in
    let s1 := calls ([r_lange o; r_lag2c_B o; r_lag2c_A o; r_factor_s o] ++ solve ++ [r_clag2z_X o]
              ++ [r_lacpy_R; r_mm o; r_amax_X o; r_amax_R o]) s in
    let res :=
      if conv o (r_Rnorm s1) (r_Xnorm s1) nrhs (cte0 (r_Anorm s1)) then (0, s1)
      else match refine_for o (calls ([r_lag2c_R o] ++ solve ++ [r_clag2z_R o; r_geadd o]
              ++ [r_lacpy_R; r_mm o; r_amax_X o; r_amax_R o])) nrhs (cte0 (r_Anorm s1)) (zrange 0 itermax) s1 with
           | (Some k, s) => (k, s)
           | (None, s) => (- itermax - 1, calls direct s)
           end in
    reports r 30 (fst res) (r_X (snd res)) (if info' =? 0 then dx else iterate r 30) /\
    (0 <= fst res -> r_status (snd res) = 0 /\ r_A (snd res) = A) /\
    (fst res < 0 -> r_status (snd res) = info' /\ r_A (snd res) = F) /\
    r_B (snd res) = B.
  Proof.
    intros Hs Hd H0 HA HB HF dx Hdx resid r s1 res.
    pose proof (start_holds solve f s Hs H0 HA HB HF) as H1. fold s1 in H1.
    assert (Han : r_Anorm s1 = o_lange o A) by apply H1.
    assert (Hc : forall s x, holds A B LU p s x ->
       (conv o (r_Rnorm s) (r_Xnorm s) nrhs (cte0 (r_Anorm s1)) = true <-> accept r x)).
    { intros t x Ht. rewrite conv_spec. cbn [accept r]. destruct Ht. rewrite h_rn0, h_xn0, Han.
      split; auto. }
    unfold res. clear res.
    destruct (conv o (r_Rnorm s1) (r_Xnorm s1) nrhs (cte0 (r_Anorm s1))) eqn:E; cbn [fst snd].
    - split; [|destruct H1; repeat split; auto; lia].
      left. exists 0%nat. split; [lia|]. split; [reflexivity|].
      split; [now apply (Hc _ _ H1)|]. split; [lia|]. apply H1.
    - pose proof (refine_for_spec o r (holds A B LU p)
        (calls ([r_lag2c_R o] ++ solve ++ [r_clag2z_R o; r_geadd o]
              ++ [r_lacpy_R; r_mm o; r_amax_X o; r_amax_R o])) nrhs (cte0 (r_Anorm s1))) as L.
      specialize (L (fun s x => body_holds solve f s x Hs) Hc 30%nat 0%nat s1 H1).
      assert (Hn : forall j, (j <= 0)%nat -> ~ accept r (iterate r j)).
      { intros j Hj. replace j with 0%nat by lia. intros K. apply (Hc _ _ H1) in K. congruence. }
      specialize (L Hn).
      change (zrange (Z.of_nat 0) (Z.of_nat 0 + Z.of_nat 30)) with (zrange 0 itermax) in L.
      destruct (refine_for o _ nrhs _ _ s1) as [[i|] s']; cbn [fst snd].
      + destruct L as (k & Hk & -> & Hh & Ha & Hj).
        split; [|destruct Hh; repeat split; auto; lia].
        left. exists k. split; [lia|]. split; [reflexivity|]. split; [exact Ha|].
        split; [exact Hj|]. apply Hh.
      + destruct L as [Hh Hj]. pose proof (Hd _ _ Hh) as [Eq Hf].
        split.
        * right. split; [reflexivity|]. split; [exact Hj|].
          destruct (Z.eqb_spec info' 0) as [K|K]; [now apply (Hdx _ _ Hh)|].
          exact (Hf K).
        * rewrite Eq. cbn. unfold itermax. repeat split; auto; lia.
  Qed.
End Routines.

Section Final.
  Context {D S P T : Type} (o : rops D S P T).

  Lemma zcgesv_report (n nrhs : Z) A B LU p F p' info' (s : rstate D S P T) :
    0 < n -> 0 < nrhs ->
    r_status s = 0 -> r_A s = A -> r_B s = B ->
    o_factor_s o (o_lag2c o A) = (LU, p, 0) -> o_factor o A = (F, p', info') ->
    let low b := o_clag2z o (o_trsm_s o PlasmaUpper PlasmaNoTrans PlasmaNonUnit p LU
                   (o_trsm_s o PlasmaLower PlasmaNoTrans PlasmaUnit p LU
                     (o_swap_s o p (o_lag2c o b)))) in
    let full b := o_trsm o PlasmaUpper PlasmaNoTrans PlasmaNonUnit p' F
                    (o_trsm o PlasmaLower PlasmaNoTrans PlasmaUnit p' F (o_swap o p' b)) in
    let resid x := o_mm o (-1) A x 1 B in
    let cte := o_mul o (o_mul o (o_lange o A) (o_eps o)) (o_sqrt o n) in
    let r := mkref (low B) (fun x => o_geadd o 1 (low (resid x)) 1 x)
               (fun x => forall i, 0 <= i < nrhs ->
                  o_gt o (o_amax o (resid x) i) (o_mul o (o_amax o x i) cte) = false) in
    let (iter, s') := omp_zcgesv o n nrhs s in
    reports r 30 iter (r_X s') (if info' =? 0 then full B else iterate r 30) /\
    (0 <= iter -> r_status s' = 0 /\ r_A s' = A) /\
    (iter < 0 -> r_status s' = info' /\ r_A s' = F) /\
    r_B s' = B.
  Proof.
    intros Hn Hr H0 HA HB HF HF' low full resid cte r.
    destruct (omp_zcgesv o n nrhs s) as [iter s'] eqn:E.
    unfold omp_zcgesv in E.
    replace (n =? 0) with false in E by (symmetry; apply Z.eqb_neq; lia).
    replace (nrhs =? 0) with false in E by (symmetry; apply Z.eqb_neq; lia).
    cbn [orb] in E.
    unshelve epose proof (routine o A B LU p F p' info'
      [r_swap_s o; r_trsm_s o PlasmaLower PlasmaNoTrans PlasmaUnit;
       r_trsm_s o PlasmaUpper PlasmaNoTrans PlasmaNonUnit]
      (fun x => o_trsm_s o PlasmaUpper PlasmaNoTrans PlasmaNonUnit p LU
                   (o_trsm_s o PlasmaLower PlasmaNoTrans PlasmaUnit p LU (o_swap_s o p x)))
      [r_factor o; r_lacpy_X; r_swap o; r_trsm o PlasmaLower PlasmaNoTrans PlasmaUnit;
                    r_trsm o PlasmaUpper PlasmaNoTrans PlasmaNonUnit]
      nrhs (fun a => o_mul o (o_mul o a (o_eps o)) (o_sqrt o n)) s _ _ H0 HA HB HF (full B) _) as L.
    - intros t Ht HL Hp. unfold calls. cbn. rewrite Ht. cbn. rewrite Ht. cbn. rewrite Ht. cbn.
      unfold r_trsm_s, r_swap_s. cbn. rewrite HL, Hp, Ht. reflexivity.
    - intros t x []. unfold calls. cbn [fold_left]. rewrite h_st0. cbn [Z.eqb]. unfold r_factor.
      rewrite h_A0, HF'. cbn.
      destruct (Z.eqb_spec info' 0) as [->|K]; cbn.
      + rewrite h_B0, h_LU0. split; [reflexivity|congruence].
      + apply Z.eqb_neq in K. repeat (rewrite K; cbn). rewrite h_B0, h_LU0. split; auto.
    - intros t x [] K. unfold calls. cbn [fold_left]. rewrite h_st0. cbn [Z.eqb]. unfold r_factor.
      rewrite h_A0, HF'. subst info'. cbn. rewrite h_B0. reflexivity.
    - cbv beta zeta in L, E. rewrite E in L. exact L.
  Qed.
  Lemma zcposv_report (uplo n nrhs : Z) A B LU p F p' info' (s : rstate D S P T) :
    0 < n -> 0 < nrhs ->
    r_status s = 0 -> r_A s = A -> r_B s = B ->
    o_factor_s o (o_lag2c o A) = (LU, p, 0) -> o_factor o A = (F, p', info') ->
    let low b := o_clag2z o (o_trsm_s o uplo (if uplo =? PlasmaUpper then PlasmaNoTrans else PlasmaConjTrans) PlasmaNonUnit p LU
                   (o_trsm_s o uplo (if uplo =? PlasmaUpper then PlasmaConjTrans else PlasmaNoTrans) PlasmaNonUnit p LU
                     (o_lag2c o b))) in
    let full b := o_trsm o uplo (if uplo =? PlasmaUpper then PlasmaNoTrans else PlasmaConjTrans) PlasmaNonUnit p' F
                    (o_trsm o uplo (if uplo =? PlasmaUpper then PlasmaConjTrans else PlasmaNoTrans) PlasmaNonUnit p' F b) in
    let resid x := o_mm o (-1) A x 1 B in
    let cte := o_mul o (o_mul o (o_lange o A) (o_eps o)) (o_sqrt o n) in
    let r := mkref (low B) (fun x => o_geadd o 1 (low (resid x)) 1 x)
               (fun x => forall i, 0 <= i < nrhs ->
                  o_gt o (o_amax o (resid x) i) (o_mul o (o_amax o x i) cte) = false) in
    let (iter, s') := omp_zcposv o uplo n nrhs s in
    reports r 30 iter (r_X s') (if info' =? 0 then full B else iterate r 30) /\
    (0 <= iter -> r_status s' = 0 /\ r_A s' = A) /\
    (iter < 0 -> r_status s' = info' /\ r_A s' = F) /\
    r_B s' = B.
  Proof.
    intros Hn Hr H0 HA HB HF HF' low full resid cte r.
    destruct (omp_zcposv o uplo n nrhs s) as [iter s'] eqn:E.
    unfold omp_zcposv in E.
    replace (n =? 0) with false in E by (symmetry; apply Z.eqb_neq; lia).
    replace (nrhs =? 0) with false in E by (symmetry; apply Z.eqb_neq; lia).
    cbn [orb] in E.
    unshelve epose proof (routine o A B LU p F p' info'
      [r_trsm_s o uplo (if uplo =? PlasmaUpper then PlasmaConjTrans else PlasmaNoTrans) PlasmaNonUnit;
       r_trsm_s o uplo (if uplo =? PlasmaUpper then PlasmaNoTrans else PlasmaConjTrans) PlasmaNonUnit]
      (fun x => o_trsm_s o uplo (if uplo =? PlasmaUpper then PlasmaNoTrans else PlasmaConjTrans) PlasmaNonUnit p LU
                   (o_trsm_s o uplo (if uplo =? PlasmaUpper then PlasmaConjTrans else PlasmaNoTrans) PlasmaNonUnit p LU x))
      [r_factor o; r_lacpy_X; r_trsm o uplo (if uplo =? PlasmaUpper then PlasmaConjTrans else PlasmaNoTrans) PlasmaNonUnit;
                    r_trsm o uplo (if uplo =? PlasmaUpper then PlasmaNoTrans else PlasmaConjTrans) PlasmaNonUnit]
      nrhs (fun a => o_mul o (o_mul o a (o_eps o)) (o_sqrt o n)) s _ _ H0 HA HB HF (full B) _) as L.
    - intros t Ht HL Hp. unfold calls. cbn. rewrite Ht. cbn. rewrite Ht. cbn.
      unfold r_trsm_s. cbn. rewrite HL, Hp, Ht. reflexivity.
    - intros t x []. unfold calls. cbn [fold_left]. rewrite h_st0. cbn [Z.eqb]. unfold r_factor.
      rewrite h_A0, HF'. cbn.
      destruct (Z.eqb_spec info' 0) as [->|K]; cbn.
      + rewrite h_B0, h_LU0. split; [reflexivity|congruence].
      + apply Z.eqb_neq in K. repeat (rewrite K; cbn). rewrite h_B0, h_LU0. split; auto.
    - intros t x [] K. unfold calls. cbn [fold_left]. rewrite h_st0. cbn [Z.eqb]. unfold r_factor.
      rewrite h_A0, HF'. subst info'. cbn. rewrite h_B0. reflexivity.
    - cbv beta zeta in L, E. rewrite E in L. exact L.
  Qed.
  Lemma zcgbsv_report (n nrhs : Z) A B LU p F p' info' (s : rstate D S P T) :
    0 < n -> 0 < nrhs ->
    r_status s = 0 -> r_A s = A -> r_B s = B ->
    o_factor_s o (o_lag2c o A) = (LU, p, 0) -> o_factor o A = (F, p', info') ->
    let low b := o_clag2z o (o_trsm_s o PlasmaUpper PlasmaNoTrans PlasmaNonUnit p LU
                   (o_trsm_s o PlasmaLower PlasmaNoTrans PlasmaUnit p LU
                     (o_lag2c o b))) in
    let full b := o_trsm o PlasmaUpper PlasmaNoTrans PlasmaNonUnit p' F
                    (o_trsm o PlasmaLower PlasmaNoTrans PlasmaUnit p' F b) in
    let resid x := o_mm o (-1) A x 1 B in
    let cte := o_mul o (o_mul o (o_mul o (o_lange o A) (o_eps o)) (o_sqrt o n)) (o_bwdmax o) in
    let r := mkref (low B) (fun x => o_geadd o 1 (low (resid x)) 1 x)
               (fun x => forall i, 0 <= i < nrhs ->
                  o_gt o (o_amax o (resid x) i) (o_mul o (o_amax o x i) cte) = false) in
    let (iter, s') := omp_zcgbsv o n nrhs s in
    reports r 30 iter (r_X s') (if info' =? 0 then full B else iterate r 30) /\
    (0 <= iter -> r_status s' = 0 /\ r_A s' = A) /\
    (iter < 0 -> r_status s' = info' /\ r_A s' = F) /\
    r_B s' = B.
  Proof.
    intros Hn Hr H0 HA HB HF HF' low full resid cte r.
    destruct (omp_zcgbsv o n nrhs s) as [iter s'] eqn:E.
    unfold omp_zcgbsv in E.
    replace (n =? 0) with false in E by (symmetry; apply Z.eqb_neq; lia).
    replace (nrhs =? 0) with false in E by (symmetry; apply Z.eqb_neq; lia).
    cbn [orb] in E.
    unshelve epose proof (routine o A B LU p F p' info'
      [r_trsm_s o PlasmaLower PlasmaNoTrans PlasmaUnit;
       r_trsm_s o PlasmaUpper PlasmaNoTrans PlasmaNonUnit]
      (fun x => o_trsm_s o PlasmaUpper PlasmaNoTrans PlasmaNonUnit p LU
                   (o_trsm_s o PlasmaLower PlasmaNoTrans PlasmaUnit p LU x))
      [r_factor o; r_lacpy_X; r_trsm o PlasmaLower PlasmaNoTrans PlasmaUnit;
                    r_trsm o PlasmaUpper PlasmaNoTrans PlasmaNonUnit]
      nrhs (fun a => o_mul o (o_mul o (o_mul o a (o_eps o)) (o_sqrt o n)) (o_bwdmax o)) s _ _ H0 HA HB HF (full B) _) as L.
    - intros t Ht HL Hp. unfold calls. cbn. rewrite Ht. cbn. rewrite Ht. cbn.
      unfold r_trsm_s. cbn. rewrite HL, Hp, Ht. reflexivity.
    - intros t x []. unfold calls. cbn [fold_left]. rewrite h_st0. cbn [Z.eqb]. unfold r_factor.
      rewrite h_A0, HF'. cbn.
      destruct (Z.eqb_spec info' 0) as [->|K]; cbn.
      + rewrite h_B0, h_LU0. split; [reflexivity|congruence].
      + apply Z.eqb_neq in K. repeat (rewrite K; cbn). rewrite h_B0, h_LU0. split; auto.
    - intros t x [] K. unfold calls. cbn [fold_left]. rewrite h_st0. cbn [Z.eqb]. unfold r_factor.
      rewrite h_A0, HF'. subst info'. cbn. rewrite h_B0. reflexivity.
    - cbv beta zeta in L, E. rewrite E in L. exact L.
  Qed.
End Final.
