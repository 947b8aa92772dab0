From Coq Require Import ZArith List Bool Lia Ring.
From Verif Require Import Base NumModel NumProofs FieldModel TaskModel TaskSpec TaskProofs GuardModel GuardSpec GuardProofs
  GuardProofs2 GuardAnyProofs PotrfDriverProofs DescProofs4 OperandProofs GemmProofs SwpModel DescModel DescSpec DescDriverModel DescProofs MatModel MatSpec MatProofs LayoutModel LayoutProofs
  RegionProofs SimProofs GemmDriverProofs OpProofs TriModel DriverModel PotrfModel PosvModel SymmModel SymmProofs EwModel EwProofs
  NormModel NormSpec NormProofs NormPhaseProofs NormDriverProofs NormZlangeProofs NormTriModel FillProofs LagModel LagProofs
  RefineTaskModel RefineTaskSpec RankDriverProofs DriverSpec RefineTaskProofs.
Import ListNotations.
Open Scope Z_scope.

Section Residual.
  Context {N : normed}.
  Add Ring num_ring_rt : (nring N).
  Variables (rp : N -> N) (nb : Z) (A X : desc) (uplo bA bB bX bR w bN x0 r0 : Z).
  Hypotheses (HA : dn nb A) (HX : dn nb X).
  Hypotheses (AS : d_m A = d_n A) (AX : d_n A = d_m X).
  Hypotheses (Pm : 0 < d_m X) (Pn : 0 < d_n X).
  Hypothesis Hu : valid_uplo uplo.
  Hypothesis ND : NoDup [bA; bB; bX; bR; w; bN].
  Hypothesis XR : x0 + d_n X <= r0 \/ r0 + d_n X <= x0.
  Let Hb : 0 < nb := sq_pos nb X _ HX.

  Definition res_tasks : list (ktask N) :=
    pzlacpy PlasmaGeneral PlasmaNoTrans bB X bR X
    ++ psym_mm rp PlasmaConjTrans PlasmaLeft uplo (nopp n1) bA A bX X n1 bR X.

  Lemma blocks : bA <> bB /\ bA <> bX /\ bA <> bR /\ bA <> w /\ bA <> bN /\ bB <> bX /\ bB <> bR /\ bB <> w /\ bB <> bN /\
    bX <> bR /\ bX <> w /\ bX <> bN /\ bR <> w /\ bR <> bN /\ w <> bN.
  Proof.
    clear -ND. inversion_clear ND as [|? ? P1 Q1]. inversion_clear Q1 as [|? ? P2 Q2]. inversion_clear Q2 as [|? ? P3 Q3].
    inversion_clear Q3 as [|? ? P4 Q4]. inversion_clear Q4 as [|? ? P5 Q5]. cbn in P1, P2, P3, P4, P5.
    repeat split; intros E; subst; tauto.
  Qed.

  Lemma res_at : forall (S : Z -> Z -> N) (M : mem N),
    (forall i j, in_matrix (d_m X) (d_m X) i j -> selects uplo i j -> S i j = el M bA A i j) ->
    (forall i j, in_matrix (d_m X) (d_m X) i j -> S i j = nconj (S j i)) ->
    (forall i, 0 <= i < d_m X -> rp (S i i) = S i i) ->
    (forall l, fst l <> bR -> krun res_tasks M l = M l) /\
    (forall i j, 0 <= i < d_m X -> 0 <= j < d_n X ->
       el (krun res_tasks M) bR X i j = residual_at (d_m X) S (el M bB X) (el M bX X) i j).
  Proof.
    intros S M HS HH HR. pose proof blocks as (D1 & D2 & D3 & _ & _ & D6 & D7 & _ & _ & D10 & _).
    unfold res_tasks. rewrite krun_app.
    pose proof (fun i j => pzlacpy_at (N := N) nb X X bB bR PlasmaGeneral PlasmaNoTrans HX HX D7 (or_introl eq_refl) eq_refl eq_refl M i j) as L1.
    pose proof (fun l => pzlacpy_frame (N := N) X X bB bR PlasmaGeneral PlasmaNoTrans (or_introl eq_refl) M l) as L2.
    remember (krun (pzlacpy PlasmaGeneral PlasmaNoTrans bB X bR X) M) as M2 eqn:E2. clear E2.
    assert (EA : forall i j, el M2 bA A i j = el M bA A i j) by (intros; apply el_ext; intros l E; apply L2; congruence).
    assert (EX : forall i j, el M2 bX X i j = el M bX X i j) by (intros; apply el_ext; intros l E; apply L2; congruence).
    assert (SD : forall i, selects uplo i i).
    { intros i. apply selects_sel; [assumption|]. unfold uplo_sel. destruct Hu as [->| ->]; cbn; apply Z.leb_refl. }
    assert (AT : forall i j, 0 <= i < d_m X -> 0 <= j < d_n X -> at_elem M2 bR X i j
               (krun (psym_mm rp PlasmaConjTrans PlasmaLeft uplo (nopp n1) bA A bX X n1 bR X) M2)
               (nadd (nmul (nopp n1) (nsum (sterm A X bA bX PlasmaConjTrans PlasmaLeft uplo M2 i j) 0 (d_n A)))
                     (nmul n1 (el M2 bR X i j)))).
    { intros i j Hi Hj. apply (psym_mm_at rp nb); auto; try discriminate.
      intros i' Hi'. rewrite AX in Hi'. rewrite EA, <- HS by (try split; auto). apply HR. assumption. }
    assert (SEL : forall i j, 0 <= i < d_m X -> 0 <= j < d_m X -> sym_el A bA PlasmaConjTrans uplo M2 i j = S i j).
    { intros i j Hi Hj. unfold sym_el. destruct (uplo_sel uplo i j) eqn:E.
      - rewrite EA. symmetry. apply HS; [split; assumption|]. apply selects_sel; assumption.
      - assert (SJ : selects uplo j i).
        { unfold selects. unfold uplo_sel in E. destruct Hu as [->| ->]; cbn in E; apply Z.leb_gt in E; [left|right]; split; auto; lia. }
        rewrite HH by (split; assumption). rewrite (HS j i) by (try split; assumption).
        unfold op_el. cbn. rewrite EA. reflexivity. }
    split.
    - intros l Hl. destruct (AT 0 0 ltac:(lia) ltac:(lia)) as [F _]. rewrite F by assumption. apply L2. assumption.
    - intros i j Hi Hj. destruct (AT i j Hi Hj) as [_ ->]. destruct (L1 i j Hi Hj) as [_ EL].
      unfold cpsel, op_el in EL. cbn in EL. rewrite EL. unfold residual_at. rewrite AX.
      assert (EN : nsum (sterm A X bA bX PlasmaConjTrans PlasmaLeft uplo M2 i j) 0 (d_m X)
                   = nsum (fun l => nmul (S i l) (el M bX X l j)) 0 (d_m X)).
      { apply nsum_ext. intros l Hl. unfold sterm. cbn [Z.eqb PlasmaLeft]. rewrite EX.
        change (PlasmaLeft =? PlasmaLeft) with true. cbv iota. rewrite SEL by assumption. reflexivity. }
      rewrite EN. ring.
  Qed.

  (* a local variable or an array that is named as a whole in depend clauses *)
  Definition vhome (o0 len : Z) (o a : Z) : Prop := o0 <= o < o0 + len /\ a = o0.
  Lemma vhome_functional : forall o0 len, functionalZ (vhome o0 len).
  Proof. intros o0 len o a a' [_ ->] [_ ->]. reflexivity. Qed.

  Definition amax_last (off v0 : Z) : ktask N := omp_amax_row nabs (d_n X) (d_mt X) (w, off) (d_n X) (bN, v0).

  Lemma amax_last_kgood : forall off v0, kgood (amax_last off v0).
  Proof.
    intros off v0. apply amax_row_kgood. rewrite (dn_mt nb X HX). apply ntl_pos; assumption.
  Qed.

  Lemma amax_last_at : forall off v0 b (M M1 : mem N),
    (forall c k, 0 <= c < d_n X -> 0 <= k < d_mt X ->
       largest (fun i => 0 <= i < Z.min nb (d_m X - k * nb)) (fun i => ncabs1 (el M1 b X (k * nb + i) c))
         (M (w, off + (d_n X * k + c)))) ->
    (forall j, 0 <= j < d_n X ->
       largest (fun i => 0 <= i < d_m X) (fun i => ncabs1 (el M1 b X i j)) (k_fun (amax_last off v0) M (bN, v0 + j))) /\
    (forall l, ~ seg (bN, v0) (d_n X) l -> k_fun (amax_last off v0) M l = M l).
  Proof.
    intros off v0 b M M1 H. split.
    - intros j Hj. cbn [k_fun amax_last omp_amax_row]. rewrite (fill_in N (bN, v0)) by assumption.
      rewrite (dn_mt nb X HX) in H |- *.
      apply (amax_row_val N nb (d_n X) (d_m X) w off (fun j i => ncabs1 (el M1 b X i j))); auto.
      intros; apply nabs_cabs1.
    - intros l Hl. cbn [k_fun amax_last omp_amax_row]. apply fill_out. assumption.
  Qed.

  Variable pre : list (cktask N).
  Hypothesis PG : Forall kgood (map ck_task pre).
  Hypothesis PS : Forall cksound pre.
  Lemma res_phases_eq : join [pre] (residual (N := N) rp uplo bA A bB bX bR X w (bN, x0) (bN, r0))
    = [pre ++ map sure (res_tasks ++ amax_col_tiles bX X (w, 0));
       map sure (amax_last 0 x0 :: amax_col_tiles bR X (w, d_mt X * d_n X));
       map sure [amax_last (d_mt X * d_n X) r0]].
  Proof.
    unfold residual, join, pdzamax, workX, workR, amax_last. cbn [removelast last app hd tl map Z.eqb PlasmaColumnwise Pos.eqb].
    fold res_tasks. rewrite (map_app sure res_tasks). cbn [map]. reflexivity.
  Qed.

  Lemma res_kgood : Forall kgood (res_tasks ++ amax_col_tiles bX X (w, 0)).
  Proof.
    pose proof blocks as (D1 & D2 & D3 & _ & _ & D6 & D7 & _ & _ & D10 & D11 & _).
    apply Forall_app. split; [apply Forall_app; split|].
    - apply (pzlacpy_kgood nb); auto.
    - apply (psym_mm_kgood rp nb); auto. discriminate.
    - apply (amt_kgood nb); auto.
  Qed.
  Lemma res_kdecl : forall env, In (bA, homeD A (in_tiles A)) env -> In (bB, homeD X (in_tiles X)) env ->
    In (bX, homeD X (in_tiles X)) env -> In (bR, homeD X (in_tiles X)) env ->
    Forall (kdecl (home_env env)) res_tasks.
  Proof.
    intros env EA EB EX ER. apply Forall_app; split.
    - apply (pzlacpy_kdecl nb); auto.
    - apply (psym_mm_kdecl rp nb); auto. discriminate.
  Qed.

  Lemma phase2_region : forall (M : mem N) (Q : mem N -> Z -> Prop),
    (forall M', meq M' (krun (amax_last 0 x0 :: amax_col_tiles bR X (w, d_mt X * d_n X)) M) -> Q M' 0) ->
    gregion_ensures (map sure (amax_last 0 x0 :: amax_col_tiles bR X (w, d_mt X * d_n X))) M Q.
  Proof.
    intros M Q HQ. pose proof blocks as (_ & _ & _ & _ & _ & _ & _ & _ & _ & _ & _ & _ & D13 & D14 & D15).
    pose (e2 := [(bR, homeD X (in_tiles X)); (w, whome X (d_mt X * d_n X)); (bN, vhome x0 (d_n X))]).
    assert (F2 : functional (home_env e2)).
    { apply home_env_functional.
      - cbn. repeat constructor; cbn; intuition.
      - intros b h [E|[E|[E|[]]]]; injection E as <- <-;
          [apply homeD_functional; apply (sq_t nb X _ HX)|apply (whome_functional nb); assumption|apply vhome_functional]. }
    apply gregion_sure; auto.
    - constructor; [apply amax_last_kgood|]. apply (amt_kgood nb); auto.
    - apply korders_klinked. apply (kdecl_korders _ (home_env e2)); [assumption|]. constructor.
      + apply kdecl_intro; cbn [amax_last omp_amax_row k_deps k_reads k_writes]; intros l Hl.
        * right. intros (a & E1 & h & I & H). destruct Hl as (r & c & Hr & Hc & _ & ->). cbn [fst snd at_] in *.
          destruct I as [I|[I|[I|[]]]]; pose proof (f_equal fst I) as I1; pose proof (f_equal snd I) as I2; cbn in I1, I2;
            try congruence. subst h.
          apply (whome_ge nb) in H; [|assumption]. nia.
        * destruct Hl as (r & Hr & ->). eexists. split; [right; left; reflexivity|]. split; [|discriminate].
          split; [reflexivity|]. exists (vhome x0 (d_n X)). split; [right; right; left; reflexivity|].
          cbn. unfold vhome. lia.
      + apply amt_kdecl; [left; reflexivity|right; left; reflexivity].
  Qed.

  Definition res_end (S : Z -> Z -> N) (M1 M' : mem N) : Prop :=
    (forall l, fst l <> bR -> fst l <> w -> ~ seg (bN, x0) (d_n X) l -> ~ seg (bN, r0) (d_n X) l -> M' l = M1 l) /\
    (forall i j, 0 <= i < d_m X -> 0 <= j < d_n X ->
       el M' bR X i j = residual_at (d_m X) S (el M1 bB X) (el M1 bX X) i j) /\
    (forall j, 0 <= j < d_n X ->
       largest (fun i => 0 <= i < d_m X) (fun i => ncabs1 (el M1 bX X i j)) (M' (bN, x0 + j)) /\
       largest (fun i => 0 <= i < d_m X)
         (fun i => ncabs1 (residual_at (d_m X) S (el M1 bB X) (el M1 bX X) i j)) (M' (bN, r0 + j))).

  (* after the first of the three groups of tasks *)
  Lemma res_seq : forall (S : Z -> Z -> N) (M1 Ma Mb Mc : mem N),
    (forall i j, in_matrix (d_m X) (d_m X) i j -> selects uplo i j -> S i j = el M1 bA A i j) ->
    (forall i j, in_matrix (d_m X) (d_m X) i j -> S i j = nconj (S j i)) ->
    (forall i, 0 <= i < d_m X -> rp (S i i) = S i i) ->
    meq Ma (krun (amax_col_tiles bX X (w, 0)) (krun res_tasks M1)) ->
    meq Mb (krun (amax_col_tiles bR X (w, d_mt X * d_n X)) (k_fun (amax_last 0 x0) Ma)) ->
    meq Mc (k_fun (amax_last (d_mt X * d_n X) r0) Mb) -> res_end S M1 Mc.
  Proof.
    intros S M1 Ma Mb Mc HS HH HR HM HMb HMc.
    pose proof blocks as (D1 & D2 & D3 & D4 & D5 & D6 & D7 & D8 & D9 & D10 & D11 & D12 & D13 & D14 & D15).
    destruct (res_at S M1 HS HH HR) as [F1 F2].
    remember (krun res_tasks M1) as M2 eqn:E2. clear E2.
    assert (EX2 : forall i j, el M2 bX X i j = el M1 bX X i j) by (intros; apply el_ext; intros l E; apply F1; congruence).
    assert (La : forall c k, 0 <= c < d_n X -> 0 <= k < d_mt X ->
      largest (fun i => 0 <= i < Z.min nb (d_m X - k * nb)) (fun i => ncabs1 (el M1 bX X (k * nb + i) c))
        (Ma (w, 0 + (d_n X * k + c)))).
    { intros c k Hc Hk. rewrite HM. eapply largest_ext; [|apply (amt_at nb bX X w 0 HX D11 M2 c k Hc Hk)].
      intros i _. cbn beta. rewrite EX2. reflexivity. }
    destruct (amax_last_at 0 x0 bX Ma M1 La) as [Lx Fx].
    remember (k_fun (amax_last 0 x0) Ma) as Mx eqn:Ex. clear Ex.
    assert (FRa : forall l, fst l <> w -> Ma l = M2 l).
    { intros l Hl. rewrite HM. apply (amt_frame nb); assumption. }
    assert (ERx : forall i j, 0 <= i < d_m X -> 0 <= j < d_n X ->
      el Mx bR X i j = residual_at (d_m X) S (el M1 bB X) (el M1 bX X) i j).
    { intros i j Hi Hj. rewrite <- F2 by assumption. apply el_ext. intros l E. rewrite Fx.
      - apply FRa. congruence.
      - intros (r & _ & ->). cbn in E. congruence. }
    assert (FRb : forall l, fst l <> w -> Mb l = Mx l).
    { intros l Hl. rewrite HMb. apply (amt_frame nb); assumption. }
    assert (Lb : forall c k, 0 <= c < d_n X -> 0 <= k < d_mt X ->
      largest (fun i => 0 <= i < Z.min nb (d_m X - k * nb)) (fun i => ncabs1 (el Mx bR X (k * nb + i) c))
        (Mb (w, d_mt X * d_n X + (d_n X * k + c)))).
    { intros c k Hc Hk. rewrite HMb. apply (amt_at nb bR X w (d_mt X * d_n X) HX D13 Mx c k Hc Hk). }
    destruct (amax_last_at (d_mt X * d_n X) r0 bR Mb Mx Lb) as [Lr Fr].
    split; [|split].
    - intros l L1 L2 L3 L4. rewrite HMc, Fr by assumption. rewrite FRb by assumption. rewrite Fx by assumption.
      rewrite FRa by assumption. apply F1. assumption.
    - intros i j Hi Hj. rewrite <- ERx by assumption. apply el_ext. intros l E. rewrite HMc, Fr.
      + apply FRb. congruence.
      + intros (r & _ & ->). cbn in E. congruence.
    - intros j Hj. split.
      + rewrite HMc, Fr.
        * rewrite FRb by (cbn; congruence). apply Lx. assumption.
        * intros (r & Hr & E). injection E as E. clear -XR Hr Hj E. lia.
      + rewrite HMc. eapply largest_ext; [|apply Lr; assumption].
        intros x Hx. cbn beta in *. rewrite ERx by assumption. reflexivity.
  Qed.

  Lemma res_writes : forall k l, In k (res_tasks ++ amax_col_tiles bX X (w, 0)) -> k_writes k l ->
    In (fst l) [bA; bB; bX; bR; w].
  Proof.
    intros k l Hk W.
    pose (e := [(bA, homeD A (in_tiles A)); (bB, homeD X (in_tiles X)); (bX, homeD X (in_tiles X));
                (bR, homeD X (in_tiles X)); (w, whome X 0)]).
    assert (KD : kdecl (home_env e) k).
    { apply in_app_or in Hk. destruct Hk as [Hk|Hk].
      - pose proof (res_kdecl e ltac:(cbn; tauto) ltac:(cbn; tauto) ltac:(cbn; tauto) ltac:(cbn; tauto)) as RD.
        rewrite Forall_forall in RD. apply RD. exact Hk.
      - pose proof (amt_kdecl (N := N) bX X w 0 e ltac:(cbn; tauto) ltac:(cbn; tauto)) as RD.
        rewrite Forall_forall in RD. apply RD. exact Hk. }
    destruct KD as [_ KW]. destruct (KW l W) as (d & _ & (_ & h & I & _) & _).
    apply (in_map fst) in I. exact I.
  Qed.

  Lemma single_linked : forall k : ktask N, klinked [k].
  Proof.
    intros k l1 a l2 b l3 E. exfalso. apply (f_equal (@length _)) in E. rewrite !app_length in E. cbn in E.
    rewrite app_length in E. cbn in E. lia.
  Qed.

  (* the tasks before the residual, then the residual and the two rows of maxima *)
  Lemma residual_phases_gen : forall (outs : list Z) (S : Z -> Z -> N) (M : mem N) (Q : mem N -> Z -> Prop),
    klinked (map ck_task pre ++ (res_tasks ++ amax_col_tiles bX X (w, 0))) ->
    (forall k l, In k pre -> k_writes (ck_task k) l -> In (fst l) outs) -> incl [bA; bB; bX; bR; w] outs ->
    (forall i j, in_matrix (d_m X) (d_m X) i j -> selects uplo i j -> S i j = el (krun (map ck_task pre) M) bA A i j) ->
    (forall i j, in_matrix (d_m X) (d_m X) i j -> S i j = nconj (S j i)) ->
    (forall i, 0 <= i < d_m X -> rp (S i i) = S i i) ->
    (forall M', Forall (fun c => c = 0) (kcodes pre M) -> res_end S (krun (map ck_task pre) M) M' -> Q M' 0) ->
    (forall M' st, st <> 0 -> (forall l, ~ In (fst l) outs -> M' l = M l) -> Q M' st) ->
    gphases_ensures (join [pre] (residual rp uplo bA A bB bX bR X w (bN, x0) (bN, r0))) M Q.
  Proof.
    intros outs S M Q KL PW IO HS HH HR Q1 Q2.
    rewrite res_phases_eq. cbn [gphases_ensures].
    apply gregion_intro_any.
    - rewrite map_app, map_sure. apply Forall_app. split; [assumption|apply res_kgood].
    - apply Forall_app. split; [assumption|apply cksound_sure].
    - rewrite map_app, map_sure. exact KL.
    - intros Ma st H1 _ H3. split.
      2:{ intros NZ. apply Q2; [assumption|]. intros l Hl. apply H3. intros k Hk W. apply Hl.
          apply in_app_or in Hk. destruct Hk as [Hk|Hk]; [eapply PW; eauto|]. apply IO.
          apply in_map_iff in Hk. destruct Hk as (k' & <- & Hk'). apply (res_writes k' l Hk' W). }
      intros E0. specialize (H1 E0). destruct H1 as [HC HM]. clear H3 E0 st.
      rewrite kcodes_app in HC. apply Forall_app in HC. destruct HC as [HC _].
      rewrite map_app, map_sure, krun_app, krun_app in HM.
      apply phase2_region. intros Mb HMb. split; [|intros Z; exfalso; apply Z; reflexivity]. intros _.
      apply gregion_sure; [constructor; [apply amax_last_kgood|constructor]|apply single_linked|].
      intros Mc HMc. split; [|intros Z; exfalso; apply Z; reflexivity]. intros _.
      apply Q1; [exact HC|]. exact (res_seq S _ Ma Mb Mc HS HH HR HM HMb HMc).
  Qed.

  Lemma residual_phases : forall (env : list (Z * (Z -> Z -> Prop))),
    functional (home_env env) -> Forall (kdecl (home_env env)) (map ck_task pre) ->
    In (bA, homeD A (in_tiles A)) env -> In (bB, homeD X (in_tiles X)) env -> In (bX, homeD X (in_tiles X)) env ->
    In (bR, homeD X (in_tiles X)) env -> In (w, whome X 0) env ->
    forall (S : Z -> Z -> N) (M : mem N) (Q : mem N -> Z -> Prop),
    (forall i j, in_matrix (d_m X) (d_m X) i j -> selects uplo i j -> S i j = el (krun (map ck_task pre) M) bA A i j) ->
    (forall i j, in_matrix (d_m X) (d_m X) i j -> S i j = nconj (S j i)) ->
    (forall i, 0 <= i < d_m X -> rp (S i i) = S i i) ->
    (forall M', Forall (fun c => c = 0) (kcodes pre M) -> res_end S (krun (map ck_task pre) M) M' -> Q M' 0) ->
    (forall M' st, st <> 0 -> (forall l, ~ In (fst l) (map fst env) -> M' l = M l) -> Q M' st) ->
    gphases_ensures (join [pre] (residual rp uplo bA A bB bX bR X w (bN, x0) (bN, r0))) M Q.
  Proof.
    intros env EF PD EA EB EX ER EW S M Q. apply residual_phases_gen.
    - apply korders_klinked. apply (kdecl_korders _ (home_env env)); [assumption|].
      apply Forall_app. split; [assumption|]. apply Forall_app. split; [apply res_kdecl; assumption|apply amt_kdecl; assumption].
    - intros k l Hk W. rewrite Forall_forall in PD. destruct (PD _ (in_map ck_task _ _ Hk)) as [_ KW].
      destruct (KW l W) as (d & _ & (_ & h & I & _) & _). apply (in_map fst) in I. exact I.
    - intros b Hb'. cbn in Hb'. destruct Hb' as [<-|[<-|[<-|[<-|[<-|[]]]]]];
        [apply (in_map fst) in EA|apply (in_map fst) in EB|apply (in_map fst) in EX|apply (in_map fst) in ER|apply (in_map fst) in EW];
        assumption.
  Qed.
End Residual.
