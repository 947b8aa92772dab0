(* Regions in which tasks that fail need not wait for each other: the status reported in the
   end is the code of a failing task none of whose predecessors fails. *)
From Coq Require Import ZArith List Bool Lia.
From Verif Require Import Base DescModel TaskModel TaskSpec TaskProofs MatModel MatProofs RegionProofs
  GuardModel GuardSpec GuardProofs GuardProofs2.
Import ListNotations.
Open Scope Z_scope.

Section Any.
  Context {V : Type}.
  Variable ts : list (ctask V).
  Variable m0 : mem V.
  Hypothesis Hord : forall i j ti tj l, (j < i)%nat ->
    nth_error ts i = Some ti -> nth_error ts j = Some tj ->
    (cmay_write (c_body tj) l /\ (cmay_read (c_body ti) l \/ cmay_write (c_body ti) l)) \/
    (cmay_read (c_body tj) l /\ cmay_write (c_body ti) l) ->
    path (map c_deps ts) j i.

  Notation clean := (clean ts m0).
  Notation shaped := (shaped ts).
  Notation codes := (codes ts m0).

  Lemma clean_start : forall m ps i p, clean m ps -> nth_error ps i = Some (Waiting p) -> gready ts ps i ->
    clean m (at_phase i (Running p) ps).
  Proof.
    intros m ps i p [HS HQ] E HR. split.
    - eapply (shaped_at ts ps i (Waiting p)); eauto; try discriminate.
      intros t Ht. cbn in *. subst. split; [|split]; auto.
    - destruct (map_rest_at ps i (Waiting p) (Running p) E) as [E1 E2].
      rewrite E2. rewrite E1 in HQ. exact HQ.
  Qed.

  Lemma clean_read : forall m ps i l k, clean m ps -> nth_error ps i = Some (Running (CRead l k)) ->
    clean m (at_phase i (Running (k (m l))) ps).
  Proof.
    intros m ps i l k [HS HQ] E. split.
    - eapply (shaped_at ts ps i (Running (CRead l k))); eauto; try discriminate.
      + intros t Ht. cbn in *. eapply leftover_read; eauto.
      + left. discriminate.
    - destruct (map_rest_at ps i _ (Running (k (m l))) E) as [E1 E2].
      rewrite E2. rewrite E1 in HQ. eapply same_trans; [|exact HQ].
      apply same_app; [|reflexivity]. cbn.
      destruct (earlier_calm ts Hord ps i _ l HS E) as [_ Q].
      rewrite crun_all_frame by (apply Q; constructor). apply same_refl.
  Qed.

  Lemma clean_write : forall m ps i l v p, clean m ps -> nth_error ps i = Some (Running (CWrite l v p)) ->
    clean (upd m l v) (at_phase i (Running p) ps).
  Proof.
    intros m ps i l v p [HS HQ] E. split.
    - eapply (shaped_at ts ps i (Running (CWrite l v p))); eauto; try discriminate.
      + intros t Ht. cbn in *. eapply leftover_write; eauto.
      + left. discriminate.
    - destruct (map_rest_at ps i _ (Running p) E) as [E1 E2].
      rewrite E2. rewrite E1 in HQ. eapply same_trans; [|exact HQ].
      destruct (earlier_calm ts Hord ps i _ l HS E) as [Q _].
      assert (Q' : Forall (fun q => ~ cmay_read q l /\ ~ cmay_write q l) (map rest (firstn i ps)))
        by (apply Q; constructor).
      destruct (crun_all_upd V _ m l v Q') as [U1 U2].
      apply same_app; [|exact U2]. cbn.
      destruct (crun_meq V p _ _ U1) as [W1 W2].
      destruct (crun_all_meq V (map rest (skipn (S i) ps)) _ _ W1) as [X1 X2].
      split; cbn; [exact X1|apply f_equal2; [exact W2|exact X2]].
  Qed.

  Lemma clean_end0 : forall m ps i, clean m ps -> nth_error ps i = Some (Running (CDone 0)) ->
    clean m (at_phase i Finished ps).
  Proof.
    intros m ps i [HS HQ] E. split.
    - eapply (shaped_at ts ps i (Running (CDone 0))); eauto; try discriminate.
      + intros t Ht. exact I.
      + left. discriminate.
    - destruct (map_rest_at ps i _ Finished E) as [E1 E2]. rewrite E2. rewrite E1 in HQ. exact HQ.
  Qed.

  Lemma shaped_step : forall s s', shaped (snd s) -> gstep ts s s' -> shaped (snd s').
  Proof.
    intros s s' HS H. inversion H as [m st ps i p HR E Est|m st ps i p HR E Est|m st ps i l k E|m st ps i l v p E|m st ps i info E];
      subst; cbn [snd] in *.
    - eapply (shaped_at ts ps i (Waiting p)); eauto; try discriminate.
      intros t Ht. cbn in *. subst. split; [|split]; auto.
    - eapply (shaped_at ts ps i (Waiting p)); eauto; try discriminate. intros t Ht. exact I.
    - eapply (shaped_at ts ps i (Running (CRead l k))); eauto; try discriminate.
      + intros t Ht. cbn in *. eapply leftover_read; eauto.
      + left. discriminate.
    - eapply (shaped_at ts ps i (Running (CWrite l v p))); eauto; try discriminate.
      + intros t Ht. cbn in *. eapply leftover_write; eauto.
      + left. discriminate.
    - eapply (shaped_at ts ps i (Running (CDone info))); eauto; try discriminate.
      + intros t Ht. exact I.
      + left. discriminate.
  Qed.

  (* gs is what the phases would be if tasks that were skipped had not started, and tasks that
     failed had not ended *)
  Definition held (ph : phase V) : Prop :=
    match ph with Waiting _ => True | Running (CDone c) => c <> 0 | _ => False end.
  Definition shadow (st : Z) (ps gs : list (phase V)) : Prop :=
    length ps = length gs /\
    forall i p g, nth_error ps i = Some p -> nth_error gs i = Some g -> p = g \/ (st <> 0 /\ p = Finished /\ held g).

  Definition blamed (st : Z) : Prop :=
    exists j, nth_error codes j = Some st /\ forall i, path (map c_deps ts) i j -> nth_error codes i = Some 0.

  Definition ainv (s : gstate V) : Prop :=
    exists gs, clean (gmem s) gs /\ shadow (gstatus s) (snd s) gs /\ shaped (snd s) /\
      (gstatus s <> 0 -> blamed (gstatus s)).

  Lemma shadow_at : forall st ps gs i p, shadow st ps gs -> nth_error ps i = Some p ->
    p <> Finished -> nth_error gs i = Some p.
  Proof.
    intros st ps gs i p [HL HS] E HP.
    destruct (nth_error gs i) as [g|] eqn:Eg.
    - destruct (HS i p g E Eg) as [->|(_ & H & _)]; [reflexivity|congruence].
    - apply nth_error_None in Eg. rewrite <- HL in Eg. apply nth_error_None in Eg. congruence.
  Qed.

  Lemma shadow_eq : forall ps gs, shadow 0 ps gs -> ps = gs.
  Proof.
    induction ps as [|p ps IH]; intros [|g gs] [HL HS]; cbn in HL; try discriminate; [reflexivity|].
    apply f_equal2.
    - destruct (HS O p g eq_refl eq_refl) as [H|(H & _)]; congruence.
    - apply IH. split; [congruence|]. intros i. apply (HS (S i)).
  Qed.

  Lemma shadow_upd : forall st st' ps gs i p p' g', shadow st ps gs -> nth_error ps i = Some p -> 
    (st <> 0 -> st' <> 0) -> (p' = g' \/ (st' <> 0 /\ p' = Finished /\ held g')) ->
    shadow st' (at_phase i p' ps) (at_phase i g' gs).
  Proof.
    intros st st' ps gs i p p' g' [HL HS] E HZ HP.
    assert (Hg : exists g, nth_error gs i = Some g).
    { destruct (nth_error gs i) eqn:Eg; eauto. apply nth_error_None in Eg. rewrite <- HL in Eg. apply nth_error_None in Eg. congruence. }
    destruct Hg as [g Eg]. split.
    - rewrite (at_phase_len _ _ _ _ _ E), (at_phase_len _ _ _ _ _ Eg). assumption.
    - intros j q h Ej Eh. destruct (Nat.eq_dec i j) as [<-|NE].
      + rewrite (at_phase_same _ _ _ _ _ E) in Ej. rewrite (at_phase_same _ _ _ _ _ Eg) in Eh.
        injection Ej as <-. injection Eh as <-. assumption.
      + rewrite (at_phase_other _ _ _ _ _ _ E NE) in Ej. rewrite (at_phase_other _ _ _ _ _ _ Eg NE) in Eh.
        destruct (HS j q h Ej Eh) as [->|(A & B & C)]; auto.
  Qed.

  Lemma at_phase_id : forall (ps : list (phase V)) i p, nth_error ps i = Some p -> at_phase i p ps = ps.
  Proof. intros ps i p E. destruct (nth_split3 _ ps i p E) as [EQ _]. unfold at_phase. symmetry. exact EQ. Qed.

  (* the predecessors of a task that has started have code 0 *)
  Lemma started_code : forall m gs i j ph, clean m gs -> nth_error gs j = Some ph -> (forall p, ph <> Waiting p) ->
    path (map c_deps ts) i j -> nth_error codes i = Some 0.
  Proof.
    intros m gs i j ph HC E HW HP. pose proof HC as [HS _].
    pose proof (path_done ts gs HS i j HP ph E HW) as F. rewrite (code_at ts m0 gs m i _ HC F). reflexivity.
  Qed.

  Lemma ainv_step : forall s s', ainv s -> gstep ts s s' -> ainv s'.
  Proof.
    intros s s' (gs & HC & HD & HS & HB) H. pose proof (shaped_step s s' HS H) as HS'.
    inversion H as [m st ps i p HR E Est|m st ps i p HR E Est|m st ps i l k E|m st ps i l v p E|m st ps i info E];
      subst; unfold ainv in *; cbn [gstatus gmem fst snd] in *.
    - assert (ps = gs) as -> by (apply shadow_eq; exact HD).
      exists (at_phase i (Running p) gs). split; [apply clean_start; assumption|].
      split; [|split; [assumption|intros X; exfalso; apply X; reflexivity]].
      apply (shadow_upd _ _ _ _ _ _ _ _ HD E); auto.
    - exists gs. split; [assumption|]. split; [|auto].
      pose proof (shadow_at _ _ _ _ _ HD E ltac:(discriminate)) as Eg.
      rewrite <- (at_phase_id gs i _ Eg). apply (shadow_upd _ _ _ _ _ _ _ _ HD E); auto.
      right. repeat split; auto.
    - pose proof (shadow_at _ _ _ _ _ HD E ltac:(discriminate)) as Eg.
      exists (at_phase i (Running (k (m l))) gs). split; [apply clean_read; assumption|].
      split; [|auto]. apply (shadow_upd _ _ _ _ _ _ _ _ HD E); auto.
    - pose proof (shadow_at _ _ _ _ _ HD E ltac:(discriminate)) as Eg.
      exists (at_phase i (Running p) gs). split; [apply (clean_write m gs i l v p); assumption|].
      split; [|auto]. apply (shadow_upd _ _ _ _ _ _ _ _ HD E); auto.
    - pose proof (shadow_at _ _ _ _ _ HD E ltac:(discriminate)) as Eg.
      unfold report. destruct (Z.eqb_spec info 0) as [->|NI].
      + exists (at_phase i Finished gs). split; [apply clean_end0; assumption|].
        split; [|auto]. apply (shadow_upd _ _ _ _ _ _ _ _ HD E); auto.
      + exists gs. split; [assumption|]. split; [|split; [assumption|]].
        * rewrite <- (at_phase_id gs i _ Eg). apply (shadow_upd _ _ _ _ _ _ _ _ HD E); auto.
        * intros _. exists i. split.
          -- rewrite (code_at ts m0 gs m i _ HC Eg). reflexivity.
          -- intros j HP. eapply started_code; eauto. discriminate.
  Qed.

  Lemma ainv_start : ainv (gstart ts m0).
  Proof.
    exists (map (fun t => Waiting (c_body t)) ts). split; [|split; [|split]].
    - split; [apply start_shaped|]. cbn. rewrite map_map. cbn. apply same_refl.
    - split; [reflexivity|]. cbn. intros i p g E1 E2. left. congruence.
    - apply start_shaped.
    - intros X. exfalso. apply X. reflexivity.
  Qed.

  Lemma ainv_steps : forall s, gsteps ts (gstart ts m0) s -> ainv s.
  Proof.
    assert (G : forall s s', gsteps ts s s' -> ainv s -> ainv s').
    { intros s s' H. induction H; auto. intros HI. apply IHgsteps. eapply ainv_step; eauto. }
    intros s H. apply (G _ _ H). apply ainv_start.
  Qed.

  Lemma any_result : forall s, gsteps ts (gstart ts m0) s -> gend s ->
    (gstatus s = 0 /\ Forall (fun c => c = 0) codes /\ meq (gmem s) (fst (crun_all (map c_body ts) m0))) \/
    (gstatus s <> 0 /\ blamed (gstatus s)).
  Proof.
    intros s H HE. destruct (ainv_steps s H) as (gs & HC & HD & HS & HB).
    destruct (Z.eq_dec (gstatus s) 0) as [Z0|Z0]; [left|right; auto].
    rewrite Z0 in HD. apply shadow_eq in HD. subst gs. split; [assumption|].
    destruct HC as [_ [Q1 Q2]]. destruct (rest_finished (snd s) (gmem s) HE) as [R1 R2].
    rewrite R1 in Q1. split; [|exact Q1]. unfold GuardProofs.codes. rewrite <- Q2. exact R2.
  Qed.

  Lemma any_progress : forall s, gsteps ts (gstart ts m0) s -> ~ gend s -> exists s', gstep ts s s'.
  Proof.
    intros s H HE. destruct (ainv_steps s H) as (_ & _ & _ & HS & _). destruct s as [[m st] ps].
    unfold gend in HE. cbn in *.
    assert (F : exists i p, nth_error ps i = Some p /\ p <> Finished /\
      forall j, (j < i)%nat -> nth_error ps j = Some Finished).
    { clear -HE. induction ps as [|p ps IH].
      - exfalso. apply HE. constructor.
      - destruct p as [p|p|].
        + exists O. eexists. split; [reflexivity|]. split; [discriminate|]. intros; lia.
        + exists O. eexists. split; [reflexivity|]. split; [discriminate|]. intros; lia.
        + destruct IH as (i & q & H1 & H2 & H3).
          { intro F. apply HE. constructor; auto. }
          exists (S i), q. repeat split; auto. intros [|j] Hj; [reflexivity|]. apply H3. lia. }
    destruct F as (i & p & Hi & HN & HB).
    destruct p as [p|p|]; [|destruct p as [info|l k|l v p]|congruence].
    - assert (HR : gready ts ps i) by (intros j ti tj Hj _ _ _; apply HB; assumption).
      destruct (Z.eq_dec st PlasmaSuccess).
      + eexists. eapply gs_start; eauto.
      + eexists. eapply gs_skip; eauto.
    - eexists. eapply gs_end; eauto.
    - eexists. eapply gs_read; eauto.
    - eexists. eapply gs_write; eauto.
  Qed.

  Lemma any_frame : forall l, (forall t, In t ts -> ~ cmay_write (c_body t) l) ->
    forall s, gsteps ts (gstart ts m0) s -> gmem s l = m0 l.
  Proof.
    intros l HL s H.
    assert (K : forall s s', shaped (snd s) -> gsteps ts s s' -> gmem s' l = gmem s l).
    { clear s H. intros s s' HI H. induction H as [|s s' s'' H1 H2 IH]; [reflexivity|].
      rewrite IH by (eapply shaped_step; eauto).
      inversion H1 as [| | |m st ps i l0 v p E0|]; subst; cbn; try reflexivity. apply upd_other. intros <-.
      destruct (task_at ts ps i _ HI E0) as (t & Et & _ & W & _).
      apply (HL t); [eapply nth_error_In; eauto|]. apply W. constructor. }
    rewrite (K (gstart ts m0) s (start_shaped ts) H). reflexivity.
  Qed.
End Any.

(* the codes of the tasks, in order, when none of them stops *)
Lemma kcodes_nth : forall V (l1 : list (cktask V)) k l2 m,
  nth_error (kcodes (l1 ++ k :: l2) m) (length l1) = Some (ck_info k (krun (map ck_task l1) m)).
Proof.
  intros V. induction l1 as [|a l1 IH]; intros k l2 m; [reflexivity|]. cbn [length app kcodes nth_error map].
  rewrite IH. reflexivity.
Qed.
Lemma kcodes_len : forall V (ks : list (cktask V)) m, length (kcodes ks m) = length ks.
Proof. intros V. induction ks as [|k ks IH]; intros m; cbn; auto. Qed.

(* code c is that of a task which fails while none of the tasks it waits for does *)
Definition guilty {V} (ks : list (cktask V)) (M : mem V) (c : Z) : Prop :=
  exists l1 k l2, ks = l1 ++ k :: l2 /\ ck_info k (krun (map ck_task l1) M) = c /\
    forall a x b, l1 = a ++ x :: b -> linked (ck_task x) (map ck_task b) (ck_task k) ->
      ck_info x (krun (map ck_task a) M) = 0.

Lemma gregion_intro_any : forall V (ks : list (cktask V)) M (Q : mem V -> Z -> Prop),
  Forall kgood (map ck_task ks) -> Forall cksound ks -> klinked (map ck_task ks) ->
  (forall M' st,
     (st = 0 -> Forall (fun c => c = 0) (kcodes ks M) /\ meq M' (krun (map ck_task ks) M)) ->
     (st <> 0 -> guilty ks M st) ->
     (forall l, (forall k, In k ks -> ~ k_writes (ck_task k) l) -> M' l = M l) -> Q M' st) ->
  gregion_ensures ks M Q.
Proof.
  intros V ks M Q HG HC HK HQ. split.
  - clear -HG HC M. induction ks as [|k ks IH]; [exists []; constructor|].
    inversion HG; subst. inversion HC; subst. destruct IH as [ts IH]; auto.
    destruct (ccanonical_implements (M (0,0)) k) as [t Ht]; auto. exists (t :: ts). constructor; assumption.
  - intros ts s HI HS.
    assert (HIn : forall i t, nth_error ts i = Some t -> exists k, nth_error ks i = Some k /\ cimplements t k)
      by (intros i t E; eapply Forall2_nth2; eauto).
    assert (Hord : forall i j ti tj l, (j < i)%nat ->
      nth_error ts i = Some ti -> nth_error ts j = Some tj ->
      (cmay_write (c_body tj) l /\ (cmay_read (c_body ti) l \/ cmay_write (c_body ti) l)) \/
      (cmay_read (c_body tj) l /\ cmay_write (c_body ti) l) ->
      path (map c_deps ts) j i).
    { intros i j ti tj l L Ei Ej HX.
      destruct (HIn i ti Ei) as (ki & Eki & D1 & R1 & W1 & _).
      destruct (HIn j tj Ej) as (kj & Ekj & D2 & R2 & W2 & _).
      destruct (nth_split2 _ ks j i kj ki L Ekj Eki) as (l1 & l2 & l3 & EK & <- & <-).
      rewrite (cimplements_deps V ts ks HI), EK.
      rewrite (map_app ck_task l1), map_cons, (map_app ck_task l2), map_cons.
      rewrite <- (map_length ck_task l1), <- (map_length ck_task l2). apply linked_path.
      eapply HK.
      - rewrite EK, map_app. cbn [map]. rewrite map_app. reflexivity.
      - exists l. destruct HX as [[A [B|B]]|[A B]]; auto. }
    destruct (implements_codes V ts ks HI HG HC M) as [X1 X2].
    split.
    + intros HE. apply HQ.
      * intros Z0. destruct (any_result ts M Hord s HS HE) as [(_ & A & B)|(A & _)]; [|congruence].
        unfold codes in A. rewrite X2 in A. split; [assumption|]. eapply meq_trans; eauto.
      * intros Z0. destruct (any_result ts M Hord s HS HE) as [(A & _)|(_ & j & A & B)]; [congruence|].
        unfold codes in A, B. rewrite X2 in A, B.
        assert (Lj : (j < length ks)%nat).
        { rewrite <- (kcodes_len V ks M). apply nth_error_Some. congruence. }
        destruct (nth_error ks j) as [k|] eqn:Ek; [|apply nth_error_None in Ek; lia].
        apply nth_error_split in Ek. destruct Ek as (l1 & l2 & EK & <-). exists l1, k, l2.
        split; [assumption|]. rewrite EK, kcodes_nth in A. split; [congruence|].
        intros a x b -> HL. assert (C := B (length a)). rewrite EK in C.
        rewrite <- app_assoc in C. cbn [app] in C. rewrite kcodes_nth in C.
        assert (P : path (map c_deps ts) (length a) (length (a ++ x :: b))).
        { rewrite (cimplements_deps V ts ks HI), EK, <- app_assoc. cbn [app].
          rewrite !map_app, !map_cons, !map_app, map_cons.
          pose proof (linked_path V _ _ _ HL (map ck_task a) (map ck_task l2)) as P.
          rewrite !map_length in P. rewrite app_length. cbn [length].
          rewrite !map_app, !map_cons, !map_app, map_cons in P. exact P. }
        specialize (C P). congruence.
      * intros l HL. apply (any_frame ts M l); auto.
        intros t Ht W. apply In_nth_error in Ht. destruct Ht as [i Ei].
        destruct (HIn i t Ei) as (k & Ek & _ & _ & W1 & _). apply (HL k).
        -- eapply nth_error_In; eauto.
        -- apply W1, W.
    + intros HE. apply (any_progress ts M Hord); auto.
Qed.
