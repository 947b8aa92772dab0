From Coq Require Import ZArith List Bool Lia Relations.
From Verif Require Import TaskModel TaskSpec.
Import ListNotations.
Open Scope Z_scope.

Lemma loc_eqb_spec : forall a b, reflect (a = b) (loc_eqb a b).
Proof.
  intros [a1 a2] [b1 b2]. unfold loc_eqb. cbn.
  destruct (Z.eqb_spec a1 b1); destruct (Z.eqb_spec a2 b2); cbn; constructor; congruence.
Qed.

Lemma loc_dec : forall a b : loc, {a = b} + {a <> b}.
Proof. intros a b. destruct (loc_eqb_spec a b); auto. Qed.

Lemma upd_same : forall V (m : mem V) l v, upd m l v l = v.
Proof. intros. unfold upd. destruct (loc_eqb_spec l l); congruence. Qed.
Lemma upd_other : forall V (m : mem V) l v x, x <> l -> upd m l v x = m x.
Proof. intros. unfold upd. destruct (loc_eqb_spec x l); congruence. Qed.

Lemma meq_refl : forall V (m : mem V), meq m m. Proof. intros V m l. reflexivity. Qed.
Lemma meq_sym : forall V (m m' : mem V), meq m m' -> meq m' m.
Proof. intros V m m' H l. symmetry. apply H. Qed.
Lemma meq_trans : forall V (a b c : mem V), meq a b -> meq b c -> meq a c.
Proof. intros V a b c H H' l. rewrite H. apply H'. Qed.
Lemma upd_meq : forall V (m m' : mem V) l v, meq m m' -> meq (upd m l v) (upd m' l v).
Proof. intros V m m' l v H x. unfold upd. destruct (loc_eqb x l); auto. Qed.

Lemma run_meq : forall V (p : prog V) m m', meq m m' -> meq (run p m) (run p m').
Proof.
  intros V. induction p as [|l k IH|l v p IH|p IH]; intros m m' H; cbn.
  - exact H.
  - rewrite (H l). apply IH; exact H.
  - apply IH. apply upd_meq; exact H.
  - apply IH; exact H.
Qed.

Lemma run_all_meq : forall V (ps : list (prog V)) m m', meq m m' -> meq (run_all ps m) (run_all ps m').
Proof.
  intros V. induction ps as [|p ps IH]; intros m m' H; cbn; [exact H|].
  apply IH, run_meq, H.
Qed.

(* a body leaves alone what it cannot write *)
Lemma run_frame : forall V (p : prog V) m l, ~ may_write p l -> run p m l = m l.
Proof.
  intros V. induction p as [|l0 k IH|l0 v p IH|p IH]; intros m l H; cbn.
  - reflexivity.
  - apply IH. intro W. apply H. econstructor; eauto.
  - rewrite IH. apply upd_other. intros ->. apply H. constructor.
    intro W. apply H. constructor; auto.
  - apply IH. intro W. apply H. constructor; auto.
Qed.

(* changing a location the body does not touch commutes with the body *)
Lemma run_upd : forall V (p : prog V) m l v, ~ may_read p l -> ~ may_write p l ->
  meq (run p (upd m l v)) (upd (run p m) l v).
Proof.
  intros V. induction p as [|l0 k IH|l0 w p IH|p IH]; intros m l v HR HW; cbn.
  - apply meq_refl.
  - rewrite upd_other by (intros ->; apply HR; constructor).
    apply IH; intro H; [apply HR|apply HW]; econstructor; eauto.
  - eapply meq_trans; [|apply IH].
    + apply run_meq. intro x. unfold upd.
      destruct (loc_eqb_spec x l); destruct (loc_eqb_spec x l0); auto.
      subst. exfalso. apply HW. constructor.
    + intro H; apply HR; constructor; auto.
    + intro H; apply HW; constructor; auto.
  - apply IH; intro H; [apply HR|apply HW]; constructor; auto.
Qed.

(* the result of a body depends only on what it may read, and on the old value where
   nothing is written *)
Lemma run_local : forall V (p : prog V) m m' (S : loc -> Prop),
  (forall l, may_read p l -> S l) -> (forall l, S l -> m l = m' l) ->
  forall l, S l -> run p m l = run p m' l.
Proof.
  intros V. induction p as [|l0 k IH|l0 v p IH|p IH]; intros m m' S HR HS l Hl; cbn.
  - auto.
  - rewrite (HS l0) by (apply HR; constructor). apply IH with (S := S); auto.
    intros l' H'. apply HR. econstructor; eauto.
  - apply IH with (S := S); auto.
    + intros l' H'. apply HR. constructor; auto.
    + intros l' H'. unfold upd. destruct (loc_eqb l' l0); auto.
  - apply IH with (S := S); auto. intros l' H'. apply HR. constructor; auto.
Qed.

(* paths between tasks, by position; D lists the depend clauses of the tasks *)
Inductive path (D : list (list dep)) : nat -> nat -> Prop :=
| p_one : forall i j di dj, (i < j)%nat -> nth_error D i = Some di -> nth_error D j = Some dj ->
    deps_order di dj -> path D i j
| p_two : forall i j k, path D i j -> path D j k -> path D i k.

Lemma nth_split2 : forall A (l : list A) i j a b, (i < j)%nat ->
  nth_error l i = Some a -> nth_error l j = Some b ->
  exists l1 l2 l3, l = l1 ++ a :: l2 ++ b :: l3 /\ length l1 = i /\ (i + S (length l2))%nat = j.
Proof.
  intros A l i j a b L Ea Eb. apply nth_error_split in Ea. destruct Ea as (l1 & r & -> & Hi).
  rewrite nth_error_app2 in Eb by lia. rewrite Hi in Eb.
  replace (j - i)%nat with (S (j - i - 1)) in Eb by lia. cbn in Eb.
  apply nth_error_split in Eb. destruct Eb as (l2 & l3 & -> & H2).
  exists l1, l2, l3. split; [reflexivity|]. split; [assumption|lia].
Qed.

Lemma linked_path : forall V (a : ktask V) l b, linked a l b ->
  forall l1 l3, path (map k_deps (l1 ++ a :: l ++ b :: l3)) (length l1) (length l1 + S (length l)).
Proof.
  intros V a l b HL. induction HL as [a l b D|a x1 c x2 b H1 IH1 H2 IH2]; intros l1 l3.
  - apply (p_one _ _ _ (k_deps a) (k_deps b)); [lia| | |assumption]; rewrite nth_error_map.
    + rewrite nth_error_app2, Nat.sub_diag by lia. reflexivity.
    + rewrite nth_error_app2 by lia.
      replace (length l1 + S (length l) - length l1)%nat with (S (length l)) by lia. cbn.
      rewrite nth_error_app2, Nat.sub_diag by lia. reflexivity.
  - replace (length l1 + S (length (x1 ++ c :: x2)))%nat
      with ((length l1 + S (length x1)) + S (length x2))%nat by (rewrite app_length; cbn; lia).
    eapply p_two.
    + specialize (IH1 l1 (x2 ++ b :: l3)). rewrite <- app_assoc. exact IH1.
    + specialize (IH2 (l1 ++ a :: x1) l3). rewrite <- !app_assoc in *. cbn in *.
      replace (length l1 + S (length x1))%nat with (length (l1 ++ a :: x1)) by (rewrite app_length; cbn; lia).
      exact IH2.
Qed.

Section Region.
  Context {V : Type}.
  Variable ts : list (task V).

  (* what is left of a task touches no more than the task did *)
  Definition residual (p q : prog V) : Prop :=
    (forall l, may_read p l -> may_read q l) /\ (forall l, may_write p l -> may_write q l).

  Definition consistent (ps : list (prog V)) : Prop :=
    Forall2 (fun p t => residual p (t_body t)) ps ts.

  Lemma run_all_app : forall (a b : list (prog V)) m, run_all (a ++ b) m = run_all b (run_all a m).
  Proof. induction a as [|p a IH]; intros b m; cbn; auto. Qed.

  Lemma run_all_frame : forall (ps : list (prog V)) m l,
    Forall (fun p => ~ may_write p l) ps -> run_all ps m l = m l.
  Proof.
    induction ps as [|p ps IH]; intros m l H; cbn; [reflexivity|].
    inversion H; subst. rewrite IH by assumption. apply run_frame; assumption.
  Qed.

  Lemma run_all_upd : forall (ps : list (prog V)) m l v,
    Forall (fun p => ~ may_read p l /\ ~ may_write p l) ps ->
    meq (run_all ps (upd m l v)) (upd (run_all ps m) l v).
  Proof.
    induction ps as [|p ps IH]; intros m l v H; cbn; [apply meq_refl|].
    inversion H; subst. eapply meq_trans; [|apply IH; assumption].
    apply run_all_meq. apply run_upd; tauto.
  Qed.

  Lemma split_nth : forall (ps : list (prog V)) i p, nth_error ps i = Some p ->
    ps = firstn i ps ++ p :: skipn (S i) ps.
  Proof.
    induction ps as [|q ps IH]; intros [|i] p H; cbn in *; try discriminate.
    - congruence.
    - f_equal. apply IH; assumption.
  Qed.

  Lemma firstn_nth : forall (ps : list (prog V)) i j p,
    nth_error (firstn i ps) j = Some p -> (j < i)%nat /\ nth_error ps j = Some p.
  Proof.
    induction ps as [|q ps IH]; intros [|i] [|j] p H; cbn in *; try discriminate.
    - split; [lia|assumption].
    - apply IH in H. destruct H. split; [lia|assumption].
  Qed.

  Lemma Forall_nth : forall (P : prog V -> Prop) ps,
    (forall j p, nth_error ps j = Some p -> P p) -> Forall P ps.
  Proof.
    induction ps as [|p ps IH]; intros H; constructor.
    - apply (H O); reflexivity.
    - apply IH. intros j q Hj. apply (H (S j)); assumption.
  Qed.

  Lemma Forall2_nth : forall ps, consistent ps -> forall j p, nth_error ps j = Some p ->
    exists t, nth_error ts j = Some t /\ residual p (t_body t).
  Proof.
    unfold consistent. generalize ts. intros l ps H.
    induction H as [|p t ps l R F IH]; intros [|j] q Hj; cbn in *; try discriminate.
    - injection Hj as <-. eauto.
    - apply IH; assumption.
  Qed.

  Lemma consistent_replace : forall ps i p p', consistent ps -> nth_error ps i = Some p ->
    residual p' p -> consistent (firstn i ps ++ p' :: skipn (S i) ps).
  Proof.
    unfold consistent. generalize ts. intros l ps i p p' H. revert i.
    induction H as [|q t ps l R F IH]; intros [|i] Hi HR; cbn in *; try discriminate.
    - injection Hi as ->. constructor; auto. destruct HR, R. split; auto.
    - constructor; auto.
  Qed.

  (* a task has started only after those it waits for have finished *)
  Definition shaped (ps : list (prog V)) : Prop :=
    forall i j ti tj, (j < i)%nat -> nth_error ts i = Some ti -> nth_error ts j = Some tj ->
      deps_order (t_deps tj) (t_deps ti) -> nth_error ps i <> Some (Tick (t_body ti)) ->
      nth_error ps j = Some Done.

  Lemma replace_same : forall (ps : list (prog V)) i p p', nth_error ps i = Some p ->
    nth_error (firstn i ps ++ p' :: skipn (S i) ps) i = Some p'.
  Proof.
    induction ps as [|q ps IH]; intros [|i] p p' H; cbn in *; try discriminate; auto. eapply IH; eauto.
  Qed.
  Lemma replace_other : forall (ps : list (prog V)) i j p p', nth_error ps i = Some p -> i <> j ->
    nth_error (firstn i ps ++ p' :: skipn (S i) ps) j = nth_error ps j.
  Proof.
    induction ps as [|q ps IH]; intros [|i] [|j] p p' H HN; cbn in *; try discriminate; auto; try lia.
    eapply IH; eauto.
  Qed.

  Lemma shaped_replace : forall ps i p p', shaped ps -> nth_error ps i = Some p -> p <> Done ->
    ready ts ps i -> shaped (firstn i ps ++ p' :: skipn (S i) ps).
  Proof.
    intros ps i p p' HS Hi HP HR a b ta tb L Ea Eb D Ha.
    inversion HR as [ps0 i0 HD]; subst.
    assert (K : nth_error ps b = Some Done).
    { destruct (Nat.eq_dec i a) as [<-|HN].
      - eapply HD; eauto.
      - rewrite (replace_other ps i a p p' Hi HN) in Ha. eapply (HS a b); eauto. }
    rewrite (replace_other ps i b p p' Hi); [assumption|]. intros <-. congruence.
  Qed.

  (* every predecessor along a path has finished *)
  Lemma path_done : forall ps, shaped ps -> forall i j, path (map t_deps ts) i j ->
    forall tj, nth_error ts j = Some tj -> nth_error ps j <> Some (Tick (t_body tj)) ->
    nth_error ps i = Some Done.
  Proof.
    intros ps HS i j HP. induction HP as [i j di dj L Ei Ej D|i j k H1 IH1 H2 IH2]; intros tj Et HN.
    - rewrite nth_error_map in Ei, Ej. rewrite Et in Ej. cbn in Ej. injection Ej as <-.
      destruct (nth_error ts i) as [ti|] eqn:Eti; [|discriminate]. cbn in Ei. injection Ei as <-.
      eapply (HS j i); eauto.
    - specialize (IH2 tj Et HN).
      assert (T : exists t, nth_error ts j = Some t).
      { clear -H1. induction H1 as [i j di dj L Ei Ej D|i j k H1 IH1 H2 IH2]; [|assumption].
        rewrite nth_error_map in Ej. destruct (nth_error ts j); [eauto|discriminate]. }
      destruct T as [t Et']. apply (IH1 t Et'). rewrite IH2. discriminate.
  Qed.

  (* every conflict is ordered by depend clauses, directly or through other tasks *)
  Hypothesis Hord : forall i j ti tj, (j < i)%nat ->
    nth_error ts i = Some ti -> nth_error ts j = Some tj ->
    conflict (t_body tj) (t_body ti) -> path (map t_deps ts) j i.

  (* tasks before a ready one that could still interfere have finished *)
  Lemma earlier_quiet : forall ps i p l, consistent ps -> shaped ps -> nth_error ps i = Some p ->
    (forall q, p <> Tick q) ->
    (may_write p l -> Forall (fun q => ~ may_read q l /\ ~ may_write q l) (firstn i ps)) /\
    (may_read p l -> Forall (fun q => ~ may_write q l) (firstn i ps)).
  Proof.
    intros ps i p l HC HS Hi HR.
    destruct (Forall2_nth ps HC i p Hi) as (ti & Eti & Rp & Wp).
    assert (Q : forall j q, nth_error (firstn i ps) j = Some q ->
       (may_write p l /\ (may_read q l \/ may_write q l)) \/ (may_read p l /\ may_write q l) -> False).
    { intros j q Hj HX. apply firstn_nth in Hj. destruct Hj as [Lj Hj].
      destruct (Forall2_nth ps HC j q Hj) as (tj & Etj & Rq & Wq).
      assert (D : path (map t_deps ts) j i).
      { apply (Hord i j ti tj); auto. exists l.
        destruct HX as [[A [B|B]]|[A B]]; auto. }
      assert (HD : nth_error ps j = Some Done).
      { eapply path_done; eauto. rewrite Hi. intro X. injection X as X. eapply HR; eauto. }
      rewrite HD in Hj. injection Hj as <-.
      destruct HX as [[A [B|B]]|[A B]]; inversion B. }
    split; intro H; apply Forall_nth; intros j q Hj.
    - split; intro X; apply (Q j q Hj); tauto.
    - intro X; apply (Q j q Hj); tauto.
  Qed.

  (* the memory reached by finishing everything in submission order never changes *)
  Lemma step_seq : forall m ps m' ps', consistent ps -> shaped ps -> step ts (m, ps) (m', ps') ->
    consistent ps' /\ shaped ps' /\ meq (run_all ps' m') (run_all ps m).
  Proof.
    intros m ps m' ps' HC HH HS.
    inversion HS as [m0 ps0 i l k HR Hi|m0 ps0 i l v p HR Hi|m0 ps0 i p HR Hi]; subst.
    - assert (E := split_nth ps i _ Hi).
      split; [|split; [eapply shaped_replace; eauto; discriminate|]].
      + eapply consistent_replace; eauto. split; intros x Hx; econstructor; eauto.
      + rewrite E at 3. rewrite !run_all_app. cbn. 
        destruct (earlier_quiet ps i _ l HC HH Hi) as [_ Q]; [discriminate|].
        rewrite run_all_frame by (apply Q; constructor). apply meq_refl.
    - assert (E := split_nth ps i _ Hi).
      split; [|split; [eapply shaped_replace; eauto; discriminate|]].
      + eapply consistent_replace; eauto. split; intros x Hx; constructor; auto.
      + rewrite E at 3. rewrite !run_all_app. cbn.
        destruct (earlier_quiet ps i _ l HC HH Hi) as [Q _]; [discriminate|].
        apply run_all_meq, run_meq. apply run_all_upd. apply Q. constructor.
    - assert (E := split_nth ps i _ Hi).
      split; [|split; [eapply shaped_replace; eauto; discriminate|]].
      + eapply consistent_replace; eauto. split; intros x Hx; constructor; auto.
      + rewrite E at 3. rewrite !run_all_app. cbn. apply meq_refl.
  Qed.

  Lemma start_consistent : consistent (map (fun t => Tick (t_body t)) ts).
  Proof.
    unfold consistent. clear Hord. induction ts as [|t l IH]; cbn; constructor; auto.
    split; intros x H; inversion H; assumption.
  Qed.

  Lemma start_shaped : shaped (map (fun t => Tick (t_body t)) ts).
  Proof.
    intros i j ti tj L Ei Ej D H. exfalso. apply H. rewrite nth_error_map, Ei. reflexivity.
  Qed.

  Lemma start_run : forall m, run_all (map (fun t => Tick (t_body t)) ts) m = run_all (map t_body ts) m.
  Proof. clear Hord. induction ts as [|t l IH]; intros m; cbn; auto. Qed.

  Lemma steps_seq : forall s s', consistent (snd s) -> shaped (snd s) -> steps ts s s' ->
    consistent (snd s') /\ meq (run_all (snd s') (fst s')) (run_all (snd s) (fst s)).
  Proof.
    intros s s' HC HH H. induction H as [s|[m ps] [m' ps'] s'' H1 H2 IH].
    - split; [assumption|apply meq_refl].
    - apply step_seq in H1; [|exact HC|exact HH]. destruct H1 as (C1 & S1 & E1).
      destruct (IH C1 S1) as [C2 E2]. split; [assumption|]. eapply meq_trans; eauto.
  Qed.

  Lemma run_all_done : forall (ps : list (prog V)) m, Forall (fun p => p = Done) ps ->
    run_all ps m = m.
  Proof. induction ps as [|p ps IH]; intros m H; cbn; auto. inversion H; subst. apply IH; auto. Qed.

  Lemma region_deterministic : forall m s, steps ts (region_start ts m) s -> region_end s ->
    meq (fst s) (run_all (map t_body ts) m).
  Proof.
    intros m s H HE. apply steps_seq in H; [|apply start_consistent|apply start_shaped].
    destruct H as [_ H]. rewrite run_all_done in H by exact HE. cbn [region_start fst snd] in H.
    rewrite start_run in H. exact H.
  Qed.

  (* some task can always go on *)
  Lemma region_progress : forall m s, steps ts (region_start ts m) s -> ~ region_end s ->
    exists s', step ts s s'.
  Proof.
    intros m s H HE. apply steps_seq in H; [|apply start_consistent|apply start_shaped].
    destruct H as [HC _]. destruct s as [m' ps]. cbn in *.
    assert (F : exists i p, nth_error ps i = Some p /\ p <> Done /\
      forall j, (j < i)%nat -> nth_error ps j = Some Done).
    { clear -HE. induction ps as [|p ps IH].
      - exfalso. apply HE. constructor.
      - destruct p as [|l k|l v p|p].
        + destruct IH as (i & q & H1 & H2 & H3).
          { intro F. apply HE. constructor; auto. }
          exists (S i), q. repeat split; auto. intros [|j] Hj; [reflexivity|]. apply H3. lia.
        + exists O. eexists. split; [reflexivity|]. split; [discriminate|]. intros; lia.
        + exists O. eexists. split; [reflexivity|]. split; [discriminate|]. intros; lia.
        + exists O. eexists. split; [reflexivity|]. split; [discriminate|]. intros; lia. }
    destruct F as (i & p & Hi & HD & HB).
    assert (HR : ready ts ps i).
    { constructor. intros j ti tj Hj _ _ _. apply HB; assumption. }
    destruct p as [|l k|l v p|p]; [congruence| | |].
    - eexists. eapply step_read; eauto.
    - eexists. eapply step_write; eauto.
    - eexists. eapply step_tick; eauto.
  Qed.
End Region.

(* no execution goes on forever *)
Inductive sub_prog {V} : prog V -> prog V -> Prop :=
| sub_read : forall l k v, sub_prog (k v) (Read l k)
| sub_write : forall l v p, sub_prog p (Write l v p)
| sub_tick : forall p, sub_prog p (Tick p).

Lemma sub_prog_wf : forall V, well_founded (@sub_prog V).
Proof.
  intros V p. induction p as [|l k IH|l v p IH|p IH]; constructor; intros q H; inversion H; subst; auto.
Qed.

Inductive sub_list {V} : list (prog V) -> list (prog V) -> Prop :=
| sl_intro : forall a p q b, sub_prog p q -> sub_list (a ++ p :: b) (a ++ q :: b).

Lemma sub_list_cons : forall V (p : prog V), forall ps, Acc sub_list ps -> Acc sub_list (p :: ps).
Proof.
  intros V p. induction p as [p IHp] using (well_founded_induction (sub_prog_wf V)).
  intros ps H. induction H as [ps H IH].
  constructor. intros qs HQ. inversion HQ as [a p' q b Hs E1 E2].
  destruct a as [|x a]; cbn in *.
  - injection E2 as -> ->. subst. apply IHp; auto. constructor; auto.
  - injection E2 as -> E2. subst. apply IH. constructor; auto.
Qed.

Lemma sub_list_wf : forall V, well_founded (@sub_list V).
Proof.
  intros V ps. induction ps as [|p ps IH].
  - constructor. intros qs H. inversion H as [a p q b Hs E1 E2]. destruct a; discriminate.
  - apply sub_list_cons; assumption.
Qed.

Lemma step_sub : forall V (ts : list (task V)) s s', step ts s s' -> sub_list (snd s') (snd s).
Proof.
  intros V ts s s' H.
  inversion H as [m ps i l k HR Hi|m ps i l v p HR Hi|m ps i p HR Hi]; subst; cbn [snd].
  - rewrite (split_nth ps i _ Hi) at 3. constructor. constructor.
  - rewrite (split_nth ps i _ Hi) at 3. constructor. constructor.
  - rewrite (split_nth ps i _ Hi) at 3. constructor. constructor.
Qed.

Lemma region_terminates : forall V (ts : list (task V)),
  well_founded (fun s' s => step ts s s').
Proof.
  intros V ts [m ps].
  assert (A := sub_list_wf V ps). revert m.
  induction A as [ps A IH]. intros m. constructor. intros [m' ps'] H.
  apply IH. apply step_sub in H. exact H.
Qed.

Lemma korders_nth : forall V (ks : list (ktask V)), korders ks ->
  forall i j a b, (j < i)%nat -> nth_error ks i = Some a -> nth_error ks j = Some b ->
  kconflict b a -> deps_order (k_deps b) (k_deps a).
Proof.
  intros V ks H. induction H as [|k ks HK H IH]; intros [|i] [|j] a b Hij Ha Hb HC; cbn in *; try discriminate; try lia.
  - injection Hb as <-. apply HK; auto. eapply nth_error_In; eauto.
  - eapply (IH i j); eauto. lia.
Qed.

Lemma Forall2_nth2 : forall A B (P : A -> B -> Prop) l l', Forall2 P l l' ->
  forall i a, nth_error l i = Some a -> exists b, nth_error l' i = Some b /\ P a b.
Proof.
  intros A B P l l' H. induction H as [|x y l l' HP H IH]; intros [|i] a E; cbn in *; try discriminate.
  - injection E as <-. eauto.
  - eauto.
Qed.

Lemma korders_klinked : forall V (ks : list (ktask V)), korders ks -> klinked ks.
Proof.
  intros V ks HK l1 a l2 b l3 E HC. apply ln_direct.
  apply (korders_nth _ ks HK (length l1 + S (length l2)) (length l1)); [lia| | |assumption]; subst ks.
  - rewrite nth_error_app2 by lia.
    replace (length l1 + S (length l2) - length l1)%nat with (S (length l2)) by lia. cbn.
    rewrite nth_error_app2, Nat.sub_diag by lia. reflexivity.
  - rewrite nth_error_app2, Nat.sub_diag by lia. reflexivity.
Qed.

Lemma ordered_path : forall V (ts : list (task V)), ordered ts -> forall i j ti tj, (j < i)%nat ->
  nth_error ts i = Some ti -> nth_error ts j = Some tj ->
  conflict (t_body tj) (t_body ti) -> path (map t_deps ts) j i.
Proof.
  intros V ts HO i j ti tj L Ei Ej HC. apply (p_one _ _ _ (t_deps tj) (t_deps ti)); auto.
  - rewrite nth_error_map, Ej. reflexivity.
  - rewrite nth_error_map, Ei. reflexivity.
  - eapply HO; eauto.
Qed.

Lemma implements_deps : forall V (ts : list (task V)) ks,
  Forall2 implements ts ks -> map t_deps ts = map k_deps ks.
Proof.
  intros V ts ks H. induction H as [|t k ts ks (E & _) H IH]; cbn; [reflexivity|]. rewrite E, IH. reflexivity.
Qed.

Lemma implements_linked : forall V (ts : list (task V)) ks,
  Forall2 implements ts ks -> klinked ks -> forall i j ti tj, (j < i)%nat ->
  nth_error ts i = Some ti -> nth_error ts j = Some tj ->
  conflict (t_body tj) (t_body ti) -> path (map t_deps ts) j i.
Proof.
  intros V ts ks HI HK i j ti tj Hij Ei Ej [l HC].
  destruct (Forall2_nth2 _ _ _ _ _ HI i ti Ei) as (ki & Eki & D1 & R1 & W1 & _).
  destruct (Forall2_nth2 _ _ _ _ _ HI j tj Ej) as (kj & Ekj & D2 & R2 & W2 & _).
  destruct (nth_split2 _ ks j i kj ki Hij Ekj Eki) as (l1 & l2 & l3 & EK & <- & <-).
  rewrite (implements_deps V ts ks HI), EK. apply linked_path. eapply HK; eauto.
  exists l. destruct HC as [[A [B|B]]|[A B]]; auto.
Qed.

Lemma implements_run : forall V (ts : list (task V)) ks, Forall2 implements ts ks ->
  forall m, meq (run_all (map t_body ts) m) (krun ks m).
Proof.
  intros V ts ks H. induction H as [|t k ts ks (_&_&_&E) H IH]; intros m; cbn.
  - apply meq_refl.
  - eapply meq_trans; [apply run_all_meq, E|]. apply IH.
Qed.

Lemma kregion_deterministic : forall V (ts : list (task V)) ks m s,
  Forall2 implements ts ks -> klinked ks ->
  steps ts (region_start ts m) s -> region_end s ->
  meq (fst s) (krun ks m).
Proof.
  intros V ts ks m s HI HK HS HE.
  eapply meq_trans; [|apply implements_run; eassumption].
  eapply region_deterministic; eauto. eapply implements_linked; eauto.
Qed.

Lemma kregion_progress : forall V (ts : list (task V)) ks m s,
  Forall2 implements ts ks -> klinked ks ->
  steps ts (region_start ts m) s -> ~ region_end s -> exists s', step ts s s'.
Proof.
  intros V ts ks m s HI HK HS HE.
  eapply region_progress; eauto. eapply implements_linked; eauto.
Qed.


(* ------------------------------------------------------------------ *)
Lemma write_all_run : forall V (ws : list loc) (f : mem V) m l,
  run (write_all ws f Done) m l = if existsb (loc_eqb l) ws then f l else m l.
Proof.
  intros V ws f. induction ws as [|w ws IH]; intros m l; cbn; [reflexivity|].
  rewrite IH. unfold upd. destruct (loc_eqb_spec l w); cbn; [|reflexivity].
  subst. destruct (existsb _ ws); reflexivity.
Qed.

Lemma write_all_writes : forall V (ws : list loc) (f : mem V) l,
  may_write (write_all ws f Done) l -> In l ws.
Proof.
  intros V ws f. induction ws as [|w ws IH]; intros l H; cbn in *; inversion H; subst; auto.
Qed.

Lemma write_all_reads : forall V (ws : list loc) (f : mem V) l,
  may_read (write_all ws f Done) l -> False.
Proof.
  intros V ws f. induction ws as [|w ws IH]; intros l H; cbn in *; inversion H; subst; eauto.
Qed.

Lemma read_all_run : forall V (rs : list loc) env k (m : mem V),
  (forall x v, In (x, v) env -> v = m x) ->
  exists env', run (read_all rs env k) m = run (k env') m /\
    (forall x v, In (x, v) env' -> v = m x) /\
    (forall x, In x rs \/ In x (map fst env) -> In x (map fst env')).
Proof.
  intros V. induction rs as [|r rs IH]; intros env k m HE; cbn.
  - exists env. repeat split; auto. intros x [[]|H]; auto.
  - destruct (IH ((r, m r) :: env) k m) as (env' & E1 & E2 & E3).
    { intros x v [H|H]; [injection H as <- <-; reflexivity|auto]. }
    exists env'. repeat split; auto. intros x [[->|H]|H]; apply E3; cbn; auto.
Qed.

Lemma read_all_reads : forall V (rs : list loc) env (k : list (loc * V) -> prog V) l (d : V),
  may_read (read_all rs env k) l -> In l rs \/ exists env', may_read (k env') l.
Proof.
  intros V. induction rs as [|r rs IH]; intros env k l d H; cbn in *.
  - eauto.
  - inversion H as [|? ? ? ? H2| |]; subst; auto. apply IH in H2; auto. destruct H2 as [H2|H2]; auto.
Qed.

Lemma read_all_writes : forall V (rs : list loc) env (k : list (loc * V) -> prog V) l,
  may_write (read_all rs env k : prog V) l -> exists env', may_write (k env') l.
Proof.
  intros V. induction rs as [|r rs IH]; intros env k l H; cbn in *.
  - eauto.
  - inversion H; subst. eapply IH; eauto.
Qed.

Lemma lookup_env : forall V (env : list (loc * V)) d m x,
  (forall y v, In (y, v) env -> v = m y) -> In x (map fst env) -> lookup env d x = m x.
Proof.
  intros V env d m x HE. induction env as [|[y v] env IH]; cbn; intro HI; [tauto|].
  destruct (loc_eqb_spec x y).
  - subst. apply HE. left. reflexivity.
  - apply IH; [|destruct HI; congruence || assumption]. intros; apply HE; right; assumption.
Qed.

Lemma canonical_implements : forall V (d : V) (k : ktask V) rs ws,
  (forall l, In l rs -> k_reads k l) -> (forall l, In l ws -> k_writes k l) ->
  (forall m l, ~ In l ws -> k_fun k m l = m l) ->
  (forall m m' l, (forall x, In x rs -> m x = m' x) -> In l ws -> k_fun k m l = k_fun k m' l) ->
  implements (mktask (k_deps k) (canonical d (k_fun k) rs ws)) k.
Proof.
  intros V d k rs ws HR HW HF HL. unfold implements, canonical. cbn.
  split; [reflexivity|]. split; [|split].
  - intros l H. apply read_all_reads in H; [|exact d]. destruct H as [H|[env H]]; auto.
    apply write_all_reads in H. tauto.
  - intros l H. apply read_all_writes in H. destruct H as [env H].
    apply write_all_writes in H. auto.
  - intros m l.
    destruct (read_all_run V rs nil (fun env => write_all ws (k_fun k (lookup env d)) Done) m)
      as (env & E1 & E2 & E3); [cbn; tauto|].
    rewrite E1, write_all_run.
    destruct (existsb (loc_eqb l) ws) eqn:EX.
    + apply existsb_exists in EX. destruct EX as (x & Hx & Ex).
      destruct (loc_eqb_spec l x); [|discriminate]. subst.
      apply HL; auto. intros y Hy. apply lookup_env; auto.
    + symmetry. apply HF. intro Hl. 
      assert (existsb (loc_eqb l) ws = true); [|congruence].
      apply existsb_exists. exists l. split; auto. destruct (loc_eqb_spec l l); congruence.
Qed.

(* ------------------------------------------------------------------ *)
Lemma declared_ordered : forall V (tile : loc -> loc) (ts : list (task V)),
  Forall (declares tile) ts -> ordered ts.
Proof.
  intros V tile ts H i j ti tj _ Ei Ej [l HC].
  rewrite Forall_forall in H.
  destruct (H ti (nth_error_In _ _ Ei)) as [Ri Wi].
  destruct (H tj (nth_error_In _ _ Ej)) as [Rj Wj].
  destruct HC as [[A [B|B]]|[A B]].
  - destruct (Wj l A) as (d & D1 & D2 & D3). destruct (Ri l B) as (d' & D1' & D2').
    exists d, d'. repeat split; auto; try congruence. tauto.
  - destruct (Wj l A) as (d & D1 & D2 & D3). destruct (Wi l B) as (d' & D1' & D2' & D3').
    exists d, d'. repeat split; auto; try congruence. tauto.
  - destruct (Rj l A) as (d & D1 & D2). destruct (Wi l B) as (d' & D1' & D2' & D3').
    exists d, d'. repeat split; auto; try congruence. tauto.
Qed.
