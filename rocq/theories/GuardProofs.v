(* Regions whose tasks may fail: the status is determined, and so is the memory when
   nothing failed. *)
From Coq Require Import ZArith List Bool Lia Arith.
From Verif Require Import Base DescModel TaskModel TaskSpec TaskProofs MatProofs RegionProofs
  GuardModel GuardSpec.
Import ListNotations.
Open Scope Z_scope.

(* ------------------------------------------------------------------ *)
(* bodies *)

Lemma crun_meq : forall V (p : cprog V) m m', meq m m' ->
  meq (fst (crun p m)) (fst (crun p m')) /\ snd (crun p m) = snd (crun p m').
Proof.
  intros V. induction p as [i|l k IH|l v p IH]; intros m m' H; cbn.
  - auto.
  - rewrite (H l). apply IH; exact H.
  - apply IH. apply upd_meq; exact H.
Qed.

Lemma crun_frame : forall V (p : cprog V) m l, ~ cmay_write p l -> fst (crun p m) l = m l.
Proof.
  intros V. induction p as [i|l0 k IH|l0 v p IH]; intros m l H; cbn.
  - reflexivity.
  - apply IH. intro W. apply H. econstructor; eauto.
  - rewrite IH. apply upd_other. intros ->. apply H. constructor.
    intro W. apply H. constructor; auto.
Qed.

Lemma crun_upd : forall V (p : cprog V) m l v, ~ cmay_read p l -> ~ cmay_write p l ->
  meq (fst (crun p (upd m l v))) (upd (fst (crun p m)) l v) /\
  snd (crun p (upd m l v)) = snd (crun p m).
Proof.
  intros V. induction p as [i|l0 k IH|l0 w p IH]; intros m l v HR HW; cbn.
  - split; [apply meq_refl|reflexivity].
  - rewrite upd_other by (intros ->; apply HR; constructor).
    apply IH; intro H; [apply HR|apply HW]; econstructor; eauto.
  - assert (HN : l <> l0) by (intros ->; apply HW; constructor).
    assert (E : meq (upd (upd m l v) l0 w) (upd (upd m l0 w) l v)).
    { intro x. unfold upd.
      destruct (loc_eqb_spec x l); destruct (loc_eqb_spec x l0); auto. congruence. }
    destruct (crun_meq V p _ _ E) as [E1 E2].
    destruct (IH (upd m l0 w) l v) as [I1 I2].
    + intro H; apply HR; constructor; auto.
    + intro H; apply HW; constructor; auto.
    + split; [eapply meq_trans; eauto|congruence].
Qed.

Lemma crun_end : forall V (p : cprog V) m, cmay_end p (snd (crun p m)).
Proof.
  intros V. induction p as [i|l k IH|l v p IH]; intros m; cbn.
  - constructor.
  - econstructor. apply IH.
  - constructor. apply IH.
Qed.

(* finishing a list of bodies one after the other: memory and codes *)
Fixpoint crun_all {V} (ps : list (cprog V)) (m : mem V) : mem V * list Z :=
  match ps with
  | [] => (m, [])
  | p :: ps' => let r := crun_all ps' (fst (crun p m)) in (fst r, snd (crun p m) :: snd r)
  end.

Definition same {V} (a b : mem V * list Z) : Prop := meq (fst a) (fst b) /\ snd a = snd b.
Lemma same_refl : forall V (a : mem V * list Z), same a a.
Proof. intros. split; [apply meq_refl|reflexivity]. Qed.
Lemma same_trans : forall V (a b c : mem V * list Z), same a b -> same b c -> same a c.
Proof. intros V a b c [H1 H2] [H3 H4]. split; [eapply meq_trans; eauto|congruence]. Qed.

Lemma crun_all_meq : forall V (ps : list (cprog V)) m m', meq m m' ->
  same (crun_all ps m) (crun_all ps m').
Proof.
  intros V. induction ps as [|p ps IH]; intros m m' H; cbn; [split; cbn; auto|].
  destruct (crun_meq V p m m' H) as [E1 E2]. destruct (IH _ _ E1) as [F1 F2].
  split; cbn; [exact F1|congruence].
Qed.

Lemma crun_all_app : forall V (a b : list (cprog V)) m,
  crun_all (a ++ b) m = (fst (crun_all b (fst (crun_all a m))),
                         snd (crun_all a m) ++ snd (crun_all b (fst (crun_all a m)))).
Proof.
  intros V. induction a as [|p a IH]; intros b m; cbn.
  - apply surjective_pairing.
  - rewrite IH. reflexivity.
Qed.

Lemma crun_all_frame : forall V (ps : list (cprog V)) m l,
  Forall (fun p => ~ cmay_write p l) ps -> fst (crun_all ps m) l = m l.
Proof.
  intros V. induction ps as [|p ps IH]; intros m l H; cbn; [reflexivity|].
  inversion H; subst. rewrite IH by assumption. apply crun_frame; assumption.
Qed.

Lemma crun_all_upd : forall V (ps : list (cprog V)) m l v,
  Forall (fun p => ~ cmay_read p l /\ ~ cmay_write p l) ps ->
  meq (fst (crun_all ps (upd m l v))) (upd (fst (crun_all ps m)) l v) /\
  snd (crun_all ps (upd m l v)) = snd (crun_all ps m).
Proof.
  intros V. induction ps as [|p ps IH]; intros m l v H; cbn; [split; [apply meq_refl|reflexivity]|].
  inversion H; subst. destruct (crun_upd V p m l v) as [E1 E2]; try tauto.
  destruct (crun_all_meq V ps _ _ E1) as [F1 F2].
  destruct (IH (fst (crun p m)) l v) as [G1 G2]; auto.
  split; [eapply meq_trans; eauto|congruence].
Qed.

Lemma crun_all_len : forall V (ps : list (cprog V)) m, length (snd (crun_all ps m)) = length ps.
Proof. intros V. induction ps as [|p ps IH]; intros m; cbn; auto. Qed.

(* ------------------------------------------------------------------ *)
(* lists *)

Lemma nth_split3 : forall A (ps : list A) i p, nth_error ps i = Some p ->
  ps = firstn i ps ++ p :: skipn (S i) ps /\ length (firstn i ps) = i.
Proof.
  intros A. induction ps as [|q ps IH]; intros [|i] p H; cbn in *; try discriminate.
  - split; congruence.
  - destruct (IH i p H) as [E1 E2]. split; [f_equal; assumption|lia].
Qed.

Lemma at_phase_len : forall V (ps : list (phase V)) i p q, nth_error ps i = Some p ->
  length (at_phase i q ps) = length ps.
Proof.
  intros V ps i p q H. destruct (nth_split3 _ ps i p H) as [E L]. unfold at_phase.
  rewrite E at 3. rewrite !app_length. cbn. reflexivity.
Qed.

Lemma at_phase_same : forall V (ps : list (phase V)) i p q, nth_error ps i = Some p ->
  nth_error (at_phase i q ps) i = Some q.
Proof.
  intros V ps i p q H. destruct (nth_split3 _ ps i p H) as [E L]. unfold at_phase.
  rewrite nth_error_app2 by lia. rewrite L, Nat.sub_diag. reflexivity.
Qed.

Lemma at_phase_other : forall V (ps : list (phase V)) i j p q, nth_error ps i = Some p -> i <> j ->
  nth_error (at_phase i q ps) j = nth_error ps j.
Proof.
  intros V ps i j p q H HN. destruct (nth_split3 _ ps i p H) as [E L]. unfold at_phase.
  rewrite E at 3. destruct (Nat.lt_ge_cases j i) as [D|D].
  - rewrite !nth_error_app1 by lia. reflexivity.
  - rewrite !nth_error_app2 by lia. rewrite L.
    replace (j - i)%nat with (S (j - i - 1)) by lia. reflexivity.
Qed.

(* ------------------------------------------------------------------ *)
Section Guarded.
  Context {V : Type}.
  Variable ts : list (ctask V).
  Variable m0 : mem V.

  (* conflicts are ordered by depend clauses *)
  Hypothesis Hord : forall i j ti tj l, (j < i)%nat ->
    nth_error ts i = Some ti -> nth_error ts j = Some tj ->
    (cmay_write (c_body tj) l /\ (cmay_read (c_body ti) l \/ cmay_write (c_body ti) l)) \/
    (cmay_read (c_body tj) l /\ cmay_write (c_body ti) l) ->
    path (map c_deps ts) j i.

  Definition can_fail (t : ctask V) : Prop := exists i, i <> 0 /\ cmay_end (c_body t) i.

  (* tasks that can fail wait for each other *)
  Hypothesis Hchain : forall i j ti tj, (i < j)%nat ->
    nth_error ts i = Some ti -> nth_error ts j = Some tj ->
    can_fail ti -> can_fail tj -> path (map c_deps ts) i j.

  (* what is left of a task does no more than the task *)
  Definition leftover (p q : cprog V) : Prop :=
    (forall l, cmay_read p l -> cmay_read q l) /\ (forall l, cmay_write p l -> cmay_write q l) /\
    (forall i, cmay_end p i -> cmay_end q i).

  Definition fits (ph : phase V) (t : ctask V) : Prop :=
    match ph with
    | Waiting p => p = c_body t
    | Running p => leftover p (c_body t)
    | Finished => True
    end.

  (* what a task will still do when it is not stopped *)
  Definition rest (ph : phase V) : cprog V :=
    match ph with Waiting p => p | Running p => p | Finished => CDone 0 end.

  (* shape of a state: phases belong to the tasks, and a task has left Waiting only after
     those it waits for have ended *)
  Definition shaped (ps : list (phase V)) : Prop :=
    length ps = length ts /\
    (forall i ph t, nth_error ps i = Some ph -> nth_error ts i = Some t -> fits ph t) /\
    (forall i j ti tj ph, (j < i)%nat -> nth_error ts i = Some ti -> nth_error ts j = Some tj ->
       deps_order (c_deps tj) (c_deps ti) ->
       nth_error ps i = Some ph -> (forall p, ph <> Waiting p) -> nth_error ps j = Some Finished).

  Lemma task_at : forall ps i ph, shaped ps -> nth_error ps i = Some ph ->
    exists t, nth_error ts i = Some t /\ fits ph t.
  Proof.
    intros ps i ph (HL & HF & _) E. destruct (nth_error ts i) as [t|] eqn:Et.
    - exists t. split; [reflexivity|]. eapply HF; eauto.
    - apply nth_error_None in Et. rewrite <- HL in Et. apply nth_error_None in Et. congruence.
  Qed.

  (* every predecessor along a path has ended *)
  Lemma path_done : forall ps, shaped ps -> forall i j, path (map c_deps ts) i j ->
    forall ph, nth_error ps j = Some ph -> (forall p, ph <> Waiting p) ->
    nth_error ps i = Some Finished.
  Proof.
    intros ps (_ & HF & HS) i j HP.
    induction HP as [i j di dj L Ei Ej D|i j k H1 IH1 H2 IH2]; intros ph E HW.
    - rewrite nth_error_map in Ei, Ej.
      destruct (nth_error ts i) as [ti|] eqn:Eti; [|discriminate]. cbn in Ei. injection Ei as <-.
      destruct (nth_error ts j) as [tj|] eqn:Etj; [|discriminate]. cbn in Ej. injection Ej as <-.
      eapply (HS j i tj ti ph); eauto.
    - apply (IH1 Finished); [eapply IH2; eauto|]. discriminate.
  Qed.

  (* a step of one task keeps the shape *)
  Lemma shaped_at : forall ps i ph ph', shaped ps -> nth_error ps i = Some ph ->
    (forall t, fits ph t -> fits ph' t) -> ph <> Finished -> (forall p, ph' <> Waiting p) ->
    ((forall p, ph <> Waiting p) \/ gready ts ps i) ->
    shaped (at_phase i ph' ps).
  Proof.
    intros ps i ph ph' (HL & HF & HS) E HT HNF HW HR. split; [|split].
    - rewrite (at_phase_len _ _ _ _ _ E). assumption.
    - intros j q t Ej Et. destruct (Nat.eq_dec i j) as [<-|HN].
      + rewrite (at_phase_same _ _ _ _ _ E) in Ej. injection Ej as <-.
        apply HT. eapply HF; eauto.
      + rewrite (at_phase_other _ _ _ _ _ _ E HN) in Ej. eapply HF; eauto.
    - intros a b ta tb q L Ea Eb D Eq HQ.
      assert (Hbi : nth_error ps b = Some Finished -> nth_error (at_phase i ph' ps) b = Some Finished).
      { intros H. rewrite (at_phase_other _ _ _ _ _ _ E); [assumption|]. intros <-. congruence. }
      apply Hbi. destruct (Nat.eq_dec i a) as [<-|HN].
      + destruct HR as [HR|HR].
        * eapply (HS i b ta tb ph); eauto.
        * eapply HR; eauto.
      + rewrite (at_phase_other _ _ _ _ _ _ E HN) in Eq. eapply (HS a b ta tb q); eauto.
  Qed.

  (* the invariant before any failure *)
  Definition clean (m : mem V) (ps : list (phase V)) : Prop :=
    shaped ps /\ same (crun_all (map rest ps) m) (crun_all (map c_body ts) m0).

  (* after a failure: no task that can fail is running *)
  Definition stopped (ps : list (phase V)) : Prop :=
    shaped ps /\
    (forall i p t, nth_error ps i = Some (Running p) -> nth_error ts i = Some t -> ~ can_fail t).

  Lemma map_rest_at : forall (ps : list (phase V)) i ph ph', nth_error ps i = Some ph ->
    map rest ps = map rest (firstn i ps) ++ rest ph :: map rest (skipn (S i) ps) /\
    map rest (at_phase i ph' ps) = map rest (firstn i ps) ++ rest ph' :: map rest (skipn (S i) ps).
  Proof.
    intros ps i ph ph' E. destruct (nth_split3 _ ps i ph E) as [EQ _]. split.
    - rewrite EQ at 1. rewrite map_app. reflexivity.
    - unfold at_phase. rewrite map_app. reflexivity.
  Qed.

  Lemma rest_fits : forall ph t, fits ph t ->
    (forall l, cmay_read (rest ph) l -> cmay_read (c_body t) l) /\
    (forall l, cmay_write (rest ph) l -> cmay_write (c_body t) l).
  Proof.
    intros [p|p|] t H; cbn in *.
    - subst. auto.
    - destruct H as (H1 & H2 & _). auto.
    - split; intros l X; inversion X.
  Qed.

  (* tasks before a running one that could still interfere have ended *)
  Lemma earlier_calm : forall ps i p l, shaped ps -> nth_error ps i = Some (Running p) ->
    (cmay_write p l -> Forall (fun q => ~ cmay_read q l /\ ~ cmay_write q l) (map rest (firstn i ps))) /\
    (cmay_read p l -> Forall (fun q => ~ cmay_write q l) (map rest (firstn i ps))).
  Proof.
    intros ps i p l HS E.
    destruct (task_at ps i _ HS E) as (ti & Eti & Rp & Wp & _).
    assert (Q : forall j q, nth_error (firstn i ps) j = Some q ->
       (cmay_write p l /\ (cmay_read (rest q) l \/ cmay_write (rest q) l)) \/
       (cmay_read p l /\ cmay_write (rest q) l) -> False).
    { intros j q Hj HX.
      assert (L : (j < i)%nat).
      { assert (j < length (firstn i ps))%nat by (apply nth_error_Some; congruence).
        destruct (nth_split3 _ ps i _ E) as [_ LL]. lia. }
      assert (Hj' : nth_error ps j = Some q).
      { destruct (nth_split3 _ ps i _ E) as [EQ LL]. rewrite EQ.
        rewrite nth_error_app1 by lia. assumption. }
      destruct (task_at ps j q HS Hj') as (tj & Etj & Fq).
      destruct (rest_fits q tj Fq) as [Rq Wq].
      assert (D : path (map c_deps ts) j i).
      { apply (Hord i j ti tj l); auto.
        destruct HX as [[A [B|B]]|[A B]]; auto. }
      assert (Z : nth_error ps j = Some Finished) by (eapply path_done; eauto; discriminate).
      rewrite Z in Hj'. injection Hj' as <-. cbn in HX.
      destruct HX as [[A [B|B]]|[A B]]; inversion B. }
    split; intro H; apply Forall_forall; intros x Hx; apply in_map_iff in Hx;
      destruct Hx as (q & <- & Hq); apply In_nth_error in Hq; destruct Hq as [j Hj].
    - split; intro X; apply (Q j q Hj); tauto.
    - intro X; apply (Q j q Hj); tauto.
  Qed.

  Lemma leftover_read : forall l k v (q : cprog V), leftover (CRead l k) q -> leftover (k v) q.
  Proof.
    intros l k v q (H1 & H2 & H3). split; [|split]; intros x Hx.
    - apply H1. econstructor; eauto.
    - apply H2. econstructor; eauto.
    - apply H3. econstructor; eauto.
  Qed.
  Lemma leftover_write : forall l v p (q : cprog V), leftover (CWrite l v p) q -> leftover p q.
  Proof.
    intros l v p q (H1 & H2 & H3). split; [|split]; intros x Hx.
    - apply H1. constructor; auto.
    - apply H2. constructor; auto.
    - apply H3. constructor; auto.
  Qed.

  Lemma same_app : forall (a : list (cprog V)) b b' m m',
    same (crun_all b (fst (crun_all a m))) (crun_all b' (fst (crun_all a m'))) ->
    snd (crun_all a m) = snd (crun_all a m') ->
    same (crun_all (a ++ b) m) (crun_all (a ++ b') m').
  Proof.
    intros a b b' m m' [H1 H2] H3. rewrite !crun_all_app. split; cbn; [assumption|congruence].
  Qed.

  Definition codes : list Z := snd (crun_all (map c_body ts) m0).

  Lemma code_at : forall ps m i ph, clean m ps -> nth_error ps i = Some ph ->
    nth_error codes i = Some (snd (crun (rest ph) (fst (crun_all (map rest (firstn i ps)) m)))).
  Proof.
    intros ps m i ph (_ & _ & H) E. unfold codes. rewrite <- H.
    destruct (map_rest_at ps i ph ph E) as [-> _]. rewrite crun_all_app. cbn.
    destruct (nth_split3 _ ps i ph E) as [_ L].
    rewrite nth_error_app2 by (rewrite crun_all_len, map_length; lia).
    rewrite crun_all_len, map_length, L, Nat.sub_diag. reflexivity.
  Qed.

  Lemma code_fails : forall i t c, nth_error codes i = Some c -> nth_error ts i = Some t -> c <> 0 ->
    can_fail t.
  Proof.
    intros i t c Ec Et Hc. exists c. split; [assumption|].
    assert (E : nth_error (map c_body ts) i = Some (c_body t)) by (rewrite nth_error_map, Et; reflexivity).
    destruct (nth_split3 _ _ i _ E) as [EQ L]. unfold codes in Ec. rewrite EQ, crun_all_app in Ec. cbn in Ec.
    rewrite nth_error_app2 in Ec by (rewrite crun_all_len; lia).
    rewrite crun_all_len, L, Nat.sub_diag in Ec. cbn in Ec. injection Ec as <-. apply crun_end.
  Qed.

  (* the code of the first failing task in submission order *)
  Fixpoint first_code (l : list Z) : Z :=
    match l with [] => 0 | c :: l' => if c =? 0 then first_code l' else c end.

  Lemma first_code_at : forall l f c, nth_error l f = Some c -> c <> 0 ->
    (forall g, (g < f)%nat -> nth_error l g = Some 0) -> first_code l = c.
  Proof.
    induction l as [|x l IH]; intros [|f] c E Hc HB; cbn in *; try discriminate.
    - injection E as ->. destruct (Z.eqb_spec c 0); congruence.
    - assert (X := HB O ltac:(lia)). cbn in X. injection X as ->. cbn.
      apply (IH f); auto. intros g Hg. apply (HB (S g)). lia.
  Qed.

  Lemma first_code_none : forall l, first_code l = 0 -> Forall (fun c => c = 0) l.
  Proof.
    induction l as [|x l IH]; intros H; cbn in *; constructor; destruct (Z.eqb_spec x 0); auto; congruence.
  Qed.

  Definition inv (s : gstate V) : Prop :=
    (gstatus s = 0 /\ clean (gmem s) (snd s)) \/
    (gstatus s <> 0 /\ gstatus s = first_code codes /\ stopped (snd s)).

  Lemma running_done_zero : forall ps i info t, stopped ps -> nth_error ps i = Some (Running (CDone info)) ->
    nth_error ts i = Some t -> info = 0.
  Proof.
    intros ps i info t [HS HN] E Et. destruct (Z.eq_dec info 0) as [|NE]; [assumption|].
    exfalso. apply (HN i _ t E Et). exists info. split; [assumption|].
    destruct HS as (_ & HF & _). destruct (HF i _ t E Et) as (_ & _ & H3). apply H3. constructor.
  Qed.

  Lemma inv_step : forall s s', inv s -> gstep ts s s' -> inv s'.
  Proof.
    intros s s' HI H. inversion H as [m st ps i p HR E Est|m st ps i p HR E Est|m st ps i l k E|m st ps i l v p E|m st ps i info E];
      subst; unfold inv in *; cbn [gstatus gmem fst snd] in *.
    - (* start *)
      destruct HI as [[HZ [HS HQ]]|[HZ _]]; [|exfalso; apply HZ; reflexivity].
      left. split; [assumption|]. split.
      + eapply (shaped_at ps i (Waiting p)); eauto; try discriminate.
        intros t Ht. cbn in *. subst. split; [|split]; auto.
      + destruct (map_rest_at ps i (Waiting p) (Running p) E) as [E1 E2].
        rewrite E2. rewrite E1 in HQ. exact HQ.
    - (* skipped *)
      destruct HI as [[HZ _]|(HZ & HC & HS & HN)]; [exfalso; apply Est; rewrite HZ; reflexivity|].
      right. split; [assumption|]. split; [assumption|]. split.
      + eapply (shaped_at ps i (Waiting p)); eauto; try discriminate. intros t Ht. exact I.
      + intros j q t Ej Et. destruct (Nat.eq_dec i j) as [<-|NE].
        * rewrite (at_phase_same _ _ _ _ _ E) in Ej. discriminate.
        * rewrite (at_phase_other _ _ _ _ _ _ E NE) in Ej. eapply HN; eauto.
    - (* read *)
      assert (SH : shaped ps -> shaped (at_phase i (Running (k (m l))) ps)).
      { intros HS. eapply (shaped_at ps i (Running (CRead l k))); eauto; try discriminate.
        - intros t Ht. cbn in *. eapply leftover_read; eauto.
        - left. discriminate. }
      destruct HI as [[HZ [HS HQ]]|(HZ & HC & HS & HN)].
      + left. split; [assumption|]. split; [auto|].
        destruct (map_rest_at ps i _ (Running (k (m l))) E) as [E1 E2].
        rewrite E2. rewrite E1 in HQ. eapply same_trans; [|exact HQ].
        apply same_app; [|reflexivity]. cbn.
        destruct (earlier_calm ps i _ l HS E) as [_ Q].
        rewrite crun_all_frame by (apply Q; constructor). apply same_refl.
      + right. split; [assumption|]. split; [assumption|]. split; [auto|].
        intros j q t Ej Et. destruct (Nat.eq_dec i j) as [<-|NE].
        * eapply HN; eauto.
        * rewrite (at_phase_other _ _ _ _ _ _ E NE) in Ej. eapply HN; eauto.
    - (* write *)
      assert (SH : shaped ps -> shaped (at_phase i (Running p) ps)).
      { intros HS. eapply (shaped_at ps i (Running (CWrite l v p))); eauto; try discriminate.
        - intros t Ht. cbn in *. eapply leftover_write; eauto.
        - left. discriminate. }
      destruct HI as [[HZ [HS HQ]]|(HZ & HC & HS & HN)].
      + left. split; [assumption|]. split; [auto|].
        destruct (map_rest_at ps i _ (Running p) E) as [E1 E2].
        rewrite E2. rewrite E1 in HQ. eapply same_trans; [|exact HQ].
        destruct (earlier_calm ps i _ l HS E) as [Q _].
        assert (Q' : Forall (fun q => ~ cmay_read q l /\ ~ cmay_write q l) (map rest (firstn i ps)))
          by (apply Q; constructor).
        destruct (crun_all_upd V _ m l v Q') as [U1 U2].
        apply same_app; [|exact U2]. cbn.
        destruct (crun_meq V p _ _ U1) as [W1 W2].
        destruct (crun_all_meq V (map rest (skipn (S i) ps)) _ _ W1) as [X1 X2].
        split; cbn; [exact X1|apply f_equal2; [exact W2|exact X2]].
      + right. split; [assumption|]. split; [assumption|]. split; [auto|].
        intros j q t Ej Et. destruct (Nat.eq_dec i j) as [<-|NE].
        * eapply HN; eauto.
        * rewrite (at_phase_other _ _ _ _ _ _ E NE) in Ej. eapply HN; eauto.
    - (* end *)
      assert (SH : shaped ps -> shaped (at_phase i Finished ps)).
      { intros HS. eapply (shaped_at ps i (Running (CDone info))); eauto; try discriminate.
        - intros t Ht. exact I.
        - left. discriminate. }
      unfold report. destruct HI as [[HZ HCL]|(HZ & HC & HS & HN)].
      + assert (HCL' := HCL). destruct HCL' as [HS HQ].
        destruct (Z.eqb_spec info 0) as [->|NI].
        * left. split; [assumption|]. split; [auto|].
          destruct (map_rest_at ps i _ Finished E) as [E1 E2].
          rewrite E2. rewrite E1 in HQ. exact HQ.
        * right. split; [assumption|].
          destruct (task_at ps i _ HS E) as (ti & Eti & Fi).
          assert (Ci : nth_error codes i = Some info) by (rewrite (code_at ps m i _ HCL E); reflexivity).
          assert (CFi : can_fail ti) by (eapply code_fails; eauto).
          assert (OTHER : forall j tj, nth_error ts j = Some tj -> can_fail tj -> (j < i)%nat ->
                    nth_error ps j = Some Finished).
          { intros j tj Etj CFj L. eapply (path_done ps HS j i); eauto. discriminate. }
          split.
          -- symmetry. apply (first_code_at _ i); auto. intros g Hg.
             destruct (nth_error ps g) as [pg|] eqn:Eg.
             ++ destruct (task_at ps g _ HS Eg) as (tg & Etg & Fg).
                assert (Cg := code_at ps m g _ HCL Eg). rewrite Cg.
                f_equal. match goal with |- ?x = 0 => destruct (Z.eq_dec x 0) as [Z0|Z0]; [exact Z0|exfalso] end.
                assert (CFg : can_fail tg) by (eapply code_fails; eauto).
                assert (Fin := OTHER g tg Etg CFg Hg). rewrite Fin in Eg. injection Eg as <-.
                apply Z0. reflexivity.
             ++ apply nth_error_None in Eg. assert (i < length ps)%nat by (apply nth_error_Some; congruence). lia.
          -- split; [auto|]. intros j q tj Ej Etj CFj.
             destruct (Nat.eq_dec i j) as [<-|NE].
             ++ rewrite (at_phase_same _ _ _ _ _ E) in Ej. discriminate.
             ++ rewrite (at_phase_other _ _ _ _ _ _ E NE) in Ej.
                destruct (Nat.lt_total j i) as [L|[L|L]]; [|congruence|].
                ** rewrite (OTHER j tj Etj CFj L) in Ej. discriminate.
                ** assert (P : path (map c_deps ts) i j) by (eapply Hchain; eauto).
                   assert (X := path_done ps HS i j P _ Ej ltac:(discriminate)). congruence.
      + destruct (task_at ps i _ HS E) as (ti & Eti & Fi).
        assert (info = 0) by (eapply (running_done_zero ps i info ti); eauto; split; auto). subst info. cbn.
        right. split; [assumption|]. split; [assumption|]. split; [auto|].
        intros j q t Ej Et. destruct (Nat.eq_dec i j) as [<-|NE].
        * rewrite (at_phase_same _ _ _ _ _ E) in Ej. discriminate.
        * rewrite (at_phase_other _ _ _ _ _ _ E NE) in Ej. eapply HN; eauto.
  Qed.

  Lemma start_shaped : shaped (map (fun t => Waiting (c_body t)) ts).
  Proof.
    split; [apply map_length|]. split.
    - intros i ph t E Et. rewrite nth_error_map, Et in E. injection E as <-. reflexivity.
    - intros i j ti tj ph _ Ei _ _ E HW. rewrite nth_error_map, Ei in E. injection E as <-.
      exfalso. eapply HW. reflexivity.
  Qed.

  Lemma inv_start : inv (gstart ts m0).
  Proof.
    left. split; [reflexivity|]. split; [apply start_shaped|]. cbn. rewrite map_map. cbn. apply same_refl.
  Qed.

  Lemma inv_steps : forall s s', inv s -> gsteps ts s s' -> inv s'.
  Proof. intros s s' HI H. induction H; auto. apply IHgsteps. eapply inv_step; eauto. Qed.

  Lemma rest_finished : forall (ps : list (phase V)) m, Forall (fun p => p = Finished) ps ->
    fst (crun_all (map rest ps) m) = m /\ Forall (fun c => c = 0) (snd (crun_all (map rest ps) m)).
  Proof.
    induction ps as [|p ps IH]; intros m H; cbn; [auto|].
    inversion H; subst. destruct (IH m) as [E1 E2]; auto.
  Qed.

  Lemma first_code_zero : forall l, Forall (fun c => c = 0) l -> first_code l = 0.
  Proof. intros l H. induction H as [|x l Hx H IH]; cbn; subst; auto. Qed.

  Lemma guarded_result : forall s, gsteps ts (gstart ts m0) s -> gend s ->
    gstatus s = first_code codes /\
    (gstatus s = 0 -> meq (gmem s) (fst (crun_all (map c_body ts) m0))).
  Proof.
    intros s H HE. assert (HI := inv_steps _ _ inv_start H).
    destruct HI as [[HZ [HS [Q1 Q2]]]|(HZ & HC & _)]; [|split; [assumption|tauto]].
    destruct (rest_finished (snd s) (gmem s) HE) as [R1 R2]. rewrite R1 in Q1.
    split.
    - rewrite HZ. symmetry. apply first_code_zero. unfold codes. rewrite <- Q2. exact R2.
    - intros _. exact Q1.
  Qed.

  Lemma inv_shaped : forall s, inv s -> shaped (snd s).
  Proof. intros s [[_ [H _]]|(_ & _ & H & _)]; assumption. Qed.

  Lemma guarded_progress : forall s, gsteps ts (gstart ts m0) s -> ~ gend s -> exists s', gstep ts s s'.
  Proof.
    intros s H HE. assert (HS := inv_shaped _ (inv_steps _ _ inv_start H)). destruct s as [[m st] ps].
    unfold gend in HE. cbn in *.
    assert (F : exists i p, nth_error ps i = Some p /\ p <> Finished /\
      forall j, (j < i)%nat -> nth_error ps j = Some Finished).
    { clear -HE. induction ps as [|p ps IH].
      - exfalso. apply HE. constructor.
      - destruct p as [p|p|].
        + exists O. eexists. split; [reflexivity|]. split; [discriminate|]. intros; lia.
        + exists O. eexists. split; [reflexivity|]. split; [discriminate|]. intros; lia.
        + destruct IH as (i & q & H1 & H2 & H3).
          { intro F. apply HE. constructor; auto. }
          exists (S i), q. repeat split; auto. intros [|j] Hj; [reflexivity|]. apply H3. lia. }
    destruct F as (i & p & Hi & HD & HB).
    destruct p as [p|p|]; [|destruct p as [info|l k|l v p]|congruence].
    - assert (HR : gready ts ps i) by (intros j ti tj Hj _ _ _; apply HB; assumption).
      destruct (Z.eq_dec st PlasmaSuccess).
      + eexists. eapply gs_start; eauto.
      + eexists. eapply gs_skip; eauto.
    - eexists. eapply gs_end; eauto.
    - eexists. eapply gs_read; eauto.
    - eexists. eapply gs_write; eauto.
  Qed.

  (* memory no task writes is never changed, failure or not *)
  Lemma guarded_frame : forall l, (forall t, In t ts -> ~ cmay_write (c_body t) l) ->
    forall s, gsteps ts (gstart ts m0) s -> gmem s l = m0 l.
  Proof.
    intros l HL s H.
    assert (K : forall s s', inv s -> gsteps ts s s' -> gmem s' l = gmem s l).
    { clear s H. intros s s' HI H. induction H as [|s s' s'' H1 H2 IH]; [reflexivity|].
      rewrite IH by (eapply inv_step; eauto).
      assert (HS := inv_shaped _ HI).
      inversion H1 as [| | |m st ps i l0 v p E0|]; subst; cbn; try reflexivity. apply upd_other. intros <-.
      destruct (task_at ps i _ HS E0) as (t & Et & _ & W & _).
      apply (HL t); [eapply nth_error_In; eauto|]. apply W. constructor. }
    rewrite (K _ _ inv_start H). reflexivity.
  Qed.
End Guarded.

(* ------------------------------------------------------------------ *)
(* no execution goes on forever *)

Inductive psub {V} : phase V -> phase V -> Prop :=
| ps_start : forall p, psub (Running p) (Waiting p)
| ps_skip : forall p, psub Finished (Waiting p)
| ps_read : forall l k v, psub (Running (k v)) (Running (CRead l k))
| ps_write : forall l v p, psub (Running p) (Running (CWrite l v p))
| ps_end : forall i, psub Finished (Running (CDone i)).

Lemma psub_wf : forall V, well_founded (@psub V).
Proof.
  intros V.
  assert (F : Acc psub (@Finished V)) by (constructor; intros q H; inversion H).
  assert (R : forall p : cprog V, Acc psub (Running p)).
  { induction p as [i|l k IH|l v p IH]; constructor; intros q H; inversion H; subst; auto. }
  intros [p|p|]; auto. constructor. intros q H. inversion H; subst; auto.
Qed.

Inductive plsub {V} : list (phase V) -> list (phase V) -> Prop :=
| pl_intro : forall a p q b, psub p q -> plsub (a ++ p :: b) (a ++ q :: b).

Lemma plsub_cons : forall V (p : phase V), forall ps, Acc plsub ps -> Acc plsub (p :: ps).
Proof.
  intros V p. induction p as [p IHp] using (well_founded_induction (psub_wf V)).
  intros ps H. induction H as [ps H IH].
  constructor. intros qs HQ. inversion HQ as [a p' q b Hs E1 E2].
  destruct a as [|x a]; cbn in *.
  - injection E2 as -> ->. subst. apply IHp; auto. constructor; auto.
  - injection E2 as -> E2. subst. apply IH. constructor; auto.
Qed.

Lemma guarded_terminates : forall V (ts : list (ctask V)), well_founded (fun s' s => gstep ts s s').
Proof.
  intros V ts [[m st] ps].
  assert (A : Acc plsub ps).
  { induction ps as [|p ps IH]; [|apply plsub_cons; assumption].
    constructor. intros qs H. inversion H as [a p q b Hs E1 E2]. destruct a; discriminate. }
  revert m st. induction A as [ps A IH]. intros m st. constructor. intros [[m' st'] ps'] H.
  apply IH.
  assert (K : forall i p q, nth_error ps i = Some q -> psub p q -> plsub (at_phase i p ps) ps).
  { intros i p q E HP. destruct (nth_split3 _ ps i q E) as [EQ _]. rewrite EQ at 2. unfold at_phase.
    constructor. assumption. }
  inversion H; subst; eapply K; eauto; constructor.
Qed.

(* ------------------------------------------------------------------ *)
(* regions described by kernels *)

Lemma cimplements_deps : forall V (ts : list (ctask V)) ks,
  Forall2 cimplements ts ks -> map c_deps ts = map k_deps (map ck_task ks).
Proof.
  intros V ts ks H. induction H as [|t k ts ks (E & _) H IH]; cbn; [reflexivity|]. rewrite E, IH. reflexivity.
Qed.

Fixpoint kcodes {V} (ks : list (cktask V)) (m : mem V) : list Z :=
  match ks with
  | [] => []
  | k :: ks' => ck_info k m :: kcodes ks' (k_fun (ck_task k) m)
  end.

(* the code a kernel reports depends only on what it reads *)
Definition cksound {V} (k : cktask V) : Prop :=
  (forall m m', (forall l, k_reads (ck_task k) l -> m l = m' l) -> ck_info k m = ck_info k m') /\
  (ck_may_fail k = false -> forall m, ck_info k m = 0).

Lemma implements_codes : forall V (ts : list (ctask V)) ks,
  Forall2 cimplements ts ks -> Forall kgood (map ck_task ks) -> Forall cksound ks -> forall m,
  meq (fst (crun_all (map c_body ts) m)) (krun (map ck_task ks) m) /\
  snd (crun_all (map c_body ts) m) = kcodes ks m.
Proof.
  intros V ts ks H. induction H as [|t k ts ks (_&_&_&_&E1&E2) H IH]; intros HG HC m; cbn.
  - split; [apply meq_refl|reflexivity].
  - inversion HG as [|? ? G1 G2]; subst. inversion HC as [|? ? C1 C2]; subst.
    destruct (crun_all_meq V (map c_body ts) _ _ (E1 m)) as [X1 X2].
    destruct (IH G2 C2 (k_fun (ck_task k) m)) as [Y1 Y2].
    split; [eapply meq_trans; eauto|]. rewrite E2, X2, Y2. reflexivity.
Qed.

Lemma gseq_codes : forall V (ks : list (cktask V)) m, snd (gseq ks m) = first_code (kcodes ks m).
Proof.
  intros V. induction ks as [|k ks IH]; intros m; cbn; [reflexivity|].
  destruct (ck_info k m =? 0); [apply IH|reflexivity].
Qed.

Lemma gseq_krun : forall V (ks : list (cktask V)) m, snd (gseq ks m) = 0 ->
  fst (gseq ks m) = krun (map ck_task ks) m.
Proof.
  intros V. induction ks as [|k ks IH]; intros m; cbn; [reflexivity|].
  destruct (Z.eqb_spec (ck_info k m) 0); cbn; [apply IH|congruence].
Qed.

Section CIntro.
  Context {V : Type}.

  (* a body for a kernel with a finite footprint: read everything, write, report *)
  Fixpoint cwrite_all (ws : list loc) (f : mem V) (p : cprog V) : cprog V :=
    match ws with
    | [] => p
    | w :: ws' => CWrite w (f w) (cwrite_all ws' f p)
    end.
  Fixpoint cread_all (rs : list loc) (env : list (loc * V)) (k : list (loc * V) -> cprog V) : cprog V :=
    match rs with
    | [] => k env
    | r :: rs' => CRead r (fun v => cread_all rs' ((r, v) :: env) k)
    end.
  Definition ccanonical (d : V) (f : mem V -> mem V) (info : mem V -> Z) (rs ws : list loc) : cprog V :=
    cread_all rs [] (fun env => cwrite_all ws (f (lookup env d)) (CDone (info (lookup env d)))).

  Lemma cwrite_all_run : forall (ws : list loc) (f : mem V) i m,
    (forall l, fst (crun (cwrite_all ws f (CDone i)) m) l = if existsb (loc_eqb l) ws then f l else m l) /\
    snd (crun (cwrite_all ws f (CDone i)) m) = i.
  Proof.
    intros ws f i. induction ws as [|w ws IH]; intros m; cbn; [auto|].
    destruct (IH (upd m w (f w))) as [I1 I2]. split; [|assumption]. intros l.
    rewrite I1. unfold upd. destruct (loc_eqb_spec l w); cbn; [|reflexivity].
    subst. destruct (existsb _ ws); reflexivity.
  Qed.
  Lemma cwrite_all_may : forall (ws : list loc) (f : mem V) i l,
    (cmay_write (cwrite_all ws f (CDone i)) l -> In l ws) /\
    (cmay_read (cwrite_all ws f (CDone i)) l -> False) /\
    (forall j, cmay_end (cwrite_all ws f (CDone i)) j -> j = i).
  Proof.
    intros ws f i l. induction ws as [|w ws (I1 & I2 & I3)]; cbn.
    - split; [|split]; intros; match goal with H : _ |- _ => inversion H; subst; auto end.
    - split; [|split]; intros; match goal with H : cmay_write _ _ |- _ => inversion H; subst; auto
        | H : cmay_read _ _ |- _ => inversion H; subst; auto
        | H : cmay_end _ _ |- _ => inversion H; subst; auto end.
  Qed.

  Lemma cread_all_run : forall (rs : list loc) env k (m : mem V),
    (forall x v, In (x, v) env -> v = m x) ->
    exists env', crun (cread_all rs env k) m = crun (k env') m /\
      (forall x v, In (x, v) env' -> v = m x) /\
      (forall x, In x rs \/ In x (map fst env) -> In x (map fst env')).
  Proof.
    induction rs as [|r rs IH]; intros env k m HE; cbn.
    - exists env. repeat split; auto. intros x [[]|H]; auto.
    - destruct (IH ((r, m r) :: env) k m) as (env' & E1 & E2 & E3).
      { intros x v [H|H]; [injection H as <- <-; reflexivity|auto]. }
      exists env'. repeat split; auto. intros x [[->|H]|H]; apply E3; cbn; auto.
  Qed.
  Lemma cread_all_may : forall (rs : list loc) env (k : list (loc * V) -> cprog V) l,
    (cmay_read (cread_all rs env k) l -> In l rs \/ exists env', cmay_read (k env') l) /\
    (cmay_write (cread_all rs env k) l -> exists env', cmay_write (k env') l) /\
    (forall i, cmay_end (cread_all rs env k) i -> exists env', cmay_end (k env') i).
  Proof.
    induction rs as [|r rs IH]; intros env k l; cbn.
    - split; [|split]; eauto.
    - split; [|split].
      + intros H. inversion H as [|? ? v ? H2|]; subst; auto.
        destruct (IH ((r, v) :: env) k l) as (I1 & _). destruct (I1 H2); auto.
      + intros H. inversion H as [|? ? v ? H2|]; subst. apply (IH ((r, v) :: env) k l). assumption.
      + intros i H. inversion H as [|? ? v ? H2|]; subst. apply (IH ((r, v) :: env) k l). assumption.
  Qed.

  Lemma ccanonical_implements : forall (d : V) (k : cktask V), kgood (ck_task k) -> cksound k ->
    exists t, cimplements t k.
  Proof.
    intros d k [[S1 S2] [rs HR] [ws HW]] [C1 C2].
    exists (mkctask (k_deps (ck_task k)) (ccanonical d (k_fun (ck_task k)) (ck_info k) rs ws)).
    unfold cimplements, ccanonical. cbn [c_deps c_body].
    split; [reflexivity|]. split; [|split; [|split]].
    - intros l H. apply cread_all_may in H. destruct H as [H|[env H]]; [apply HR; assumption|].
      apply cwrite_all_may in H. tauto.
    - intros l H. apply cread_all_may in H. destruct H as [env H].
      apply cwrite_all_may in H. apply HW, H.
    - intros i H Hi. apply (proj2 (proj2 (cread_all_may _ _ _ (0,0)))) in H. destruct H as [env H].
      apply (proj2 (proj2 (cwrite_all_may _ _ _ (0,0)))) in H. subst i.
      destruct (ck_may_fail k) eqn:E; [reflexivity|]. exfalso. apply Hi. apply C2. reflexivity.
    - assert (K : forall m, exists env,
        crun (cread_all rs [] (fun env => cwrite_all ws (k_fun (ck_task k) (lookup env d)) (CDone (ck_info k (lookup env d))))) m =
        crun (cwrite_all ws (k_fun (ck_task k) (lookup env d)) (CDone (ck_info k (lookup env d)))) m /\
        (forall x, k_reads (ck_task k) x -> lookup env d x = m x)).
      { intros m. destruct (cread_all_run rs [] (fun env => cwrite_all ws (k_fun (ck_task k) (lookup env d))
            (CDone (ck_info k (lookup env d)))) m) as (env & E1 & E2 & E3); [cbn; tauto|].
        exists env. split; [assumption|]. intros x Hx. apply lookup_env; auto. apply E3. left. apply HR, Hx. }
      split; intros m; destruct (K m) as (env & -> & HL).
      + intros l. destruct (cwrite_all_run ws (k_fun (ck_task k) (lookup env d)) (ck_info k (lookup env d)) m) as [-> _].
        destruct (existsb (loc_eqb l) ws) eqn:EX.
        * apply existsb_exists in EX. destruct EX as (x & Hx & Ex).
          destruct (loc_eqb_spec l x); [|discriminate]. subst. apply S2; auto. apply HW, Hx.
        * symmetry. apply S1. rewrite <- HW. intro Hl.
          assert (existsb (loc_eqb l) ws = true); [|congruence].
          apply existsb_exists. exists l. split; auto. destruct (loc_eqb_spec l l); congruence.
      + destruct (cwrite_all_run ws (k_fun (ck_task k) (lookup env d)) (ck_info k (lookup env d)) m) as [_ ->].
        apply C1. assumption.
  Qed.

  Lemma gregion_intro : forall (ks : list (cktask V)) M (Q : mem V -> Z -> Prop),
    Forall kgood (map ck_task ks) -> Forall cksound ks -> klinked (map ck_task ks) -> fail_chain ks ->
    (forall M' st, st = snd (gseq ks M) ->
       (st = 0 -> meq M' (krun (map ck_task ks) M)) ->
       (forall l, (forall k, In k ks -> ~ k_writes (ck_task k) l) -> M' l = M l) -> Q M' st) ->
    gregion_ensures ks M Q.
  Proof.
    intros ks M Q HG HC HK HF HQ. split.
    - clear -HG HC M. induction ks as [|k ks IH]; [exists []; constructor|].
      inversion HG; subst. inversion HC; subst. destruct IH as [ts IH]; auto.
      destruct (ccanonical_implements (M (0,0)) k) as [t Ht]; auto. exists (t :: ts). constructor; assumption.
    - intros ts s HI HS.
      assert (HIn : forall i t, nth_error ts i = Some t -> exists k, nth_error ks i = Some k /\ cimplements t k)
        by (intros i t E; eapply Forall2_nth2; eauto).
      assert (Hord : forall i j ti tj l, (j < i)%nat ->
        nth_error ts i = Some ti -> nth_error ts j = Some tj ->
        (cmay_write (c_body tj) l /\ (cmay_read (c_body ti) l \/ cmay_write (c_body ti) l)) \/
        (cmay_read (c_body tj) l /\ cmay_write (c_body ti) l) ->
        path (map c_deps ts) j i).
      { intros i j ti tj l L Ei Ej HX.
        destruct (HIn i ti Ei) as (ki & Eki & D1 & R1 & W1 & _).
        destruct (HIn j tj Ej) as (kj & Ekj & D2 & R2 & W2 & _).
        destruct (nth_split2 _ ks j i kj ki L Ekj Eki) as (l1 & l2 & l3 & EK & <- & <-).
        rewrite (cimplements_deps V ts ks HI), EK.
        rewrite (map_app ck_task l1), map_cons, (map_app ck_task l2), map_cons.
        rewrite <- (map_length ck_task l1), <- (map_length ck_task l2). apply linked_path.
        eapply HK.
        - rewrite EK, map_app. cbn [map]. rewrite map_app. reflexivity.
        - exists l. destruct HX as [[A [B|B]]|[A B]]; auto. }
      assert (Hchain : forall i j ti tj, (i < j)%nat ->
        nth_error ts i = Some ti -> nth_error ts j = Some tj ->
        can_fail ti -> can_fail tj -> path (map c_deps ts) i j).
      { intros i j ti tj L Ei Ej (ci & NZi & Fi) (cj & NZj & Fj).
        destruct (HIn i ti Ei) as (ki & Eki & _ & _ & _ & E1 & _).
        destruct (HIn j tj Ej) as (kj & Ekj & _ & _ & _ & E2 & _).
        destruct (nth_split2 _ ks i j ki kj L Eki Ekj) as (l1 & l2 & l3 & EK & <- & <-).
        rewrite (cimplements_deps V ts ks HI), EK.
        rewrite (map_app ck_task l1), map_cons, (map_app ck_task l2), map_cons.
        rewrite <- (map_length ck_task l1), <- (map_length ck_task l2). apply linked_path.
        eapply HF; eauto. }
      destruct (implements_codes V ts ks HI HG HC M) as [X1 X2].
      split.
      + intros HE. destruct (guarded_result ts M Hord Hchain s HS HE) as [R1 R2].
        apply HQ.
        * rewrite R1. unfold codes. rewrite X2. symmetry. apply gseq_codes.
        * intros Z0. eapply meq_trans; [apply R2; assumption|exact X1].
        * intros l HL. apply (guarded_frame ts M Hord Hchain l); auto.
          intros t Ht W. apply In_nth_error in Ht. destruct Ht as [i Ei].
          destruct (HIn i t Ei) as (k & Ek & _ & _ & W1 & _). apply (HL k).
          -- eapply nth_error_In; eauto.
          -- apply W1, W.
      + intros HE. apply (guarded_progress ts M Hord Hchain); auto.
  Qed.
End CIntro.
