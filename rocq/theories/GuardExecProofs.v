(* Any order of the tasks of a guarded region that respects the depend clauses is an
   execution. *)
From Coq Require Import ZArith List Bool Lia Permutation.
From Verif Require Import Base DescModel TaskModel TaskSpec TaskProofs MatProofs RegionProofs ExecProofs GuardModel GuardSpec GuardProofs.
Import ListNotations.
Open Scope nat_scope.

Section Exec.
  Context {V : Type}.
  Variable ts : list (ctask V).

  Lemma gsteps_app : forall s s' s'', gsteps ts s s' -> gsteps ts s' s'' -> gsteps ts s s''.
  Proof. intros s s' s'' H. revert s''. induction H; intros s3 H2; [assumption|]. econstructor; eauto. Qed.

  (* a task that has started can be run to its end *)
  Lemma grun_one : forall p i m st ps, nth_error ps i = Some (Running p) ->
    exists ps', gsteps ts (m, st, ps) (fst (crun p m), report st (snd (crun p m)), ps') /\
      length ps' = length ps /\ nth_error ps' i = Some Finished /\
      (forall j, j <> i -> nth_error ps' j = nth_error ps j).
  Proof.
    induction p as [info|l k IH|l v p IH]; intros i m st ps Hi.
    - exists (at_phase i Finished ps). split; [|split; [|split]].
      + econstructor; [eapply gs_end; eauto|constructor].
      + eapply repl_length; eauto.
      + eapply repl_same; eauto.
      + intros j Hj. eapply repl_other; eauto.
    - destruct (IH (m l) i m st (at_phase i (Running (k (m l))) ps)) as (ps' & S1 & L1 & D1 & O1).
      + eapply repl_same; eauto.
      + exists ps'. split; [econstructor; [eapply gs_read; eauto|exact S1]|].
        split; [rewrite L1; eapply repl_length; eauto|]. split; [assumption|].
        intros j Hj. rewrite O1 by assumption. eapply repl_other; eauto.
    - destruct (IH i (upd m l v) st (at_phase i (Running p) ps)) as (ps' & S1 & L1 & D1 & O1).
      + eapply repl_same; eauto.
      + exists ps'. split; [econstructor; [eapply gs_write; eauto|exact S1]|].
        split; [rewrite L1; eapply repl_length; eauto|]. split; [assumption|].
        intros j Hj. rewrite O1 by assumption. eapply repl_other; eauto.
  Qed.

  Definition gturn (t : ctask V) (s : mem V * Z) : mem V * Z :=
    if (snd s =? 0)%Z then (fst (crun (c_body t) (fst s)), report (snd s) (snd (crun (c_body t) (fst s)))) else s.

  Lemma gturn_steps : forall t i m st ps, nth_error ps i = Some (Waiting (c_body t)) -> gready ts ps i ->
    exists ps', gsteps ts (m, st, ps) (gturn t (m, st), ps') /\
      length ps' = length ps /\ nth_error ps' i = Some Finished /\
      (forall j, j <> i -> nth_error ps' j = nth_error ps j).
  Proof.
    intros t i m st ps Hi HR. unfold gturn. cbn [fst snd]. destruct (Z.eqb_spec st 0) as [E|E].
    - destruct (grun_one (c_body t) i m st (at_phase i (Running (c_body t)) ps)) as (ps' & S1 & L1 & D1 & O1).
      + eapply repl_same; eauto.
      + exists ps'. split; [econstructor; [eapply gs_start; eauto|exact S1]|].
        split; [rewrite L1; eapply repl_length; eauto|]. split; [assumption|].
        intros j Hj. rewrite O1 by assumption. eapply repl_other; eauto.
    - exists (at_phase i Finished ps). split; [|split; [|split]].
      + econstructor; [eapply gs_skip; eauto|constructor].
      + eapply repl_length; eauto.
      + eapply repl_same; eauto.
      + intros j Hj. eapply repl_other; eauto.
  Qed.

  Fixpoint grun_order (ord : list nat) (s : mem V * Z) : mem V * Z :=
    match ord with
    | [] => s
    | i :: ord' => grun_order ord' (match nth_error ts i with Some t => gturn t s | None => s end)
    end.

  Lemma grun_in_order : forall ord s ps, NoDup ord -> length ps = length ts ->
    (forall i, In i ord -> exists t, nth_error ts i = Some t /\ nth_error ps i = Some (Waiting (c_body t))) ->
    (forall j, (j < length ts)%nat -> ~ In j ord -> nth_error ps j = Some Finished) ->
    respects (map c_deps ts) ord ->
    exists ps', gsteps ts (s, ps) (grun_order ord s, ps') /\ length ps' = length ts /\
      (forall j, (j < length ts)%nat -> nth_error ps' j = Some Finished).
  Proof.
    induction ord as [|i ord IH]; intros s ps ND HL HI HD HR.
    - exists ps. split; [constructor|]. split; [assumption|]. intros j Hj. apply HD; auto.
    - inversion ND as [|? ? N1 N2]; subst.
      destruct (HI i (or_introl eq_refl)) as (t & T1 & T2). destruct s as [m st].
      destruct (gturn_steps t i m st ps T2) as (ps1 & S1 & L1 & D1 & O1).
      { intros j ti tj Hj H1 H2 H3. apply HD.
        - apply nth_error_Some. congruence.
        - intros [->|Hin]; [lia|]. apply (HR [] i ord j (c_deps ti) (c_deps tj)); auto.
          + rewrite nth_error_map, H1. reflexivity.
          + rewrite nth_error_map, H2. reflexivity. }
      destruct (IH (gturn t (m, st)) ps1) as (ps2 & S2 & L2 & D2); auto.
      + congruence.
      + intros j Hj. destruct (HI j (or_intror Hj)) as (t' & T1' & T2'). exists t'. split; [assumption|].
        rewrite O1; [assumption|]. intros ->. contradiction.
      + intros j Hj HN. destruct (Nat.eq_dec j i) as [->|NE]; [assumption|]. rewrite O1 by assumption.
        apply HD; [assumption|]. intros [E|E]; [congruence|contradiction].
      + intros o1 a o2 j di dj E. apply (HR (i :: o1) a o2 j di dj). rewrite E. reflexivity.
      + exists ps2. split; [|auto]. cbn [grun_order]. rewrite T1. eapply gsteps_app; eauto.
  Qed.
End Exec.

(* the same for kernels *)
Definition gk_turn {V} (k : cktask V) (s : mem V * Z) : mem V * Z :=
  if (snd s =? 0)%Z then (k_fun (ck_task k) (fst s), report (snd s) (ck_info k (fst s))) else s.
Fixpoint gk_order {V} (ks : list (cktask V)) (ord : list nat) (s : mem V * Z) : mem V * Z :=
  match ord with
  | [] => s
  | i :: ord' => gk_order ks ord' (match nth_error ks i with Some k => gk_turn k s | None => s end)
  end.

Lemma gorder_possible : forall V (ks : list (cktask V)) ord M (Q : mem V -> Z -> Prop),
  Permutation ord (seq 0 (length ks)) -> respects (map (fun k => k_deps (ck_task k)) ks) ord ->
  gregion_ensures ks M Q ->
  exists M', meq M' (fst (gk_order ks ord (M, 0%Z))) /\ Q M' (snd (gk_order ks ord (M, 0%Z))).
Proof.
  intros V ks ord M Q HP HR [[ts HI] HQ].
  pose proof (F2_length _ _ _ _ _ HI) as EL.
  assert (ND : NoDup ord) by (eapply Permutation_NoDup; [apply Permutation_sym; exact HP|apply seq_NoDup]).
  assert (ED : map c_deps ts = map (fun k => k_deps (ck_task k)) ks).
  { clear -HI. induction HI as [|t k ts ks H HI IH]; cbn; [reflexivity|]. destruct H as (E & _). rewrite E, IH. reflexivity. }
  destruct (grun_in_order ts ord (M, 0%Z) (snd (gstart ts M)) ND) as (ps & S1 & L1 & D1).
  - cbn. rewrite map_length. reflexivity.
  - intros i Hi. apply (Permutation_in _ HP) in Hi. apply in_seq in Hi.
    destruct (nth_error ts i) as [t|] eqn:E.
    + exists t. split; [reflexivity|]. cbn. rewrite nth_error_map, E. reflexivity.
    + exfalso. apply nth_error_None in E. lia.
  - intros j Hj HN. exfalso. apply HN. apply (Permutation_in _ (Permutation_sym HP)). apply in_seq. lia.
  - rewrite ED. assumption.
  - assert (G : forall o s s', meq (fst s) (fst s') -> snd s = snd s' ->
              meq (fst (grun_order ts o s)) (fst (gk_order ks o s')) /\ snd (grun_order ts o s) = snd (gk_order ks o s')).
    { clear -HI. induction o as [|i o IH]; intros s s' HM HS; cbn [grun_order gk_order]; [auto|].
      destruct (nth_error ts i) as [t|] eqn:E.
      - destruct (Forall2_nth2 _ _ _ _ _ HI i t E) as (k & E2 & HK). rewrite E2.
        destruct HK as (_ & _ & _ & _ & HF & HN). unfold gturn, gk_turn. rewrite HS.
        destruct (crun_meq V (c_body t) _ _ HM) as [C1 C2].
        destruct (snd s' =? 0)%Z; cbn [fst snd]; apply IH; auto; cbn [fst snd].
        + intros l. rewrite C1. apply HF.
        + rewrite C2, HN. reflexivity.
      - assert (nth_error ks i = None) as ->.
        { apply nth_error_None. apply nth_error_None in E. rewrite <- (F2_length _ _ _ _ _ HI). assumption. }
        apply IH; assumption. }
    destruct (G ord (M, 0%Z) (M, 0%Z) (meq_refl _ _) eq_refl) as [G1 G2].
    exists (fst (grun_order ts ord (M, 0%Z))). split; [assumption|]. rewrite <- G2.
    apply (proj1 (HQ ts (grun_order ts ord (M, 0%Z), ps) HI S1)). unfold gend. cbn [snd].
    apply Forall_forall. intros p Hp. apply In_nth_error in Hp. destruct Hp as (j & Hj).
    assert (j < length ps)%nat by (apply nth_error_Some; congruence). rewrite D1 in Hj by lia. congruence.
Qed.
