(* Any order of the tasks that respects the depend clauses is an execution. *)
From Coq Require Import ZArith List Bool Lia Permutation.
From Verif Require Import Base TaskModel TaskSpec TaskProofs MatProofs RegionProofs.
Import ListNotations.
Open Scope nat_scope.

Lemma repl_length : forall A (l : list A) i x y, nth_error l i = Some x -> length (firstn i l ++ y :: skipn (S i) l) = length l.
Proof.
  intros A l i x y H. assert (i < length l) by (apply nth_error_Some; congruence).
  rewrite app_length. cbn [length]. rewrite firstn_length, skipn_length. lia.
Qed.
Lemma repl_same : forall A (l : list A) i x y, nth_error l i = Some x -> nth_error (firstn i l ++ y :: skipn (S i) l) i = Some y.
Proof.
  intros A l i x y H. assert (i < length l) by (apply nth_error_Some; congruence).
  rewrite nth_error_app2; rewrite firstn_length, Nat.min_l by lia; [|lia]. rewrite Nat.sub_diag. reflexivity.
Qed.
Lemma repl_other : forall A (l : list A) i j x y, nth_error l i = Some x -> i <> j ->
  nth_error (firstn i l ++ y :: skipn (S i) l) j = nth_error l j.
Proof.
  intros A l i j x y H N. assert (HL : i < length l) by (apply nth_error_Some; congruence).
  destruct (Nat.lt_ge_cases j i) as [L|L].
  - rewrite nth_error_app1 by (rewrite firstn_length; lia).
    rewrite <- (firstn_skipn i l) at 2. rewrite nth_error_app1 by (rewrite firstn_length; lia). reflexivity.
  - rewrite nth_error_app2 by (rewrite firstn_length; lia). rewrite firstn_length, Nat.min_l by lia.
    destruct (j - i) as [|d] eqn:E; [lia|]. cbn [nth_error].
    rewrite <- (firstn_skipn (S i) l) at 2. rewrite nth_error_app2 by (rewrite firstn_length; lia).
    rewrite firstn_length, Nat.min_l by lia. f_equal. lia.
Qed.

Section Exec.
  Context {V : Type}.
  Variable ts : list (task V).

  Lemma steps_app : forall s s' s'', steps ts s s' -> steps ts s' s'' -> steps ts s s''.
  Proof. intros s s' s'' H. revert s''. induction H; intros s3 H2; [assumption|]. econstructor; eauto. Qed.

  (* a ready task can be run to its end *)
  Lemma run_one : forall p i m ps, nth_error ps i = Some p -> ready ts ps i ->
    exists ps', steps ts (m, ps) (run p m, ps') /\ length ps' = length ps /\ nth_error ps' i = Some Done /\
      (forall j, j <> i -> nth_error ps' j = nth_error ps j).
  Proof.
    assert (RR : forall ps i p q, nth_error ps i = Some p -> ready ts ps i -> ready ts (firstn i ps ++ q :: skipn (S i) ps) i).
    { intros ps i p q Hi HR0. inversion HR0 as [ps0 i0 HR]; subst ps0 i0. constructor. intros j ti tj Hj H1 H2 H3.
      rewrite (repl_other _ ps i j p q Hi) by lia. eapply HR; eauto. }
    induction p as [|l k IH|l v p IH|p IH]; intros i m ps Hi HR.
    - exists ps. repeat split; auto. constructor.
    - destruct (IH (m l) i m (firstn i ps ++ k (m l) :: skipn (S i) ps)) as (ps' & S1 & L1 & D1 & O1).
      + eapply repl_same; eauto.
      + eapply RR; eauto.
      + exists ps'. split; [econstructor; [eapply step_read; eauto|exact S1]|].
        split; [rewrite L1; eapply repl_length; eauto|]. split; [assumption|].
        intros j Hj. rewrite O1 by assumption. eapply repl_other; eauto.
    - destruct (IH i (upd m l v) (firstn i ps ++ p :: skipn (S i) ps)) as (ps' & S1 & L1 & D1 & O1).
      + eapply repl_same; eauto.
      + eapply RR; eauto.
      + exists ps'. split; [econstructor; [eapply step_write; eauto|exact S1]|].
        split; [rewrite L1; eapply repl_length; eauto|]. split; [assumption|].
        intros j Hj. rewrite O1 by assumption. eapply repl_other; eauto.
    - destruct (IH i m (firstn i ps ++ p :: skipn (S i) ps)) as (ps' & S1 & L1 & D1 & O1).
      + eapply repl_same; eauto.
      + eapply RR; eauto.
      + exists ps'. split; [econstructor; [eapply step_tick; eauto|exact S1]|].
        split; [rewrite L1; eapply repl_length; eauto|]. split; [assumption|].
        intros j Hj. rewrite O1 by assumption. eapply repl_other; eauto.
  Qed.

  Fixpoint run_order (ord : list nat) (m : mem V) : mem V :=
    match ord with
    | [] => m
    | i :: ord' => run_order ord' (match nth_error ts i with Some t => run (t_body t) m | None => m end)
    end.

  Definition respects (D : list (list dep)) (ord : list nat) : Prop :=
    forall o1 i o2 j di dj, ord = o1 ++ i :: o2 -> In j o2 -> (j < i)%nat ->
      nth_error D i = Some di -> nth_error D j = Some dj -> ~ deps_order dj di.

  Lemma run_in_order : forall ord m ps, NoDup ord -> length ps = length ts ->
    (forall i, In i ord -> exists t, nth_error ts i = Some t /\ nth_error ps i = Some (Tick (t_body t))) ->
    (forall j, (j < length ts)%nat -> ~ In j ord -> nth_error ps j = Some Done) ->
    respects (map t_deps ts) ord ->
    exists ps', steps ts (m, ps) (run_order ord m, ps') /\ length ps' = length ts /\
      (forall j, (j < length ts)%nat -> nth_error ps' j = Some Done).
  Proof.
    induction ord as [|i ord IH]; intros m ps ND HL HI HD HR.
    - exists ps. split; [constructor|]. split; [assumption|]. intros j Hj. apply HD; auto.
    - inversion ND as [|? ? N1 N2]; subst.
      destruct (HI i (or_introl eq_refl)) as (t & T1 & T2).
      destruct (run_one (Tick (t_body t)) i m ps T2) as (ps1 & S1 & L1 & D1 & O1).
      { constructor. intros j ti tj Hj H1 H2 H3. apply HD.
        - apply nth_error_Some. congruence.
        - intros [->|Hin]; [lia|]. apply (HR [] i ord j (t_deps ti) (t_deps tj)); auto.
          + rewrite nth_error_map, H1. reflexivity.
          + rewrite nth_error_map, H2. reflexivity. }
      destruct (IH (run (t_body t) m) ps1) as (ps2 & S2 & L2 & D2); auto.
      + congruence.
      + intros j Hj. destruct (HI j (or_intror Hj)) as (t' & T1' & T2'). exists t'. split; [assumption|].
        rewrite O1; [assumption|]. intros ->. contradiction.
      + intros j Hj HN. destruct (Nat.eq_dec j i) as [->|NE]; [assumption|]. rewrite O1 by assumption.
        apply HD; [assumption|]. intros [E|E]; [congruence|contradiction].
      + intros o1 a o2 j di dj E. apply (HR (i :: o1) a o2 j di dj). rewrite E. reflexivity.
      + exists ps2. split; [|auto]. cbn [run_order]. rewrite T1. cbn [run] in S1. eapply steps_app; eauto.
  Qed.
End Exec.

Lemma F2_length : forall A B (P : A -> B -> Prop) l l', Forall2 P l l' -> length l = length l'.
Proof. intros A B P l l' H. induction H; cbn; congruence. Qed.

(* the same for kernels *)
Fixpoint krun_order {V} (ks : list (ktask V)) (ord : list nat) (m : mem V) : mem V :=
  match ord with
  | [] => m
  | i :: ord' => krun_order ks ord' (match nth_error ks i with Some k => k_fun k m | None => m end)
  end.

Lemma order_possible : forall V (d : V) (ks : list (ktask V)) ord M (Q : mem V -> Prop),
  Forall kgood ks -> Permutation ord (seq 0 (length ks)) -> respects (map k_deps ks) ord ->
  region_ensures ks M Q -> exists M', meq M' (krun_order ks ord M) /\ Q M'.
Proof.
  intros V d ks ord M Q HG HP HR [[ts HI] HQ].
  pose proof (F2_length _ _ _ _ _ HI) as EL.
  assert (ND : NoDup ord) by (eapply Permutation_NoDup; [apply Permutation_sym; exact HP|apply seq_NoDup]).
  destruct (run_in_order ts ord M (snd (region_start ts M)) ND) as (ps & S1 & L1 & D1).
  - cbn. rewrite map_length. reflexivity.
  - intros i Hi. apply (Permutation_in _ HP) in Hi. apply in_seq in Hi.
    destruct (nth_error ts i) as [t|] eqn:E.
    + exists t. split; [reflexivity|]. cbn. rewrite nth_error_map, E. reflexivity.
    + exfalso. apply nth_error_None in E. lia.
  - intros j Hj HN. exfalso. apply HN. apply (Permutation_in _ (Permutation_sym HP)). apply in_seq. lia.
  - rewrite (implements_deps V ts ks HI). assumption.
  - exists (run_order ts ord M). split.
    + clear -HI. revert M. assert (G : forall o M M', meq M M' -> meq (run_order ts o M) (krun_order ks o M')).
      { induction o as [|i o IH]; intros M M' HM; cbn [run_order krun_order]; [exact HM|]. apply IH.
        destruct (nth_error ts i) as [t|] eqn:E.
        - destruct (Forall2_nth2 _ _ _ _ _ HI i t E) as (k & E2 & HK). rewrite E2.
          destruct HK as (_ & _ & _ & HF). intros l. rewrite (run_meq _ _ _ _ HM).
          apply HF.
        - assert (nth_error ks i = None) as ->.
          { apply nth_error_None. apply nth_error_None in E. rewrite <- (F2_length _ _ _ _ _ HI). assumption. }
          assumption. }
      intros M. apply G. apply meq_refl.
    + apply (proj1 (HQ ts (run_order ts ord M, ps) HI S1)). unfold region_end. cbn.
      apply Forall_forall. intros p Hp. apply In_nth_error in Hp. destruct Hp as (j & Hj).
      assert (j < length ps)%nat by (apply nth_error_Some; congruence). rewrite D1 in Hj by lia. congruence.
Qed.

(* deciding that an order is allowed *)
Definition dep_kind_in (d : dep_kind) : bool := match d with DepIn => true | _ => false end.
Definition deps_orderb (a b : list dep) : bool :=
  existsb (fun d => existsb (fun d' => loc_eqb (dep_addr d) (dep_addr d')
    && negb (dep_kind_in (dep_type d) && dep_kind_in (dep_type d'))) b) a.

Lemma deps_orderb_spec : forall a b, deps_orderb a b = false -> ~ deps_order a b.
Proof.
  intros a b H (d & d' & I1 & I2 & E & N). assert (X : deps_orderb a b = true).
  { unfold deps_orderb. apply existsb_exists. exists d. split; [assumption|]. apply existsb_exists. exists d'.
    split; [assumption|]. rewrite E. destruct (loc_eqb_spec (dep_addr d') (dep_addr d')); [|congruence]. cbn.
    destruct (dep_type d) eqn:E1, (dep_type d') eqn:E2; cbn; try reflexivity. exfalso. apply N. split; reflexivity. }
  congruence.
Qed.

Fixpoint respectsb (D : list (list dep)) (ord : list nat) : bool :=
  match ord with
  | [] => true
  | i :: ord' => forallb (fun j => negb (Nat.ltb j i) ||
                   match nth_error D i, nth_error D j with
                   | Some di, Some dj => negb (deps_orderb dj di)
                   | _, _ => true
                   end) ord' && respectsb D ord'
  end.

Lemma respectsb_spec : forall D ord, respectsb D ord = true -> respects D ord.
Proof.
  intros D ord. induction ord as [|a ord IH]; intros H o1 i o2 j di dj E HI Hj H1 H2.
  - destruct o1; discriminate.
  - cbn in H. apply andb_true_iff in H. destruct H as [HA HB]. destruct o1 as [|x o1]; cbn in E; injection E as E1 E2.
    + subst a o2. rewrite forallb_forall in HA. specialize (HA j HI).
      apply orb_true_iff in HA. destruct HA as [HA|HA].
      * apply negb_true_iff in HA. apply Nat.ltb_ge in HA. lia.
      * rewrite H1, H2 in HA. apply deps_orderb_spec. apply negb_true_iff. assumption.
    + eapply (IH HB o1 i o2); eauto.
Qed.

(* being a permutation of 0 .. n-1 *)
Definition is_perm (ord : list nat) (n : nat) : bool :=
  (length ord =? n)%nat && forallb (fun i => existsb (Nat.eqb i) ord) (seq 0 n).
Lemma is_perm_spec : forall ord n, is_perm ord n = true -> Permutation ord (seq 0 n).
Proof.
  intros ord n H. unfold is_perm in H. apply andb_true_iff in H. destruct H as [H1 H2]. apply Nat.eqb_eq in H1.
  apply Permutation_sym. apply NoDup_Permutation_bis.
  - apply seq_NoDup.
  - rewrite seq_length. lia.
  - intros i Hi. rewrite forallb_forall in H2. specialize (H2 i Hi). apply existsb_exists in H2.
    destruct H2 as (x & Hx & E). apply Nat.eqb_eq in E. subst. assumption.
Qed.
