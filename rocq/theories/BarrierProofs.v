(* Proofs about the barrier. *)
From Coq Require Import ZArith List Bool Lia.
From Verif Require Import Base BarrierModel BarrierSpec.
Import ListNotations.
Open Scope Z_scope.

Lemma length_zrange_nat : forall n lo, length (zrange_nat lo n) = n.
Proof. induction n as [|n IH]; intros; cbn [zrange_nat length]; [reflexivity|]. rewrite IH. reflexivity. Qed.
Lemma length_zrange : forall lo hi, length (zrange lo hi) = Z.to_nat (hi - lo).
Proof. intros. apply length_zrange_nat. Qed.

(* sums over a list of threads *)
Fixpoint total (f : Z -> Z) (l : list Z) : Z :=
  match l with [] => 0 | x :: l' => f x + total f l' end.

Lemma total_ext : forall f g l, (forall x, In x l -> f x = g x) -> total f l = total g l.
Proof.
  induction l as [|x l IH]; intros H; [reflexivity|]. cbn [total].
  rewrite (H x), IH; cbn; auto. intros y I. apply H. cbn. auto.
Qed.

Lemma total_upd : forall f g l t, NoDup l -> In t l -> (forall x, In x l -> x <> t -> f x = g x) ->
  total f l = total g l + f t - g t.
Proof.
  induction l as [|x l IH]; intros t ND I H; [contradiction|]. cbn [total].
  inversion_clear ND as [|? ? NI ND']. destruct I as [->|I].
  - rewrite (total_ext f g l); [lia|]. intros y Iy. apply H; [cbn; auto|]. intros ->. contradiction.
  - rewrite (IH t ND' I); [rewrite (H x); [lia|cbn; auto|intros ->; contradiction]|].
    intros y Iy NE. apply H; [cbn; auto|assumption].
Qed.

Lemma total_nonneg : forall f l, (forall x, In x l -> 0 <= f x) -> 0 <= total f l.
Proof.
  induction l as [|x l IH]; intros H; [reflexivity|]. cbn [total].
  assert (0 <= f x) by (apply H; cbn; auto). assert (0 <= total f l) by (apply IH; intros; apply H; cbn; auto). lia.
Qed.

Lemma total_le : forall f g l, (forall x, In x l -> f x <= g x) -> total f l <= total g l.
Proof.
  induction l as [|x l IH]; intros H; [reflexivity|]. cbn [total].
  assert (f x <= g x) by (apply H; cbn; auto). assert (total f l <= total g l) by (apply IH; intros; apply H; cbn; auto). lia.
Qed.

Lemma total_const : forall c l, total (fun _ => c) l = c * Z.of_nat (length l).
Proof. induction l as [|x l IH]; cbn [total length]; [lia|]. rewrite IH. lia. Qed.

Lemma total_le_eq : forall f g l, (forall x, In x l -> f x <= g x) -> total f l = total g l ->
  forall x, In x l -> f x = g x.
Proof.
  induction l as [|y l IH]; intros H E x I; [contradiction|]. cbn [total] in E.
  assert (f y <= g y) by (apply H; cbn; auto).
  assert (total f l <= total g l) by (apply total_le; intros; apply H; cbn; auto).
  destruct I as [<-|I]; [lia|]. apply IH; auto; [|lia]. intros; apply H; cbn; auto.
Qed.

Lemma bput_same : forall V (f : Z -> V) t v, bput f t v t = v.
Proof. intros. unfold bput. rewrite Z.eqb_refl. reflexivity. Qed.
Lemma bput_other : forall V (f : Z -> V) t v x, x <> t -> bput f t v x = f x.
Proof. intros. unfold bput. rewrite (proj2 (Z.eqb_neq x t)) by assumption. reflexivity. Qed.

Section Barrier.
  Variables size rounds : Z.
  Hypothesis Hsize : 0 < size.
  Hypothesis Hrounds : 0 <= rounds.

  Notation threads := (zrange 0 size).

  (* thread t has been counted in episode e *)
  Definition counted (e : Z) (s : bstate) (t : Z) : Z :=
    match b_pc s t with
    | Added _ | Spinning _ => if b_done s t =? e then 1 else 0
    | _ => 0
    end.

  (* what a thread may be doing while episode e gathers *)
  Definition tok (e : Z) (s : bstate) (t : Z) : Prop :=
    match b_pc s t with
    | Outside => b_done s t = e
    | Loaded old => b_done s t = e /\ old = e /\ e < rounds
    | Added old | Spinning old => old = b_done s t /\ (b_done s t = e /\ e < rounds \/ b_done s t = e - 1)
    | Won | Bump _ => False
    end.

  Definition gathering (e : Z) (s : bstate) : Prop :=
    (forall t, 0 <= t < size -> tok e s t) /\
    b_count s = total (counted e s) threads /\
    (b_count s = size -> exists t old, 0 <= t < size /\ b_pc s t = Added old /\ b_done s t = e).

  Definition releasing (e : Z) (s : bstate) : Prop :=
    e < rounds /\ b_count s = 0 /\
    exists w, 0 <= w < size /\ (b_pc s w = Won \/ b_pc s w = Bump e) /\ b_done s w = e /\
      forall t, 0 <= t < size -> t <> w ->
        (b_pc s t = Added e \/ b_pc s t = Spinning e) /\ b_done s t = e.

  Definition inv (s : bstate) : Prop :=
    exists e, 0 <= e <= rounds /\ b_passed s = e /\ (gathering e s \/ releasing e s).

  Lemma threads_length : Z.of_nat (length threads) = size.
  Proof. rewrite length_zrange. lia. Qed.

  Lemma counted_01 : forall e s t, 0 <= counted e s t <= 1.
  Proof. intros. unfold counted. destruct (b_pc s t); try lia; destruct (_ =? _); lia. Qed.

  Lemma counted_upd : forall e s s' t, 0 <= t < size ->
    (forall x, x <> t -> b_pc s' x = b_pc s x) -> (forall x, x <> t -> b_done s' x = b_done s x) ->
    total (counted e s') threads = total (counted e s) threads + counted e s' t - counted e s t.
  Proof.
    intros e s s' t Ht P D. apply total_upd; [apply NoDup_zrange|apply in_zrange; assumption|].
    intros x _ NE. unfold counted. rewrite P, D by assumption. reflexivity.
  Qed.

  Lemma inv_init : inv barrier_init.
  Proof.
    exists 0. split; [lia|]. split; [reflexivity|]. left. split; [|split].
    - intros t Ht. reflexivity.
    - cbn [barrier_init b_count]. symmetry. change (total (fun _ => 0) threads = 0). rewrite total_const. lia.
    - cbn. lia.
  Qed.

  Lemma inv_step : forall s t, 0 <= t < size -> inv s -> inv (bstep size rounds t s).
  Proof.
    intros s t Ht (e & He & HP & [G|R]).
    - destruct G as (T & C & A). assert (Tt := T t Ht). unfold tok in Tt. unfold bstep.
      destruct (b_pc s t) as [|old|old| |v|old] eqn:Ept; try contradiction.
      + (* Outside *)
        destruct (b_done s t <? rounds) eqn:L; [|exists e; split; [assumption|split; [assumption|left; split; [exact T|split; assumption]]]].
        apply Z.ltb_lt in L. exists e. split; [assumption|]. split; [assumption|]. left. split; [|split].
        * intros x Hx. unfold tok. cbn [b_pc b_done]. destruct (Z.eq_dec x t) as [->|NE].
          -- rewrite bput_same. lia.
          -- rewrite bput_other by assumption. apply T. assumption.
        * cbn [b_count]. rewrite C. symmetry.
          rewrite (counted_upd e s _ t Ht); [|intros; cbn; rewrite bput_other by assumption; reflexivity|reflexivity].
          unfold counted. cbn [b_pc b_done]. rewrite bput_same, Ept. lia.
        * cbn [b_count b_pc b_done]. intros E. destruct (A E) as (x & old & Hx & Px & Dx).
          exists x, old. split; [assumption|]. rewrite bput_other by congruence. auto.
      + (* Loaded *)
        destruct Tt as (D & -> & L). exists e. split; [assumption|]. split; [assumption|]. left. split; [|split].
        * intros x Hx. unfold tok. cbn [b_pc b_done]. destruct (Z.eq_dec x t) as [->|NE].
          -- rewrite bput_same. lia.
          -- rewrite bput_other by assumption. apply T. assumption.
        * cbn [b_count]. rewrite C. symmetry.
          rewrite (counted_upd e s _ t Ht); [|intros; cbn; rewrite bput_other by assumption; reflexivity|reflexivity].
          unfold counted. cbn [b_pc b_done]. rewrite bput_same, Ept, D, Z.eqb_refl. lia.
        * cbn [b_count b_pc b_done]. intros _. exists t, e. rewrite bput_same. auto.
      + (* Added: compare and swap *)
        destruct Tt as (-> & D). destruct (b_count s =? size) eqn:CS.
        * (* wins: every thread has been counted *)
          apply Z.eqb_eq in CS.
          assert (ALL : forall x, 0 <= x < size -> counted e s x = 1).
          { intros x Hx. apply (total_le_eq (counted e s) (fun _ => 1) threads).
            - intros y _. apply counted_01.
            - rewrite total_const, threads_length. lia.
            - apply in_zrange. assumption. }
          assert (ALL' : forall x, 0 <= x < size ->
            (b_pc s x = Added e \/ b_pc s x = Spinning e) /\ b_done s x = e /\ e < rounds).
          { intros x Hx. specialize (ALL x Hx). specialize (T x Hx). unfold counted in ALL. unfold tok in T.
            destruct (b_pc s x) as [|o|o| |v|o]; try lia;
              destruct (Z.eqb_spec (b_done s x) e) as [E|E]; try lia;
              destruct T as (-> & T); rewrite E; (split; [auto|lia]). }
          exists e. split; [assumption|]. split; [assumption|]. right.
          split; [apply (ALL' t Ht)|]. split; [reflexivity|]. exists t. split; [assumption|].
          cbn [b_pc b_done]. rewrite bput_same. split; [auto|]. split; [apply (ALL' t Ht)|].
          intros x Hx NE. rewrite bput_other by assumption. specialize (ALL' x Hx). tauto.
        * apply Z.eqb_neq in CS. exists e. split; [assumption|]. split; [assumption|]. left. split; [|split].
          -- intros x Hx. unfold tok. cbn [b_pc b_done]. destruct (Z.eq_dec x t) as [->|NE].
             ++ rewrite bput_same. auto.
             ++ rewrite bput_other by assumption. apply T. assumption.
          -- cbn [b_count]. rewrite C. symmetry.
             rewrite (counted_upd e s _ t Ht); [|intros; cbn; rewrite bput_other by assumption; reflexivity|reflexivity].
             unfold counted. cbn [b_pc b_done]. rewrite bput_same, Ept. lia.
          -- cbn [b_count]. intros E. contradiction.
      + (* Spinning *)
        destruct Tt as (-> & D). destruct (b_passed s =? b_done s t) eqn:PD.
        * exists e. split; [assumption|]. split; [assumption|]. left. split; [exact T|]. split; assumption.
        * apply Z.eqb_neq in PD. assert (D' : b_done s t = e - 1) by lia.
          exists e. split; [assumption|]. split; [assumption|]. left. split; [|split].
          -- intros x Hx. unfold tok. cbn [b_pc b_done]. destruct (Z.eq_dec x t) as [->|NE].
             ++ rewrite !bput_same. lia.
             ++ rewrite !bput_other by assumption. apply T. assumption.
          -- cbn [b_count]. rewrite C. symmetry.
             rewrite (counted_upd e s _ t Ht);
               [|intros; cbn; rewrite bput_other by assumption; reflexivity|intros; cbn; rewrite bput_other by assumption; reflexivity].
             unfold counted. cbn [b_pc b_done]. rewrite bput_same, Ept.
             rewrite (proj2 (Z.eqb_neq (b_done s t) e)) by lia. lia.
          -- cbn [b_count b_pc b_done]. intros E. destruct (A E) as (x & o & Hx & Px & Dx).
             exists x, o. split; [assumption|]. rewrite !bput_other by congruence. auto.
    - destruct R as (L & C & w & Hw & Pw & Dw & O). unfold bstep. destruct (Z.eq_dec t w) as [->|NE].
      + destruct Pw as [Pw|Pw]; rewrite Pw.
        * exists e. split; [assumption|]. split; [assumption|]. right. split; [assumption|]. split; [assumption|].
          exists w. split; [assumption|]. cbn [b_pc b_done]. rewrite bput_same. rewrite HP. split; [auto|]. split; [assumption|].
          intros x Hx NE. rewrite bput_other by assumption. apply O; assumption.
        * exists (e + 1). split; [lia|]. split; [reflexivity|]. left. split; [|split].
          -- intros x Hx. unfold tok. cbn [b_pc b_done]. destruct (Z.eq_dec x w) as [->|NE].
             ++ rewrite !bput_same. lia.
             ++ rewrite !bput_other by assumption. destruct (O x Hx NE) as [[P|P] D]; rewrite P, D; lia.
          -- cbn [b_count]. rewrite C. symmetry.
             rewrite (total_ext _ (fun _ => 0)); [rewrite total_const; lia|].
             intros x Ix. apply in_zrange in Ix. unfold counted. cbn [b_pc b_done].
             destruct (Z.eq_dec x w) as [->|NE]; [rewrite bput_same; reflexivity|].
             rewrite !bput_other by assumption. destruct (O x Ix NE) as [[P|P] D]; rewrite P, D;
               rewrite (proj2 (Z.eqb_neq e (e + 1))) by lia; reflexivity.
          -- cbn [b_count]. lia.
      + destruct (O t Ht NE) as [[P|P] D]; rewrite P.
        * rewrite (proj2 (Z.eqb_neq (b_count s) size)) by lia.
          exists e. split; [assumption|]. split; [assumption|]. right. split; [assumption|]. split; [assumption|].
          exists w. split; [assumption|]. cbn [b_pc b_done]. rewrite bput_other by congruence. split; [assumption|].
          split; [assumption|]. intros x Hx NX. destruct (Z.eq_dec x t) as [->|NXT].
          -- rewrite bput_same. auto.
          -- rewrite bput_other by assumption. apply O; assumption.
        * rewrite HP, Z.eqb_refl. exists e. split; [assumption|]. split; [assumption|]. right.
          split; [assumption|]. split; [assumption|]. exists w. auto.
  Qed.

  Lemma inv_exec : forall sched, (forall t, In t sched -> 0 <= t < size) -> inv (bexec size rounds sched).
  Proof.
    intros sched. unfold bexec. induction sched as [|t l IH] using rev_ind; intros H; [apply inv_init|].
    rewrite fold_left_app. cbn [fold_left]. apply inv_step.
    - apply H. apply in_app_iff. cbn. auto.
    - apply IH. intros x I. apply H. apply in_app_iff. auto.
  Qed.

  Lemma inv_separated : forall s, inv s -> separated size s.
  Proof.
    intros s (e & He & HP & [(T & _)|(L & _ & w & Hw & Pw & Dw & O)]) t t' Ht Ht'; unfold begun.
    - assert (A := T t Ht). assert (B := T t' Ht'). unfold tok in A, B.
      destruct (b_pc s t), (b_pc s t'); lia.
    - assert (D : b_done s t = e) by (destruct (Z.eq_dec t w) as [->|]; [assumption|apply O; assumption]).
      assert (D' : b_done s t' = e) by (destruct (Z.eq_dec t' w) as [->|]; [assumption|apply O; assumption]).
      destruct (b_pc s t'); lia.
  Qed.

  Definition work (s : bstate) : Z := total (togo rounds s) threads.

  Lemma inv_togo : forall s t, inv s -> 0 <= t < size -> 0 <= togo rounds s t.
  Proof.
    intros s t (e & He & HP & [(T & _)|(L & _ & w & Hw & Pw & Dw & O)]) Ht; unfold togo.
    - assert (A := T t Ht). unfold tok in A. destruct (b_pc s t); lia.
    - assert (D : b_done s t = e) by (destruct (Z.eq_dec t w) as [->|]; [assumption|apply O; assumption]).
      destruct (b_pc s t); lia.
  Qed.

  Lemma work_nonneg : forall s, inv s -> 0 <= work s.
  Proof. intros s I. apply total_nonneg. intros t J. apply inv_togo; [assumption|]. apply in_zrange. assumption. Qed.

  (* a step leaves the state as it is, or completes a memory operation of its thread *)
  Lemma step_work : forall s t, 0 <= t < size ->
    bstep size rounds t s = s \/ work (bstep size rounds t s) < work s.
  Proof.
    intros s t Ht.
    assert (U : forall s', (forall x, x <> t -> b_pc s' x = b_pc s x) -> (forall x, x <> t -> b_done s' x = b_done s x) ->
      togo rounds s' t < togo rounds s t -> work s' < work s).
    { intros s' P D L. unfold work. rewrite (total_upd (togo rounds s') (togo rounds s) threads t); [lia|apply NoDup_zrange|apply in_zrange; assumption|].
      intros x _ NE. unfold togo. rewrite P, D by assumption. reflexivity. }
    unfold bstep. destruct (b_pc s t) as [|old|old| |v|old] eqn:E.
    - destruct (b_done s t <? rounds); [right|left; reflexivity].
      apply U; [intros; cbn; rewrite bput_other by assumption; reflexivity|reflexivity|].
      unfold togo. cbn [b_pc b_done]. rewrite bput_same, E. lia.
    - right. apply U; [intros; cbn; rewrite bput_other by assumption; reflexivity|reflexivity|].
      unfold togo. cbn [b_pc b_done]. rewrite bput_same, E. lia.
    - right. destruct (b_count s =? size);
        (apply U; [intros; cbn; rewrite bput_other by assumption; reflexivity|reflexivity|];
         unfold togo; cbn [b_pc b_done]; rewrite bput_same, E; lia).
    - right. apply U; [intros; cbn; rewrite bput_other by assumption; reflexivity|reflexivity|].
      unfold togo. cbn [b_pc b_done]. rewrite bput_same, E. lia.
    - right. apply U; [intros; cbn; rewrite bput_other by assumption; reflexivity|intros; cbn; rewrite bput_other by assumption; reflexivity|].
      unfold togo. cbn [b_pc b_done]. rewrite !bput_same, E. lia.
    - destruct (b_passed s =? old); [left; reflexivity|right].
      apply U; [intros; cbn; rewrite bput_other by assumption; reflexivity|intros; cbn; rewrite bput_other by assumption; reflexivity|].
      unfold togo. cbn [b_pc b_done]. rewrite !bput_same, E. lia.
  Qed.

  (* enabled: the thread's next operation is not a fruitless load, nor is it finished *)
  Definition enabled (s : bstate) (t : Z) : bool :=
    match b_pc s t with
    | Outside => b_done s t <? rounds
    | Spinning old => negb (b_passed s =? old)
    | _ => true
    end.

  Lemma enabled_moves : forall s t, 0 <= t < size -> enabled s t = true -> bstep size rounds t s <> s.
  Proof.
    intros s t Ht E H. assert (P : b_pc (bstep size rounds t s) t = b_pc s t) by (rewrite H; reflexivity).
    unfold enabled in E. unfold bstep in P. destruct (b_pc s t) as [|old|old| |v|old] eqn:Ept.
    - rewrite E in P. cbn [b_pc] in P. rewrite bput_same in P. discriminate.
    - cbn [b_pc] in P. rewrite bput_same in P. discriminate.
    - destruct (b_count s =? size); cbn [b_pc] in P; rewrite bput_same in P; discriminate.
    - cbn [b_pc] in P. rewrite bput_same in P. discriminate.
    - cbn [b_pc] in P. rewrite bput_same in P. discriminate.
    - destruct (b_passed s =? old); [discriminate|]. cbn [b_pc] in P. rewrite bput_same in P. discriminate.
  Qed.

  Lemma inv_progress : forall s, inv s -> finished size rounds s \/ exists t, 0 <= t < size /\ bstep size rounds t s <> s.
  Proof.
    intros s I.
    assert (W : forall t, 0 <= t < size -> enabled s t = true -> finished size rounds s \/ exists t, 0 <= t < size /\ bstep size rounds t s <> s)
      by (intros t Ht E; right; exists t; split; [assumption|apply enabled_moves; assumption]).
    destruct (existsb (enabled s) threads) eqn:X.
    - apply existsb_exists in X. destruct X as (t & J & E). apply in_zrange in J. eapply W; eauto.
    - assert (NE : forall t, 0 <= t < size -> enabled s t = false).
      { intros t Ht. destruct (enabled s t) eqn:E; [|reflexivity]. exfalso.
        assert (existsb (enabled s) threads = true); [|congruence].
        apply existsb_exists. exists t. split; [apply in_zrange; assumption|assumption]. }
      destruct I as (e & He & HP & [(T & C & A)|(L & _ & w & Hw & Pw & _)]).
      + assert (Q : forall t, 0 <= t < size -> (b_pc s t = Outside /\ b_done s t = e /\ e = rounds) \/
                      (b_pc s t = Spinning e /\ b_done s t = e /\ e < rounds)).
        { intros t Ht. specialize (NE t Ht). specialize (T t Ht). unfold enabled in NE. unfold tok in T.
          destruct (b_pc s t) as [|old|old| |v|old]; try discriminate.
          - apply Z.ltb_ge in NE. left. split; [reflexivity|]. lia.
          - apply negb_false_iff, Z.eqb_eq in NE. destruct T as (-> & T). right.
            assert (b_done s t = e) by lia. rewrite H. split; [reflexivity|]. lia. }
        destruct (Z.eq_dec e rounds) as [->|NR].
        * left. intros t Ht. destruct (Q t Ht) as [(P & D & _)|(_ & _ & F)]; [auto|lia].
        * exfalso. assert (CS : b_count s = size).
          { rewrite C. rewrite (total_ext _ (fun _ => 1)); [rewrite total_const, threads_length; lia|].
            intros t J. apply in_zrange in J. unfold counted. destruct (Q t J) as [(_ & _ & F)|(P & D & _)]; [lia|].
            rewrite P, D, Z.eqb_refl. reflexivity. }
          destruct (A CS) as (t & old & Ht & P & _). destruct (Q t Ht) as [(P' & _)|(P' & _)]; congruence.
      + specialize (NE w Hw). unfold enabled in NE. destruct Pw as [P|P]; rewrite P in NE; discriminate.
  Qed.

  Notation stepall l s := (fold_left (fun s t => bstep size rounds t s) l s).

  Lemma inv_all : forall l s, (forall t, In t l -> 0 <= t < size) -> inv s -> inv (stepall l s).
  Proof.
    induction l as [|t l IH]; intros s H I; [assumption|]. cbn [fold_left]. apply IH.
    - intros x J. apply H. cbn. auto.
    - apply inv_step; [apply H; cbn; auto|assumption].
  Qed.

  Lemma work_all : forall l s, (forall t, In t l -> 0 <= t < size) -> work (stepall l s) <= work s.
  Proof.
    induction l as [|t l IH]; intros s H; [cbn; lia|]. cbn [fold_left].
    assert (A := IH (bstep size rounds t s) (fun x J => H x (or_intror J))).
    destruct (step_work s t) as [E|E]; [apply H; cbn; auto|rewrite E in *; assumption|lia].
  Qed.

  (* a sweep in which every thread takes a step makes progress *)
  Lemma sweep_work : forall l s u, (forall t, In t l -> 0 <= t < size) -> In u l ->
    bstep size rounds u s <> s -> work (stepall l s) < work s.
  Proof.
    induction l as [|t l IH]; intros s u H I NE; [contradiction|]. cbn [fold_left].
    assert (Ht : 0 <= t < size) by (apply H; cbn; auto).
    assert (H' : forall x, In x l -> 0 <= x < size) by (intros; apply H; cbn; auto).
    destruct (step_work s t Ht) as [E|E].
    - rewrite E. destruct I as [->|I]; [contradiction|]. eapply IH; eauto.
    - assert (A := work_all l (bstep size rounds t s) H'). lia.
  Qed.

  Lemma finished_step : forall s t, 0 <= t < size -> finished size rounds s -> bstep size rounds t s = s.
  Proof.
    intros s t Ht F. destruct (F t Ht) as [P D]. unfold bstep. rewrite P, D, Z.ltb_irrefl. reflexivity.
  Qed.

  Lemma finished_all : forall l s, (forall t, In t l -> 0 <= t < size) -> finished size rounds s ->
    stepall l s = s.
  Proof.
    induction l as [|t l IH]; intros s H F; [reflexivity|]. cbn [fold_left].
    rewrite finished_step; [|apply H; cbn; auto|assumption]. apply IH; [intros; apply H; cbn; auto|assumption].
  Qed.

  Definition sweep (l : list Z) : Prop := (forall t, In t l -> 0 <= t < size) /\ (forall t, 0 <= t < size -> In t l).

  Lemma sweeps_finish : forall ls s, Forall sweep ls -> inv s -> work s <= Z.of_nat (length ls) ->
    finished size rounds (stepall (concat ls) s).
  Proof.
    induction ls as [|l ls IH]; intros s F I W; cbn [concat length] in *.
    - assert (N := work_nonneg s I). destruct (inv_progress s I) as [D|(t & Ht & NE)]; [assumption|].
      destruct (step_work s t Ht) as [E|E]; [contradiction|].
      assert (N' := work_nonneg _ (inv_step s t Ht I)). cbn in W. lia.
    - inversion_clear F as [|? ? Sl F']. destruct Sl as [S1 S2]. rewrite fold_left_app.
      destruct (inv_progress s I) as [D|(t & Ht & NE)].
      + rewrite (finished_all l) by assumption. rewrite finished_all; [assumption| |assumption].
        intros t J. apply in_concat in J. destruct J as (l' & J1 & J2).
        rewrite Forall_forall in F'. apply (F' l' J1). assumption.
      + apply IH; [assumption|apply inv_all; assumption|].
        assert (A := sweep_work l s t S1 (S2 t Ht) NE). lia.
  Qed.

  Lemma work_init : work barrier_init = 5 * rounds * size.
  Proof.
    unfold work. rewrite (total_ext _ (fun _ => 5 * rounds)); [rewrite total_const, threads_length; lia|].
    intros t _. unfold togo. cbn. lia.
  Qed.

  Lemma barrier_main :
    (forall sched, (forall t, In t sched -> 0 <= t < size) ->
       let s := bexec size rounds sched in
       separated size s /\
       (finished size rounds s \/ exists t, 0 <= t < size /\ bstep size rounds t s <> s)) /\
    (forall prefix ls, (forall t, In t prefix -> 0 <= t < size) ->
       Forall (fun l => (forall t, In t l -> 0 <= t < size) /\ (forall t, 0 <= t < size -> In t l)) ls ->
       5 * rounds * size <= Z.of_nat (length ls) ->
       finished size rounds (bexec size rounds (prefix ++ concat ls))).
  Proof.
    split.
    - intros sched H s. assert (I : inv s) by (apply inv_exec; assumption). split.
      + apply inv_separated. assumption.
      + apply inv_progress. assumption.
    - intros prefix ls HP HL HW. unfold bexec. rewrite fold_left_app. apply sweeps_finish.
      + exact HL.
      + apply inv_all; [assumption|apply inv_init].
      + assert (A := work_all prefix barrier_init HP). rewrite work_init in A. lia.
  Qed.
End Barrier.
