(* Guarded task lists: chains of tasks that may fail, and a Hoare logic for the sequential run. *)
From Coq Require Import ZArith List Bool Lia.
From Verif Require Import Base DescModel TaskModel TaskSpec TaskProofs MatModel MatProofs RegionProofs
  GuardModel GuardSpec GuardProofs.
Import ListNotations.
Open Scope Z_scope.

Section Chain.
  Context {V : Type}.

  (* walking along the list; prev is the last task that may fail and what followed it *)
  Fixpoint ch (prev : option (ktask V * list (ktask V))) (ks : list (cktask V)) : Prop :=
    match ks with
    | [] => True
    | k :: ks' =>
        if ck_may_fail k then
          match prev with Some (a, l) => linked a l (ck_task k) | None => True end /\
          ch (Some (ck_task k, [])) ks'
        else
          ch (match prev with Some (a, l) => Some (a, l ++ [ck_task k]) | None => None end) ks'
    end.

  Lemma ch_from : forall ks a acc, ch (Some (a, acc)) ks ->
    forall l2 y l3, ks = l2 ++ y :: l3 -> ck_may_fail y = true -> linked a (acc ++ map ck_task l2) (ck_task y).
  Proof.
    induction ks as [|k ks IH]; intros a acc H l2 y l3 E Hy; [destruct l2; discriminate|].
    cbn in H. destruct (ck_may_fail k) eqn:Ek.
    - destruct H as [H1 H2]. destruct l2 as [|k' l2]; cbn in E; injection E as <- E.
      + cbn. rewrite app_nil_r. assumption.
      + cbn. apply ln_trans; [assumption|]. apply (IH _ [] H2 l2 y l3 E Hy).
    - destruct l2 as [|k' l2]; cbn in E; injection E as <- E; [congruence|].
      cbn. replace (acc ++ ck_task k :: map ck_task l2) with ((acc ++ [ck_task k]) ++ map ck_task l2)
        by (rewrite <- app_assoc; reflexivity).
      eapply IH; eauto.
  Qed.

  Lemma ch_fail_chain : forall ks prev, ch prev ks -> fail_chain ks.
  Proof.
    intros ks prev H l1 a l2 b l3 E Ha Hb. revert ks prev H E.
    induction l1 as [|k l1 IH]; intros ks prev H E; subst ks; cbn in H.
    - rewrite Ha in H. destruct H as [_ H]. apply (ch_from _ _ [] H l2 b l3 eq_refl Hb).
    - destruct (ck_may_fail k); [destruct H as [_ H]|]; eapply IH; eauto.
  Qed.

  Lemma ch_sure_none : forall l ks, ch None ks -> ch None (map sure l ++ ks).
  Proof. induction l as [|k l IH]; intros ks H; cbn; auto. Qed.

  Lemma ch_sure_some : forall l ks a acc, ch (Some (a, acc ++ l)) ks -> ch (Some (a, acc)) (map sure l ++ ks).
  Proof.
    induction l as [|k l IH]; intros ks a acc H; cbn.
    - rewrite app_nil_r in H. assumption.
    - apply IH. rewrite <- app_assoc. assumption.
  Qed.

  Lemma ch_sure_end : forall l prev, ch prev (map sure l).
  Proof. induction l as [|k l IH]; intros prev; cbn; auto. Qed.

  (* blocks that start with a task that may fail *)
  Lemma ch_blocks : forall (p : Z -> cktask V) (r : Z -> list (ktask V)) hi tail,
    (forall k, ck_may_fail (p k) = true) ->
    (forall prev, ch prev tail) ->
    forall lo, (forall k, lo <= k -> k + 1 < hi -> linked (ck_task (p k)) (r k) (ck_task (p (k + 1)))) ->
    forall prev, (lo < hi -> match prev with Some (a, l) => linked a l (ck_task (p lo)) | None => True end) ->
    ch prev (flat_map (fun k => p k :: map sure (r k)) (zrange lo hi) ++ tail).
  Proof.
    intros p r hi tail HP HT.
    assert (G : forall d lo, Z.of_nat d = hi - lo ->
      (forall k, lo <= k -> k + 1 < hi -> linked (ck_task (p k)) (r k) (ck_task (p (k + 1)))) ->
      forall prev, (lo < hi -> match prev with Some (a, l) => linked a l (ck_task (p lo)) | None => True end) ->
      ch prev (flat_map (fun k => p k :: map sure (r k)) (zrange lo hi) ++ tail)).
    { induction d as [|d IH]; intros lo Hd HL prev Hp.
      - rewrite zrange_nil by lia. apply HT.
      - rewrite zrange_cons by lia. cbn [flat_map]. rewrite <- app_assoc. cbn. rewrite HP.
        split; [apply Hp; lia|]. apply (ch_sure_some (r lo) _ (ck_task (p lo)) []). cbn [app].
        apply IH; [lia|intros; apply HL; lia|]. intros H. apply HL; lia. }
    intros lo HL prev Hp. destruct (Z_lt_le_dec lo hi) as [H|H].
    - apply (G (Z.to_nat (hi - lo))); auto. lia.
    - rewrite zrange_nil by lia. apply HT.
  Qed.
End Chain.

Section Codes.
  Context {V : Type}.

  Lemma kcodes_app : forall (a b : list (cktask V)) m,
    kcodes (a ++ b) m = kcodes a m ++ kcodes b (krun (map ck_task a) m).
  Proof. induction a as [|k a IH]; intros b m; cbn; [reflexivity|]. rewrite IH. reflexivity. Qed.

  Lemma first_code_app : forall a b, first_code (a ++ b) = if first_code a =? 0 then first_code b else first_code a.
  Proof.
    induction a as [|c a IH]; intros b; cbn; [reflexivity|]. destruct (c =? 0) eqn:E; [apply IH|rewrite E; reflexivity].
  Qed.

  Lemma kcodes_sure : forall (l : list (ktask V)) m, first_code (kcodes (map sure l) m) = 0.
  Proof. induction l as [|k l IH]; intros m; cbn; [reflexivity|]. apply IH. Qed.

  Lemma map_sure : forall l : list (ktask V), map ck_task (map sure l) = l.
  Proof. intros. rewrite map_map. cbn. apply map_id. Qed.

  Lemma cksound_sure : forall l : list (ktask V), Forall cksound (map sure l).
  Proof. intros l. apply Forall_forall. intros k Hk. apply in_map_iff in Hk. destruct Hk as (x & <- & _). split; auto. Qed.

  (* Hoare triples for the sequential run, with the code of the first failure *)
  Definition gh (P : mem V -> Prop) (ks : list (cktask V)) (c : Z) (Q : mem V -> Prop) : Prop :=
    forall M, P M -> Q (krun (map ck_task ks) M) /\ first_code (kcodes ks M) = c.

  Lemma gh_nil : forall (P Q : mem V -> Prop), (forall M, P M -> Q M) -> gh P [] 0 Q.
  Proof. intros P Q H M HP. split; [apply H; assumption|reflexivity]. Qed.

  Lemma gh_app : forall P Q R a b c d e, gh P a c Q -> gh Q b d R -> e = (if c =? 0 then d else c) ->
    gh P (a ++ b) e R.
  Proof.
    intros P Q R a b c d e H1 H2 -> M HP. destruct (H1 M HP) as [A1 A2].
    rewrite map_app, krun_app, kcodes_app, first_code_app, A2.
    destruct (H2 _ A1) as [B1 B2]. rewrite B2. auto.
  Qed.

  Lemma gh_cons : forall P Q R k b c d e, gh P [k] c Q -> gh Q b d R -> e = (if c =? 0 then d else c) ->
    gh P (k :: b) e R.
  Proof. intros. change (k :: b) with ([k] ++ b). eapply gh_app; eauto. Qed.

  Lemma gh_sure : forall (P Q : mem V -> Prop) k, (forall M, P M -> Q (k_fun k M)) -> gh P [sure k] 0 Q.
  Proof. intros P Q k H M HP. split; [apply H; assumption|reflexivity]. Qed.

  Lemma gh_mono : forall (P P' Q Q' : mem V -> Prop) ks c, (forall M, P' M -> P M) -> (forall M, Q M -> Q' M) ->
    gh P ks c Q -> gh P' ks c Q'.
  Proof. intros P P' Q Q' ks c H1 H2 H M HP. destruct (H M (H1 M HP)). auto. Qed.

  Lemma gh_loop : forall (P : Z -> mem V -> Prop) f (c C : Z -> Z) lo hi, lo <= hi ->
    (forall k, lo <= k < hi -> gh (P k) (f k) (c k) (P (k + 1))) ->
    C lo = 0 -> (forall k, lo <= k < hi -> C (k + 1) = if C k =? 0 then c k else C k) ->
    gh (P lo) (flat_map f (zrange lo hi)) (C hi) (P hi).
  Proof.
    intros P f c C lo hi. pattern hi. apply (zrange_ind_hi _ lo); clear hi.
    - intros hi H1 H2 _ HC _. assert (hi = lo) as -> by lia. rewrite zrange_nil by lia. rewrite HC. apply gh_nil. auto.
    - intros hi H1 IH _ HF HC HS. rewrite zrange_snoc by lia. rewrite flat_map_app. cbn [flat_map]. rewrite app_nil_r.
      eapply gh_app; [apply IH; auto; intros; [apply HF|apply HS]; lia|apply (HF hi); lia|].
      rewrite HS by lia. reflexivity.
  Qed.

  Lemma gh_loop0 : forall (P : Z -> mem V -> Prop) f lo hi, lo <= hi ->
    (forall k, lo <= k < hi -> gh (P k) (f k) 0 (P (k + 1))) ->
    gh (P lo) (flat_map f (zrange lo hi)) 0 (P hi).
  Proof.
    intros P f lo hi H HF. apply (gh_loop P f (fun _ => 0) (fun _ => 0) lo hi); auto.
  Qed.

  Lemma gh_map0 : forall (P : Z -> mem V -> Prop) (f : Z -> ktask V) lo hi, lo <= hi ->
    (forall k M, lo <= k < hi -> P k M -> P (k + 1) (k_fun (f k) M)) ->
    gh (P lo) (map (fun k => sure (f k)) (zrange lo hi)) 0 (P hi).
  Proof.
    intros P f lo hi H HF.
    replace (map (fun k => sure (f k)) (zrange lo hi)) with (flat_map (fun k => [sure (f k)]) (zrange lo hi)).
    - apply gh_loop0; auto. intros k Hk. apply gh_sure. intros M. apply HF. assumption.
    - induction (zrange lo hi) as [|x l IH]; cbn; [reflexivity|]. rewrite IH. reflexivity.
  Qed.
End Codes.
