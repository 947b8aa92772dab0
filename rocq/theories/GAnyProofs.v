(* Drivers whose tasks may fail without waiting for each other: operands translated in,
   guarded tasks on tiles, operands translated back. *)
From Coq Require Import ZArith List Bool Lia.
From Verif Require Import Base NumModel TaskModel TaskSpec TaskProofs DescModel DescSpec
  DescProofs MatModel MatSpec MatProofs RegionProofs GuardModel GuardSpec GuardProofs GuardProofs2 GuardAnyProofs
  LayoutModel LayoutProofs LayoutProofs2 DriverModel DriverSpec OpProofs OperandProofs GOperandProofs.
Import ListNotations.
Open Scope Z_scope.

Lemma app_cons_cases : forall A (p q l1 l2 : list A) x, p ++ q = l1 ++ x :: l2 ->
  (exists r, p = l1 ++ x :: r /\ l2 = r ++ q) \/ (exists r, l1 = p ++ r /\ q = r ++ x :: l2).
Proof.
  intros A. induction p as [|y p IH]; intros q l1 l2 x E; cbn in E.
  - right. exists l1. auto.
  - destruct l1 as [|z l1]; cbn in E; injection E as -> E.
    + left. exists p. auto.
    + destruct (IH q l1 l2 x E) as [(r & -> & ->)|(r & -> & ->)]; [left|right]; exists r; auto.
Qed.

Lemma kcodes_all0 : forall V (a b : list (cktask V)) m, Forall (fun c => c = 0) (kcodes (a ++ b) m) ->
  Forall (fun c => c = 0) (kcodes a m) /\ Forall (fun c => c = 0) (kcodes b (krun (map ck_task a) m)).
Proof. intros V a b m H. rewrite kcodes_app, Forall_app in H. exact H. Qed.

(* a failure among tasks surrounded by tasks that cannot fail *)
Lemma guilty_inner : forall V (a : list (ktask V)) (comp : list (cktask V)) (b : list (ktask V)) M c, c <> 0 ->
  guilty (map sure a ++ comp ++ map sure b) M c -> guilty comp (krun a M) c.
Proof.
  intros V a comp b M c Hc (l1 & k & l2 & E & EC & HL).
  assert (SU : forall (l : list (ktask V)) l1 l2 x, map sure l = l1 ++ x :: l2 -> forall m, ck_info x m = 0).
  { intros l p q x Ex m. assert (In x (map sure l)) as H by (rewrite Ex; apply in_or_app; right; left; reflexivity).
    apply in_map_iff in H. destruct H as (y & <- & _). reflexivity. }
  destruct (app_cons_cases _ _ _ _ _ _ E) as [(r & E1 & E2)|(r & E1 & E2)].
  { exfalso. apply Hc. rewrite <- EC. eapply SU; eauto. }
  destruct (app_cons_cases _ _ _ _ _ _ E2) as [(r' & E3 & E4)|(r' & E3 & E4)].
  - exists r, k, r'. split; [assumption|]. subst l1. rewrite map_app, map_sure, krun_app in EC. split; [assumption|].
    intros x1 x x2 Er HX. specialize (HL (map sure a ++ x1) x x2). rewrite map_app, map_sure, krun_app in HL.
    apply HL; [|assumption]. rewrite Er, <- app_assoc. reflexivity.
  - exfalso. apply Hc. rewrite <- EC. eapply SU; eauto.
Qed.

Section GOpsAny.
  Context {V : Type}.
  Variable nb : Z.
  Variables ops ins outs : list opnd.
  Hypothesis HO : forall o, In o ops -> ook nb o.
  Hypothesis HI : incl ins ops.
  Hypothesis HU : incl outs ops.
  Hypothesis HB : NoDup (map o_b ops).
  Hypothesis HP : forall o o', In o ops -> In o' ops -> fst (o_p o) <> o_b o'.
  Hypothesis HNI : NoDup ins.
  Hypothesis HNO : NoDup outs.
  Hypothesis HAO : forall o o', In o outs -> In o' outs -> o = o' \/ oapart o o'.
  Hypothesis HAI : forall o, In o ins -> In o outs \/ forall o', In o' outs -> oapart o o'.

  Variable comp : list (cktask V).
  Hypothesis CG : Forall kgood (map ck_task comp).
  Hypothesis CS : Forall cksound comp.
  Hypothesis CD : forall env, (forall o, In o ops -> In (o_homeD o) env) ->
    Forall (kdecl (home_env env)) (map ck_task comp).
  Hypothesis CW : forall k l, In k comp -> k_writes (ck_task k) l -> In (fst l) (map o_b ops).

  Lemma gops_region_any : forall M,
    gregion_ensures (map sure (flat_map o_in ins) ++ comp ++ map sure (flat_map o_out outs)) M
     (fun M' st => exists M3,
      (forall o i j, In o ins -> o_el o i j ->
         el M3 (o_b o) (o_A o) i j = ul M (o_p o) (o_ld o) i j) /\
      (forall l, (forall o, In o ins -> fst l <> o_b o) -> M3 l = M l) /\
      (st <> 0 -> guilty comp M3 st) /\
      (st = 0 ->
        Forall (fun c => c = 0) (kcodes comp M3) /\
        (forall o i j, In o outs -> o_el o i j ->
           ul M' (o_p o) (o_ld o) i j = el (krun (map ck_task comp) M3) (o_b o) (o_A o) i j) /\
        (forall l, (forall o, In o outs -> ~ o_user o l) -> M' l = krun (map ck_task comp) M3 l)) /\
      (forall l, ~ In (fst l) (map o_b ops) -> (forall o, In o outs -> ~ o_user o l) -> M' l = M l)).
  Proof.
    intros M. apply gregion_intro_any.
    - rewrite !map_app, !map_sure, !Forall_app. split; [|split; [assumption|]].
      + eapply ins_kgood; eauto.
      + eapply outs_kgood; eauto.
    - rewrite !Forall_app. split; [apply cksound_sure|]. split; [assumption|apply cksound_sure].
    - rewrite !map_app, !map_sure.
      apply korders_klinked. apply (kdecl_korders V (home_env (ops_env ops outs))); [eapply ops_env_functional; eauto|].
      rewrite !Forall_app. split; [eapply ins_kdecl; eauto|]. split; [|eapply outs_kdecl; eauto].
      apply CD. intros o Ho. unfold ops_env. apply in_or_app. left. apply in_map. assumption.
    - intros M' st E0 EN HF. exists (krun (flat_map o_in ins) M).
      split; [intros; eapply ins_el; eauto|].
      split; [intros; eapply ins_other; eauto|].
      split; [|split].
      + intros NZ. eapply guilty_inner; eauto.
      + intros Z0. destruct (E0 Z0) as [K E1]. rewrite !map_app, !map_sure, !krun_app in E1.
        apply kcodes_all0 in K. destruct K as [_ K]. apply kcodes_all0 in K. destruct K as [K _]. rewrite map_sure in K.
        split; [assumption|]. split.
        * intros o i j Ho Hij. unfold ul at 1. rewrite E1.
          change (ul (krun (flat_map o_out outs) (krun (map ck_task comp) (krun (flat_map o_in ins) M))) (o_p o) (o_ld o) i j
            = el (krun (map ck_task comp) (krun (flat_map o_in ins) M)) (o_b o) (o_A o) i j).
          eapply outs_ul; eauto.
        * intros l Hl. rewrite E1. eapply outs_other; eauto.
      + intros l H1 H2. apply HF. intros k Hk W. rewrite !in_app_iff in Hk. destruct Hk as [Hk|[Hk|Hk]].
        * apply in_map_iff in Hk. destruct Hk as (x & <- & Hx). apply in_flat_map in Hx. destruct Hx as (o & Ho & Hx).
          apply H1. cbn in W. rewrite (o_in_writes V o x l Hx W). apply in_map. apply HI. assumption.
        * apply H1. eapply CW; eauto.
        * apply in_map_iff in Hk. destruct Hk as (x & <- & Hx). apply in_flat_map in Hx. destruct Hx as (o & Ho & Hx).
          apply (H2 o Ho). cbn in W. apply (o_out_writes V nb o x l); auto.
  Qed.
End GOpsAny.

(* one matrix, translated in and back *)
Lemma one_region_any : forall V nb o (comp : list (cktask V)), ook nb o -> fst (o_p o) <> o_b o ->
  Forall kgood (map ck_task comp) -> Forall cksound comp ->
  (forall env, In (o_homeD o) env -> Forall (kdecl (home_env env)) (map ck_task comp)) ->
  (forall k l, In k comp -> k_writes (ck_task k) l -> fst l = o_b o) ->
  forall M, gregion_ensures (map sure (o_in o) ++ comp ++ map sure (o_out o)) M
    (fun M' st => exists M3,
      (forall i j, o_el o i j -> el M3 (o_b o) (o_A o) i j = ul M (o_p o) (o_ld o) i j) /\
      (forall l, fst l <> o_b o -> M3 l = M l) /\
      (st <> 0 -> guilty comp M3 st) /\
      (st = 0 ->
        Forall (fun c => c = 0) (kcodes comp M3) /\
        (forall i j, o_el o i j ->
           ul M' (o_p o) (o_ld o) i j = el (krun (map ck_task comp) M3) (o_b o) (o_A o) i j) /\
        (forall l, ~ o_user o l -> M' l = krun (map ck_task comp) M3 l)) /\
      (forall l, fst l <> o_b o -> ~ o_user o l -> M' l = M l)).
Proof.
  intros V nb o comp HO HP CG CS CD CW M.
  pose proof (gops_region_any (V := V) nb [o] [o] [o]) as G. cbn [flat_map] in G. rewrite !app_nil_r in G.
  assert (H : forall (Q Q' : mem V -> Z -> Prop) ks, (forall M' st, Q M' st -> Q' M' st) ->
    gregion_ensures (V := V) ks M Q -> gregion_ensures ks M Q').
  { intros Q Q' ks H [H1 H2]. split; [assumption|]. intros ts s HI HS. destruct (H2 ts s HI HS) as [H3 H4].
    split; [|assumption]. auto. }
  eapply H; [|apply G with (M := M) (comp := comp)]; clear G.
  - intros M' st (M3 & H1 & H2 & H3 & H4 & H5). exists M3. split; [|split; [|split; [|split]]]; auto.
    + intros i j Hij. apply H1; [left; reflexivity|assumption].
    + intros l Hl. apply H2. intros o' [<-|[]]. assumption.
    + intros E0. destruct (H4 E0) as (H6 & H7 & H8). split; [assumption|]. split.
      * intros i j Hij. apply H7; [left; reflexivity|assumption].
      * intros l Hl. apply H8. intros o' [<-|[]]. assumption.
    + intros l Hl HN. apply H5; [cbn; intuition|]. intros o' [<-|[]]. assumption.
  - intros o' [<-|[]]. assumption.
  - apply incl_refl.
  - apply incl_refl.
  - constructor; [intros []|constructor].
  - intros o1 o2 [<-|[]] [<-|[]]. assumption.
  - constructor; [intros []|constructor].
  - constructor; [intros []|constructor].
  - intros o1 o2 [<-|[]] [<-|[]]. left; reflexivity.
  - intros o1 H1. left. assumption.
  - assumption.
  - assumption.
  - intros env HE. apply CD. apply HE. left; reflexivity.
  - intros k l Hk Hl. left. symmetry. eapply CW; eauto.
Qed.
