(* As GLinkedProofs.v, for tasks that write to other places as well (an array of pivots) and
   whose order depends on what the translations are. *)
From Coq Require Import ZArith List Bool Lia.
From Verif Require Import Base NumModel TaskModel TaskSpec TaskProofs DescModel DescSpec
  DescProofs MatModel MatSpec MatProofs RegionProofs GuardModel GuardSpec GuardProofs GuardProofs2 GuardAnyProofs
  LayoutModel LayoutProofs LayoutProofs2 DriverModel DriverSpec OpProofs OperandProofs GOperandProofs GAnyProofs.
Import ListNotations.
Open Scope Z_scope.

Section GOpsLinked2.
  Context {V : Type}.
  Variable nb : Z.
  Variables ops ins outs : list opnd.
  Hypothesis HO : forall o, In o ops -> ook nb o.
  Hypothesis HI : incl ins ops.
  Hypothesis HU : incl outs ops.
  Hypothesis HB : NoDup (map o_b ops).
  Hypothesis HP : forall o o', In o ops -> In o' ops -> fst (o_p o) <> o_b o'.
  Hypothesis HNI : NoDup ins.
  Hypothesis HNO : NoDup outs.
  Hypothesis HAO : forall o o', In o outs -> In o' outs -> o = o' \/ oapart o o'.
  Hypothesis HAI : forall o, In o ins -> In o outs \/ forall o', In o' outs -> oapart o o'.

  Variable comp : list (cktask V).
  Hypothesis CG : Forall kgood (map ck_task comp).
  Hypothesis CS : Forall cksound comp.
  Hypothesis CL : forall env, (forall o, In o ops -> In (o_homeD o) env) -> functional (home_env env) ->
    Forall (kdecl (home_env env)) (flat_map (@o_in V) ins) -> Forall (kdecl (home_env env)) (flat_map (@o_out V) outs) ->
    klinked (flat_map o_in ins ++ map ck_task comp ++ flat_map o_out outs).
  Variable X : loc -> Prop.
  Hypothesis CW : forall k l, In k comp -> k_writes (ck_task k) l -> In (fst l) (map o_b ops) \/ X l.

  Lemma gops_region_linked2 : forall M,
    gregion_ensures (map sure (flat_map o_in ins) ++ comp ++ map sure (flat_map o_out outs)) M
     (fun M' st => exists M3,
      (forall o i j, In o ins -> o_el o i j ->
         el M3 (o_b o) (o_A o) i j = ul M (o_p o) (o_ld o) i j) /\
      (forall l, (forall o, In o ins -> fst l <> o_b o) -> M3 l = M l) /\
      (st <> 0 -> guilty comp M3 st) /\
      (st = 0 ->
        Forall (fun c => c = 0) (kcodes comp M3) /\
        (forall o i j, In o outs -> o_el o i j ->
           ul M' (o_p o) (o_ld o) i j = el (krun (map ck_task comp) M3) (o_b o) (o_A o) i j) /\
        (forall l, (forall o, In o outs -> ~ o_user o l) -> M' l = krun (map ck_task comp) M3 l)) /\
      (forall l, ~ In (fst l) (map o_b ops) -> ~ X l -> (forall o, In o outs -> ~ o_user o l) -> M' l = M l)).
  Proof.
    intros M. apply gregion_intro_any.
    - rewrite !map_app, !map_sure, !Forall_app. split; [|split; [assumption|]].
      + eapply ins_kgood; eauto.
      + eapply outs_kgood; eauto.
    - rewrite !Forall_app. split; [apply cksound_sure|]. split; [assumption|apply cksound_sure].
    - rewrite !map_app, !map_sure.
      apply (CL (ops_env ops outs)).
      + intros o Ho. unfold ops_env. apply in_or_app. left. apply in_map. assumption.
      + eapply ops_env_functional; eauto.
      + eapply ins_kdecl; eauto.
      + eapply outs_kdecl; eauto.
    - intros M' st E0 EN HF. exists (krun (flat_map o_in ins) M).
      split; [intros; eapply ins_el; eauto|].
      split; [intros; eapply ins_other; eauto|].
      split; [|split].
      + intros NZ. eapply guilty_inner; eauto.
      + intros Z0. destruct (E0 Z0) as [K E1]. rewrite !map_app, !map_sure, !krun_app in E1.
        apply kcodes_all0 in K. destruct K as [_ K]. apply kcodes_all0 in K. destruct K as [K _]. rewrite map_sure in K.
        split; [assumption|]. split.
        * intros o i j Ho Hij. unfold ul at 1. rewrite E1.
          change (ul (krun (flat_map o_out outs) (krun (map ck_task comp) (krun (flat_map o_in ins) M))) (o_p o) (o_ld o) i j
            = el (krun (map ck_task comp) (krun (flat_map o_in ins) M)) (o_b o) (o_A o) i j).
          eapply outs_ul; eauto.
        * intros l Hl. rewrite E1. eapply outs_other; eauto.
      + intros l H1 HX H2. apply HF. intros k Hk W. rewrite !in_app_iff in Hk. destruct Hk as [Hk|[Hk|Hk]].
        * apply in_map_iff in Hk. destruct Hk as (x & <- & Hx). apply in_flat_map in Hx. destruct Hx as (o & Ho & Hx).
          apply H1. cbn in W. rewrite (o_in_writes V o x l Hx W). apply in_map. apply HI. assumption.
        * destruct (CW k l Hk W) as [H|H]; [apply H1|apply HX]; assumption.
        * apply in_map_iff in Hk. destruct Hk as (x & <- & Hx). apply in_flat_map in Hx. destruct Hx as (o & Ho & Hx).
          apply (H2 o Ho). cbn in W. apply (o_out_writes V nb o x l); auto.
  Qed.
End GOpsLinked2.

