(* Drivers whose tasks may fail: operands translated in, guarded tasks on tiles, operands
   translated back. *)
From Coq Require Import ZArith List Bool Lia.
From Verif Require Import Base NumModel TaskModel TaskSpec TaskProofs DescModel DescSpec
  DescProofs MatModel MatSpec MatProofs RegionProofs GuardModel GuardSpec GuardProofs GuardProofs2
  LayoutModel LayoutProofs LayoutProofs2 DriverModel DriverSpec OpProofs OperandProofs.
Import ListNotations.
Open Scope Z_scope.

Lemma o_in_writes : forall V o (k : ktask V) l, In k (o_in o) -> k_writes k l -> fst l = o_b o.
Proof.
  intros V o k l Hk W. apply in_flat_map in Hk. destruct Hk as ([m n] & Hmn & [<-|[]]).
  cbn in W. apply reg_block in W. exact W.
Qed.

Lemma o_out_writes : forall V nb o (k : ktask V) l, ook nb o -> In k (o_out o) -> k_writes k l -> o_user o l.
Proof.
  intros V nb o k l [Q1 Q2 Q3 Q4] Hk W. pose proof (sq_t _ _ _ Q1) as HT. pose proof (td_shape _ _ HT) as SH.
  apply in_flat_map in Hk. destruct Hk as ([m n] & Hmn & [<-|[]]). cbn [fst snd] in W.
  apply Q2 in Hmn. rewrite (copy_out_eq (V := V) (o_A o) (o_S o) (o_b o) (o_p o) (o_ld o)) in W by auto. cbn in W.
  destruct W as (r & c & Hr & Hc & _ & E). destruct (td_in _ _ HT m n Hmn) as [Hm Hn].
  destruct (tile_row (o_A o) m r SH Hm Hr) as (R1 & R2 & R3).
  destruct (tile_col (o_A o) n c SH Hn Hc) as (C1 & C2 & C3).
  exists (m * d_mb (o_A o) + r), (n * d_nb (o_A o) + c). split.
  - split; [assumption|]. split; [assumption|]. rewrite R2, C2. assumption.
  - rewrite E, (ul_loc (o_A o) (o_S o) (o_p o) (o_ld o) HT), R2, R3, C2, C3. reflexivity.
Qed.

Section GOps.
  Context {V : Type}.
  Variable nb : Z.
  Variables ops ins outs : list opnd.
  Hypothesis HO : forall o, In o ops -> ook nb o.
  Hypothesis HI : incl ins ops.
  Hypothesis HU : incl outs ops.
  Hypothesis HB : NoDup (map o_b ops).
  Hypothesis HP : forall o o', In o ops -> In o' ops -> fst (o_p o) <> o_b o'.
  Hypothesis HNI : NoDup ins.
  Hypothesis HNO : NoDup outs.
  Hypothesis HAO : forall o o', In o outs -> In o' outs -> o = o' \/ oapart o o'.
  Hypothesis HAI : forall o, In o ins -> In o outs \/ forall o', In o' outs -> oapart o o'.

  Variable comp : list (cktask V).
  Hypothesis CG : Forall kgood (map ck_task comp).
  Hypothesis CS : Forall cksound comp.
  Hypothesis CD : forall env, (forall o, In o ops -> In (o_homeD o) env) ->
    Forall (kdecl (home_env env)) (map ck_task comp).
  Hypothesis CW : forall k l, In k comp -> k_writes (ck_task k) l -> In (fst l) (map o_b ops).
  Hypothesis CC : ch None (comp ++ map sure (flat_map o_out outs)).

  Lemma gops_region : forall M,
    gregion_ensures (map sure (flat_map o_in ins) ++ comp ++ map sure (flat_map o_out outs)) M
     (fun M' st => exists M3,
      (forall o i j, In o ins -> o_el o i j ->
         el M3 (o_b o) (o_A o) i j = ul M (o_p o) (o_ld o) i j) /\
      (forall l, (forall o, In o ins -> fst l <> o_b o) -> M3 l = M l) /\
      st = first_code (kcodes comp M3) /\
      (st = 0 ->
        (forall o i j, In o outs -> o_el o i j ->
           ul M' (o_p o) (o_ld o) i j = el (krun (map ck_task comp) M3) (o_b o) (o_A o) i j) /\
        (forall l, (forall o, In o outs -> ~ o_user o l) -> M' l = krun (map ck_task comp) M3 l)) /\
      (forall l, ~ In (fst l) (map o_b ops) -> (forall o, In o outs -> ~ o_user o l) -> M' l = M l)).
  Proof.
    intros M. apply gregion_intro.
    - rewrite !map_app, !map_sure, !Forall_app. split; [|split; [assumption|]].
      + eapply ins_kgood; eauto.
      + eapply outs_kgood; eauto.
    - rewrite !Forall_app. split; [apply cksound_sure|]. split; [assumption|apply cksound_sure].
    - rewrite !map_app, !map_sure.
      apply korders_klinked. apply (kdecl_korders V (home_env (ops_env ops outs))); [eapply ops_env_functional; eauto|].
      rewrite !Forall_app. split; [eapply ins_kdecl; eauto|]. split; [|eapply outs_kdecl; eauto].
      apply CD. intros o Ho. unfold ops_env. apply in_or_app. left. apply in_map. assumption.
    - apply (ch_fail_chain _ None). apply ch_sure_none. assumption.
    - intros M' st Est E0 HF. exists (krun (flat_map o_in ins) M).
      split; [intros; eapply ins_el; eauto|].
      split; [intros; eapply ins_other; eauto|].
      split; [|split].
      + rewrite Est, gseq_codes, kcodes_app, first_code_app, kcodes_sure. cbn [Z.eqb].
        rewrite kcodes_app, first_code_app, map_sure.
        rewrite kcodes_sure.
        destruct (first_code (kcodes comp (krun (flat_map o_in ins) M)) =? 0) eqn:E; [|reflexivity].
        apply Z.eqb_eq in E. congruence.
      + intros Z0. specialize (E0 Z0). rewrite !map_app, !map_sure, !krun_app in E0. split.
        * intros o i j Ho Hij. unfold ul at 1. rewrite E0.
          change (ul (krun (flat_map o_out outs) (krun (map ck_task comp) (krun (flat_map o_in ins) M))) (o_p o) (o_ld o) i j
            = el (krun (map ck_task comp) (krun (flat_map o_in ins) M)) (o_b o) (o_A o) i j).
          eapply outs_ul; eauto.
        * intros l Hl. rewrite E0. eapply outs_other; eauto.
      + intros l H1 H2. apply HF. intros k Hk W. rewrite !in_app_iff in Hk. destruct Hk as [Hk|[Hk|Hk]].
        * apply in_map_iff in Hk. destruct Hk as (x & <- & Hx). apply in_flat_map in Hx. destruct Hx as (o & Ho & Hx).
          apply H1. cbn in W. rewrite (o_in_writes V o x l Hx W). apply in_map. apply HI. assumption.
        * apply H1. eapply CW; eauto.
        * apply in_map_iff in Hk. destruct Hk as (x & <- & Hx). apply in_flat_map in Hx. destruct Hx as (o & Ho & Hx).
          apply (H2 o Ho). cbn in W. apply (o_out_writes V nb o x l); auto.
  Qed.
End GOps.
