(* Drivers whose tasks may fail: what is found in the user's arrays after a failure. *)
From Coq Require Import ZArith List Bool Lia.
From Verif Require Import Base NumModel TaskModel TaskSpec TaskProofs DescModel DescSpec
  DescProofs MatModel MatSpec MatProofs RegionProofs GuardModel GuardSpec GuardProofs GuardProofs2 GuardAnyProofs
  GuardTraceProofs LayoutModel LayoutProofs LayoutProofs2 DriverModel DriverSpec OpProofs OperandProofs GOperandProofs
  GAnyProofs.
Import ListNotations.
Open Scope Z_scope.

(* the task that writes element (i,j) back *)
Lemma o_out_task : forall V nb o (k : ktask V) i j, ook nb o -> o_el o i j -> In k (o_out o) ->
  k_writes k (fst (o_p o), snd (o_p o) + i + j * o_ld o) ->
  k = copy_out (o_b o) (o_A o) (o_p o) (o_ld o) (i / d_mb (o_A o)) (j / d_nb (o_A o)) /\
  forall M : mem V, k_fun k M (fst (o_p o), snd (o_p o) + i + j * o_ld o) = el M (o_b o) (o_A o) i j.
Proof.
  intros V nb o k i j [Q1 Q2 Q3 Q4] (Hi & Hj & HS) Hk W. pose proof (sq_t _ _ _ Q1) as HT. pose proof (td_shape _ _ HT) as SH.
  apply in_flat_map in Hk. destruct Hk as ([m n] & Hmn & [<-|[]]). cbn [fst snd] in *. apply Q2 in Hmn.
  destruct (pos_split (o_A o) (o_S o) HT i j Hi Hj) as (E1 & E2 & R1 & R2).
  rewrite (copy_out_eq (V := V) (o_A o) (o_S o) (o_b o) (o_p o) (o_ld o)) in W by auto. cbn in W.
  rewrite (ul_loc (o_A o) (o_S o) (o_p o) (o_ld o) HT) in *.
  assert (EMN : m = i / d_mb (o_A o) /\ n = j / d_nb (o_A o)).
  { destruct W as (r & c & Hr & Hc & _ & E).
    destruct (user_tile_inj (o_A o) (o_S o) (o_p o) (o_ld o) HT Q4 (i / d_mb (o_A o)) (j / d_nb (o_A o)) m n (i mod d_mb (o_A o)) (j mod d_nb (o_A o)) r c) as (-> & -> & _); auto. }
  destruct EMN as [-> ->]. split; [reflexivity|]. intros M.
  rewrite (copy_out_eq (V := V) (o_A o) (o_S o) (o_b o) (o_p o) (o_ld o)) by auto. cbn. unfold core_zlacpy.
  rewrite mset_in; try lia; [reflexivity|]. eapply (tile_m_le_lda (o_A o) (o_S o)); eassumption.
Qed.

(* a place in one of the tasks in the middle *)
Lemma app3_cons : forall A (p q r l1 l2 : list A) x, p ++ q ++ r = l1 ++ x :: l2 -> ~ In x p -> ~ In x q ->
  exists s, l1 = p ++ q ++ s /\ r = s ++ x :: l2.
Proof.
  intros A p q r l1 l2 x E N1 N2.
  destruct (app_cons_cases _ _ _ _ _ _ E) as [(s & -> & _)|(s & -> & E2)].
  { exfalso. apply N1. apply in_or_app. right. left. reflexivity. }
  destruct (app_cons_cases _ _ _ _ _ _ E2) as [(s' & -> & _)|(s' & -> & E3)].
  { exfalso. apply N2. apply in_or_app. right. left. reflexivity. }
  exists s'. auto.
Qed.

(* element (i,j) of the user's operand o: as before, or the result; and then no task that the task
   writing it back waits for has failed *)
Definition left_el {V} (outs : list opnd) (comp : list (cktask V)) (M M3 M' : mem V) (o : opnd) (i j : Z) : Prop :=
  ul M' (o_p o) (o_ld o) i j = ul M (o_p o) (o_ld o) i j \/
  ul M' (o_p o) (o_ld o) i j = el (krun (map ck_task comp) M3) (o_b o) (o_A o) i j /\
  exists qs rs, flat_map o_out outs
      = qs ++ copy_out (o_b o) (o_A o) (o_p o) (o_ld o) (i / d_mb (o_A o)) (j / d_nb (o_A o)) :: rs /\
    forall a x b, comp = a ++ x :: b ->
      linked (ck_task x) (map ck_task b ++ qs) (copy_out (o_b o) (o_A o) (o_p o) (o_ld o) (i / d_mb (o_A o)) (j / d_nb (o_A o))) ->
      ck_info x (krun (map ck_task a) M3) = 0.

Section GOpsTrace.
  Context {V : Type}.
  Variable nb : Z.
  Variables ops ins outs : list opnd.
  Hypothesis HO : forall o, In o ops -> ook nb o.
  Hypothesis HI : incl ins ops.
  Hypothesis HU : incl outs ops.
  Hypothesis HB : NoDup (map o_b ops).
  Hypothesis HP : forall o o', In o ops -> In o' ops -> fst (o_p o) <> o_b o'.
  Hypothesis HNI : NoDup ins.
  Hypothesis HNO : NoDup outs.
  Hypothesis HAO : forall o o', In o outs -> In o' outs -> o = o' \/ oapart o o'.
  Hypothesis HAI : forall o, In o ins -> In o outs \/ forall o', In o' outs -> oapart o o'.

  Variable comp : list (cktask V).
  Hypothesis CG : Forall kgood (map ck_task comp).
  Hypothesis CS : Forall cksound comp.
  Hypothesis CL : forall env (xs ys : list (ktask V)), (forall o, In o ops -> In (o_homeD o) env) -> functional (home_env env) ->
    Forall (kdecl (home_env env)) xs -> Forall (kdecl (home_env env)) ys -> klinked (xs ++ map ck_task comp ++ ys).
  Hypothesis CW : forall k l, In k comp -> k_writes (ck_task k) l -> In (fst l) (map o_b ops).

  Lemma gops_region_trace : forall M,
    gregion_ensures (map sure (flat_map o_in ins) ++ comp ++ map sure (flat_map o_out outs)) M
     (fun M' st => exists M3,
      (forall o i j, In o ins -> o_el o i j ->
         el M3 (o_b o) (o_A o) i j = ul M (o_p o) (o_ld o) i j) /\
      (forall l, (forall o, In o ins -> fst l <> o_b o) -> M3 l = M l) /\
      (st <> 0 -> guilty comp M3 st) /\
      (st = 0 ->
        Forall (fun c => c = 0) (kcodes comp M3) /\
        (forall o i j, In o outs -> o_el o i j ->
           ul M' (o_p o) (o_ld o) i j = el (krun (map ck_task comp) M3) (o_b o) (o_A o) i j) /\
        (forall l, (forall o, In o outs -> ~ o_user o l) -> M' l = krun (map ck_task comp) M3 l)) /\
      (forall l, ~ In (fst l) (map o_b ops) -> (forall o, In o outs -> ~ o_user o l) -> M' l = M l) /\
      (forall o i j, In o outs -> o_el o i j -> left_el outs comp M M3 M' o i j)).
  Proof.
    intros M. apply gregion_intro_trace.
    - rewrite !map_app, !map_sure, !Forall_app. split; [|split; [assumption|]].
      + eapply ins_kgood; eauto.
      + eapply outs_kgood; eauto.
    - rewrite !Forall_app. split; [apply cksound_sure|]. split; [assumption|apply cksound_sure].
    - rewrite !map_app, !map_sure.
      apply (CL (ops_env ops outs)).
      + intros o Ho. unfold ops_env. apply in_or_app. left. apply in_map. assumption.
      + eapply ops_env_functional; eauto.
      + eapply ins_kdecl; eauto.
      + eapply outs_kdecl; eauto.
    - intros M' st E0 EN HF HLA. exists (krun (flat_map o_in ins) M).
      split; [intros; eapply ins_el; eauto|].
      split; [intros; eapply ins_other; eauto|].
      split; [|split; [|split]].
      + intros NZ. eapply guilty_inner; eauto.
      + intros Z0. destruct (E0 Z0) as [K E1]. rewrite !map_app, !map_sure, !krun_app in E1.
        apply kcodes_all0 in K. destruct K as [_ K]. apply kcodes_all0 in K. destruct K as [K _]. rewrite map_sure in K.
        split; [assumption|]. split.
        * intros o i j Ho Hij. unfold ul at 1. rewrite E1.
          change (ul (krun (flat_map o_out outs) (krun (map ck_task comp) (krun (flat_map o_in ins) M))) (o_p o) (o_ld o) i j
            = el (krun (map ck_task comp) (krun (flat_map o_in ins) M)) (o_b o) (o_A o) i j).
          eapply outs_ul; eauto.
        * intros l Hl. rewrite E1. eapply outs_other; eauto.
      + intros l H1 H2. apply HF. intros k Hk W. rewrite !in_app_iff in Hk. destruct Hk as [Hk|[Hk|Hk]].
        * apply in_map_iff in Hk. destruct Hk as (x & <- & Hx). apply in_flat_map in Hx. destruct Hx as (o & Ho & Hx).
          apply H1. cbn in W. rewrite (o_in_writes V o x l Hx W). apply in_map. apply HI. assumption.
        * apply H1. eapply CW; eauto.
        * apply in_map_iff in Hk. destruct Hk as (x & <- & Hx). apply in_flat_map in Hx. destruct Hx as (o & Ho & Hx).
          apply (H2 o Ho). cbn in W. apply (o_out_writes V nb o x l); auto.
      + intros o i j Ho Hij. clear E0 EN HF.
        remember (fst (o_p o), snd (o_p o) + i + j * o_ld o) as l eqn:El.
        assert (NI : forall k, In k (map sure (flat_map (o_in (V := V)) ins)) -> ~ k_writes (ck_task k) l).
        { intros k Hk W. apply in_map_iff in Hk. destruct Hk as (x & <- & Hx). apply in_flat_map in Hx. destruct Hx as (o' & Ho' & Hx).
          cbn in W. pose proof (o_in_writes V o' x l Hx W) as E. rewrite El in E. cbn in E. apply (HP o o'); auto. }
        assert (NC : forall k, In k comp -> ~ k_writes (ck_task k) l).
        { intros k Hk W. apply (CW k l Hk) in W. rewrite El in W. cbn in W. apply in_map_iff in W.
          destruct W as (o' & E & Ho'). apply (HP o o'); auto. }
        destruct (HLA l) as [H|(l1 & k & l2 & E & W & HV & HZ)].
        * intros k Hk. rewrite !in_app_iff in Hk. destruct Hk as [Hk|[Hk|Hk]]; [right; auto|right; auto|].
          apply in_map_iff in Hk. destruct Hk as (x & <- & Hx). apply in_flat_map in Hx. destruct Hx as (o' & Ho' & Hx). cbn.
          apply in_flat_map in Hx. destruct Hx as ([m n] & Hmn & [<-|[]]). cbn [fst snd].
          destruct (HO o' (HU _ Ho')) as [Q1 Q2 Q3 Q4]. apply Q2 in Hmn.
          rewrite (copy_out_eq (V := V) (o_A o') (o_S o') (o_b o') (o_p o') (o_ld o')) by (auto; apply (sq_t nb); assumption).
          apply omp_zlacpy_kdecw. apply (tile_m_le_lda (o_A o') (o_S o') (o_ld o') (sq_t nb _ _ Q1) Q4 m n Hmn).
        * left. unfold ul. rewrite <- El. assumption.
        * destruct (app3_cons _ _ _ _ _ _ _ E) as (s & -> & E2); [intros Z; apply (NI k); auto|intros Z; apply (NC k); auto|].
          apply map_eq_app in E2. destruct E2 as (qs & rs & E2 & <- & E3). destruct rs as [|c rs]; [discriminate E3|].
          cbn in E3. injection E3 as <- _. cbn [ck_task sure] in *.
          assert (Hc : exists o', In o' outs /\ In c (o_out o')).
          { assert (In c (flat_map (o_out (V := V)) outs)) as Z by (rewrite E2; apply in_or_app; right; left; reflexivity).
            apply in_flat_map in Z. exact Z. }
          destruct Hc as (o' & Ho' & Hc).
          assert (o' = o) as ->.
          { destruct (HAO o o' Ho Ho') as [->|AP]; [reflexivity|]. exfalso. apply (AP l).
            - exists i, j. destruct Hij as (? & ? & _). auto.
            - apply (o_out_writes V nb o' c l); auto. }
          rewrite El in W. destruct (o_out_task V nb o c i j (HO _ (HU _ Ho)) Hij Hc W) as [Ec Ev].
          right. split.
          -- unfold ul. rewrite <- El, HV, El, Ev. rewrite !map_app, !map_sure, !krun_app. unfold el.
             apply krun_frame.
             ++ assert (G : Forall kgood (qs ++ c :: rs)) by (rewrite <- E2; eapply outs_kgood; eauto).
                apply Forall_app in G. destruct G as [G _]. eapply Forall_impl; [|exact G]. intros k []. assumption.
             ++ intros (k & Hk & Wk). assert (Hk' : In k (flat_map (o_out (V := V)) outs)) by (rewrite E2; apply in_or_app; left; assumption).
                apply in_flat_map in Hk'. destruct Hk' as (o' & Ho'' & Hk').
                apply (o_out_writes V nb o' k) in Wk; auto. destruct Wk as (i' & j' & _ & E'). injection E' as E' _.
                apply (HP o' o); auto.
          -- exists qs, rs. rewrite <- Ec. split; [assumption|]. intros a x b Eab HLk. subst comp.
             specialize (HZ (map sure (flat_map o_in ins) ++ a) x (b ++ map sure qs)).
             rewrite !map_app, !map_sure, krun_app in HZ. apply HZ; [|assumption].
             rewrite <- !app_assoc. cbn [app]. reflexivity.
  Qed.
End GOpsTrace.
