(* The order of the LU factorization and of the tasks that follow it. *)
From Coq Require Import ZArith List Bool Lia.
From Verif Require Import Base NumModel FieldModel TaskModel TaskSpec TaskProofs GuardModel GuardSpec GuardProofs GuardProofs2 GuardAnyProofs DescModel DescSpec DescProofs DescProofs3 DescDriverModel
  MatModel MatProofs RegionProofs LayoutModel LayoutProofs LayoutProofs2 TriModel DriverModel SwpModel SwpSpec GroupProofs PanelProofs SwpDriverProofs GetrfModel GetrfSpec GetrfProofs
  GetrfLinkProofs GetrfDriverProofs GesvModel GesvLiftProofs GesvFlushProofs.
Import ListNotations.
Open Scope Z_scope.

(* the code reported when the tasks that may fail wait for each other *)
Lemma chain_code : forall V (ks : list (cktask V)) M c, Forall cksound ks -> fail_chain ks -> c <> 0 -> guilty ks M c ->
  c = first_code (kcodes ks M).
Proof.
  intros V ks M c HS HC NZ (l1 & k & l2 & -> & EC & HL). rewrite kcodes_mid, first_code_app.
  assert (MF : ck_may_fail k = true).
  { destruct (ck_may_fail k) eqn:E; [reflexivity|]. exfalso. apply NZ. rewrite <- EC. rewrite Forall_forall in HS.
    apply (proj2 (HS k (in_elt _ _ _)) E). }
  assert (Z1 : first_code (kcodes l1 M) = 0).
  { assert (A0 : forall a x b, l1 = a ++ x :: b -> ck_info x (krun (map ck_task a) M) = 0).
    { intros a x b E. destruct (ck_may_fail x) eqn:EX.
      - apply (HL a x b E). apply (HC a x b k l2); auto. rewrite E, <- app_assoc. reflexivity.
      - rewrite Forall_forall in HS. apply (proj2 (HS x ltac:(rewrite E; rewrite !in_app_iff; left; right; left; reflexivity)) EX). }
    clear -A0. revert M A0. induction l1 as [|a l1 IH]; intros M A0; cbn; [reflexivity|].
    pose proof (A0 [] a l1 eq_refl) as E. cbn in E. rewrite E. cbn. apply IH. intros p x b E'. apply (A0 (a :: p) x b). rewrite E'. reflexivity. }
  rewrite Z1. cbn [Z.eqb first_code]. rewrite EC. destruct (Z.eqb_spec c 0); [contradiction|reflexivity].
Qed.

Lemma klinked_suffix : forall V (a c : list (ktask V)), klinked (a ++ c) -> klinked c.
Proof.
  intros V a c H l1 x l2 y l3 E HC. apply (H (a ++ l1) x l2 y l3); [|assumption]. rewrite E, <- app_assoc. reflexivity.
Qed.

Section After.
  Context {F : fields}.
  Variable bigger : F -> F -> bool.
  Variables (nb b : Z) (A : desc) (pI : loc) (ib mpt : Z).
  Hypothesis SQ : d_mt A = d_nt A.
  Hypothesis Hpi : fst pI <> b.
  Let KS := map ck_task (pzgetrf bigger b A pI ib mpt).

  Lemma KS_blocks : forall x l, In x KS -> k_reads x l \/ k_writes x l -> fst l = b \/ fst l = fst pI.
  Proof.
    intros x l Hx HX. unfold KS in Hx. rewrite (pzgetrf_tasks (F := F)) in Hx.
    assert (CB : forall k c, col_from b A k c l -> fst l = b) by (intros k c (r & _ & H); apply reg_block in H; exact H).
    assert (SB : forall lo hi, ipiv_sec pI lo hi l -> fst l = fst pI) by (intros lo hi (t & _ & ->); reflexivity).
    apply in_app_or in Hx. destruct Hx as [Hx|Hx]; [|apply in_app_or in Hx; destruct Hx as [Hx|Hx]].
    - destruct (in_partF _ _ _ _ _ _ _ Hx) as [(q & ->)|[(k & Hk & ->)|(k & c & Hk & Hc & ->)]].
      + cbn in HX. tauto.
      + cbn [panel_task ck_task k_reads k_writes] in HX. destruct HX as [[HX|HX]|[HX|HX]]; eauto.
      + cbn [update_task k_reads k_writes] in HX. destruct HX as [[HX|[HX|HX]]|HX]; eauto.
    - apply in_map_iff in Hx. destruct Hx as (z & <- & _). cbn in HX. tauto.
    - destruct (in_partL _ _ _ _ Hx) as [(q & ->)|(k & Hk & ->)]; [cbn in HX; tauto|].
      cbn [left_task k_reads k_writes] in HX. destruct HX as [[HX|HX]|HX]; eauto.
  Qed.

  Variable env : list (Z * (Z -> Z -> Prop)).
  Hypothesis HE : In (b, homeD A (in_tiles A)) env.
  Hypothesis HF : functional (home_env env).
  Variables xs rest : list (ktask (cell F)).
  Hypothesis LX : klinked (xs ++ KS).
  Hypothesis LR : klinked (xs ++ rest).
  Hypothesis RB : forall m1 y m2 l, rest = m1 ++ y :: m2 -> fst l = b -> k_reads y l \/ k_writes y l ->
    kdecl (home_env env) y \/
    exists p w q, m1 = p ++ w :: q /\ k_writes w l /\ kdecl (home_env env) w.
  Hypothesis RW : forall y l, In y rest -> k_writes y l -> fst l <> fst pI.
  Hypothesis RR : forall y l, In y rest -> k_reads y l -> fst l = fst pI -> exists d, In d (k_deps y) /\ dep_addr d = pI.

  Lemma after_getrf : klinked ((xs ++ KS) ++ rest).
  Proof.
    apply klinked_app; [assumption|apply (klinked_suffix _ xs); assumption|].
    intros l1 x l2 m1 y m2 E1 E2 HC.
    destruct (app_mid _ _ _ _ _ _ E1) as [(l & E3 & E4)|(l & E3 & E4)].
    - (* the translation *)
      rewrite E4. apply (linked_sub _ x (l ++ m1) y).
      + apply (LR l1 x (l ++ m1) y m2); [|assumption]. rewrite E3, E2. rewrite <- ?app_assoc. cbn [app]. rewrite <- ?app_assoc. reflexivity.
      + apply sub_app; [|apply sub_refl]. rewrite <- (app_nil_r l) at 1. apply sub_app; [apply sub_refl|constructor].
    - destruct HC as (q & HC).
      assert (IX : In x KS) by (rewrite E3; apply in_elt). assert (IY : In y rest) by (rewrite E2; apply in_elt).
      destruct (KS_blocks x q IX ltac:(tauto)) as [Hb|Hp].
      + destruct (flush bigger b A pI ib mpt SQ Hpi l x l2 q E3 Hb ltac:(tauto)) as (r & c & TA & WT).
        assert (HH : home_env env q (tptr b A r c)).
        { destruct TA as (T1 & T2 & T3). eapply home_tile; eauto. split; assumption. }
        destruct (RB m1 y m2 q E2 Hb ltac:(tauto)) as [[D1 D2]|(p & w & s & E5 & WW & [_ D2])].
        * destruct HC as [[HX HY]|[HX HY]].
          -- destruct HY as [HY|HY].
             ++ destruct (D1 q HY) as (d & H1 & H2); [eauto|]. apply (WT y m1 d); auto. eapply HF; eauto.
             ++ destruct (D2 q HY) as (d & H1 & H2 & H3). apply (WT y m1 d); auto. eapply HF; eauto.
          -- destruct (D2 q HY) as (d & H1 & H2 & H3). apply (WT y m1 d); auto. eapply HF; eauto.
        * rewrite E5. rewrite app_assoc. apply ln_trans.
          -- destruct (D2 q WW) as (d & H1 & H2 & H3). apply (WT w p d); auto. eapply HF; eauto.
          -- apply (LR (xs ++ p) w s y m2).
             ++ rewrite E2, E5, <- !app_assoc. cbn [app]. reflexivity.
             ++ exists q. left. split; [assumption|]. tauto.
      + assert (NW : ~ k_writes y q) by (intros W; apply (RW y q IY W Hp)).
        assert (HX : k_writes x q /\ k_reads y q) by tauto. destruct HX as [HX HY].
        destruct (RR y q IY HY Hp) as (d & H1 & H2).
        apply (flush_piv bigger b A pI ib mpt l x l2 q E3) with (d := d); auto. congruence.
  Qed.
End After.
