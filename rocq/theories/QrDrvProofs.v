(* Descriptors and regions of the QR drivers. *)
From Coq Require Import ZArith List Bool Lia.
From Verif Require Import Base NumModel NumProofs ControlModel TaskModel TaskSpec TaskProofs DescModel DescSpec DescDriverModel DescProofs DescProofs3 DescProofs4 DescTProofs
  MatModel MatSpec MatProofs RegionProofs LayoutModel LayoutProofs LayoutProofs2 DriverModel DriverSpec OpProofs OperandProofs GemmProofs GemmDriverProofs RankDriverProofs
  QrModel QrSpec QrAlgProofs QrStepProofs QrKerProofs QrKerProofs2 QrMulProofs QrLiftProofs QrTaskProofs QrEffProofs QrListProofs.
Import ListNotations.
Open Scope Z_scope.

Lemma geqrf_T_ok : forall nb ib m n, 0 < nb -> 0 < ib -> 0 < m -> 0 < n ->
  exists T size, geqrf_T nb ib m n = CrOk T size /\ tok nb ib m (Z.min m n) T.
Proof.
  intros nb ib m n Hnb Hib Hm Hn. unfold geqrf_T.
  destruct (ge_create_succeeds nb m n Hnb ltac:(lia) ltac:(lia)) as (A & EA & _). rewrite EA.
  destruct (ge_create_dn _ _ _ _ _ EA) as (DA & A1 & A2 & _).
  assert (PA : valid_precision (d_prec A) = true).
  { unfold ge_create in EA. apply general_create_ok in EA; try lia. destruct EA as (_ & -> & _). reflexivity. }
  pose proof (td_shape _ _ (sq_t _ _ _ DA)) as SH.
  pose proof (mt_aligned A SH) as EM. pose proof (nt_aligned A SH) as EN.
  assert (EB1 : d_mb A = nb) by apply (sq_mb _ _ _ DA). assert (EB2 : d_nb A = nb) by apply (sq_nb _ _ _ DA).
  rewrite A1, EB1 in EM. rewrite A2, EB2 in EN.
  destruct (Z.eqb_spec m 0); [lia|]. destruct (Z.eqb_spec n 0); [lia|].
  assert (0 <= (m - 1) / nb) by (apply Z.div_pos; lia). assert (0 <= (n - 1) / nb) by (apply Z.div_pos; lia).
  destruct (descT_shape A ib PlasmaFlatHouseholder Hib ltac:(lia) ltac:(lia) ltac:(lia) PA) as (T & ET & T1 & T2 & _).
  change (PlasmaFlatHouseholder =? PlasmaTreeHouseholder) with false in *. cbv iota in *.
  exists T. eexists. split; [exact ET|].
  assert (ET' := ET). unfold descT_create in ET'. cbv zeta in ET'.
  change (PlasmaFlatHouseholder =? PlasmaTreeHouseholder) with false in ET'. cbv iota in ET'.
  apply general_create_ok in ET'; try lia. destruct ET' as (GT & DT & _).
  assert (Z1 : d_mb T = ib) by (rewrite DT; reflexivity). assert (Z2 : d_nb T = nb) by (rewrite DT; cbn; assumption).
  assert (Z3 : d_m T = d_mt A * ib) by (rewrite DT; reflexivity). assert (Z4 : d_n T = d_nt A * nb) by (rewrite DT; cbn; rewrite EB2; reflexivity).
  pose proof (gk_shape _ GT) as ST. pose proof (mt_aligned T ST) as TM. rewrite Z1, Z3 in TM.
  assert (Z5 : d_mt T = d_mt A).
  { destruct (Z.eqb_spec (d_mt A * ib) 0) as [Q|Q]; [nia|]. rewrite TM.
    replace (d_mt A * ib - 1) with ((ib - 1) + (d_mt A - 1) * ib) by ring. rewrite Z.div_add by lia. rewrite Z.div_small by lia. lia. }
  split.
  - apply dense_tiled. assumption.
  - assumption.
  - intros k q (O1 & O2 & O3 & O4). cbn [fst snd] in *. 
    assert (q <= (m - 1) / nb) by (apply Z.div_le_lower_bound; lia). assert (k <= (n - 1) / nb) by (apply Z.div_le_lower_bound; lia).
    split; lia.
  - intros q k [I1 I2]. destruct (mview_spec T q ST I1) as [V1 V2]. rewrite V1, Z1, Z3. nia.
  - intros q k [I1 I2]. destruct (nview_spec T k ST I2) as [V1 V2]. rewrite V1, Z2, Z4. nia.
  - intros q k [I1 I2]. apply T2. lia.
Qed.

(* drivers whose tasks also use one more block, which is not translated *)
Section Ext.
  Context {V : Type}.
  Variable nb : Z.
  Variables ops ins outs : list opnd.
  Hypothesis HO : forall o, In o ops -> ook nb o.
  Hypothesis HI : incl ins ops.
  Hypothesis HU : incl outs ops.
  Hypothesis HB : NoDup (map o_b ops).
  Hypothesis HP : forall o o', In o ops -> In o' ops -> fst (o_p o) <> o_b o'.
  Hypothesis HNI : NoDup ins.
  Hypothesis HNO : NoDup outs.
  Hypothesis HAO : forall o o', In o outs -> In o' outs -> o = o' \/ oapart o o'.
  Hypothesis HAI : forall o, In o ins -> In o outs \/ forall o', In o' outs -> oapart o o'.
  Variables (bE : Z) (hE : Z -> Z -> Prop).
  Hypothesis HE1 : forall o, In o ops -> bE <> o_b o /\ bE <> fst (o_p o).
  Hypothesis HE2 : functionalZ hE.
  Variable comp : list (ktask V).
  Hypothesis CC : forall env, (forall o, In o ops -> In (o_homeD o) env) -> In (bE, hE) env ->
    Forall (fun k => kgood k /\ kdecl (home_env env) k) comp.

  Local Notation env0 := (ops_env ops outs).
  Local Notation env := ((bE, hE) :: env0).

  Lemma ext_split : forall l a, home_env env l a -> home_env env0 l a \/ fst l = bE.
  Proof.
    intros l a (E & h & [H|H] & H2); [inversion H; right; reflexivity|]. left. split; [assumption|]. exists h. auto.
  Qed.

  Lemma env0_block : forall b h, In (b, h) env0 -> b <> bE.
  Proof.
    intros b h H. destruct (ops_env_cases ops outs b h H) as [(o & Ho & -> & _)|(o & Ho & -> & _)].
    - intros E. apply (proj1 (HE1 o Ho)). auto.
    - intros E. apply (proj2 (HE1 o (HU o Ho))). auto.
  Qed.

  Lemma ext_functional : functional (home_env env).
  Proof.
    apply home_env_functional2. intros b h h' x a a' [H|H] [H'|H'] Hx Hx'.
    - assert (X1 : h = hE) by congruence. assert (X2 : h' = hE) by congruence. rewrite X1 in Hx. rewrite X2 in Hx'.
      eapply HE2; eassumption.
    - exfalso. apply (env0_block _ _ H'). congruence.
    - exfalso. apply (env0_block _ _ H). congruence.
    - pose proof (ops_env_functional nb ops outs HO HU HB HP HAO) as F.
      assert (X : (b, a) = (b, a')).
      { apply (F (b, x)); (split; [reflexivity|]); [exists h|exists h']; (split; [assumption|cbn; assumption]). }
      congruence.
  Qed.

  Lemma ext_region : forall M,
    region_ensures (flat_map o_in ins ++ comp ++ flat_map o_out outs) M (fun M' => exists M3,
      (forall o i j, In o ins -> o_el o i j ->
         el M3 (o_b o) (o_A o) i j = ul M (o_p o) (o_ld o) i j) /\
      (forall l, (forall o, In o ins -> fst l <> o_b o) -> M3 l = M l) /\
      (forall o i j, In o outs -> o_el o i j ->
         ul M' (o_p o) (o_ld o) i j = el (krun comp M3) (o_b o) (o_A o) i j) /\
      (forall l, (forall o, In o outs -> ~ o_user o l) -> M' l = krun comp M3 l)).
  Proof.
    intros M.
    assert (CE : Forall (fun k => kgood k /\ kdecl (home_env env) k) comp).
    { apply CC; [|left; reflexivity]. intros o Ho. right. unfold ops_env. apply in_or_app. left. apply in_map. assumption. }
    eapply ops_region_linked; eauto.
    - eapply Forall_impl; [|exact CE]. intros k [H _]. exact H.
    - apply korders_klinked. apply (kdecl_korders V (home_env env)); [apply ext_functional|].
      rewrite !Forall_app. split; [|split].
      + apply Forall_flat_map_intro. intros o Ho. pose proof (HI o Ho) as Ho'. pose proof (HO o Ho') as [Q1 Q2 Q3 Q4].
        apply copy_in_kdecl with (S := o_S o); eauto using sq_t.
        * right. unfold ops_env. apply in_or_app. left. apply (in_map o_homeD). assumption.
        * destruct (HAI o Ho) as [HX|HX].
          -- right. right. unfold ops_env. apply in_or_app. right. apply (in_map o_homeU). assumption.
          -- left. intros l Hl [a Ha]. apply ext_split in Ha. destruct Ha as [Ha|Ha].
             ++ eapply (no_home_ops nb ops outs HO HU l); [| |exists a; exact Ha].
                ** intros o' Hp. rewrite (in_user_block _ _ _ _ _ Hl). auto.
                ** intros o' Hp. apply HX; assumption.
             ++ rewrite (in_user_block _ _ _ _ _ Hl) in Ha. apply (proj2 (HE1 o Ho')). auto.
      + eapply Forall_impl; [|exact CE]. intros k [_ H]. exact H.
      + apply Forall_flat_map_intro. intros o Ho. pose proof (HU o Ho) as Ho'. pose proof (HO o Ho') as [Q1 Q2 Q3 Q4].
        apply copy_out_kdecl with (S := o_S o); eauto using sq_t.
        * right. unfold ops_env. apply in_or_app. left. apply (in_map o_homeD). assumption.
        * right. unfold ops_env. apply in_or_app. right. apply (in_map o_homeU). assumption.
  Qed.
End Ext.

(* one dense operand, read and written, and one more block *)
Lemma ext_region1 : forall V nb bA A pA lda bE hE (comp : list (ktask V)),
  dn nb A -> d_m A <= lda -> fst pA <> bA -> bE <> bA -> bE <> fst pA -> functionalZ hE ->
  (forall env, In (bA, homeD A (in_tiles A)) env -> In (bE, hE) env -> Forall (fun k => kgood k /\ kdecl (home_env env) k) comp) ->
  forall M, region_ensures (pzge2desc pA lda bA A ++ comp ++ pzdesc2ge bA A pA lda) M
    (fun M' => exists M3,
      (forall i j, 0 <= i < d_m A -> 0 <= j < d_n A -> el M3 bA A i j = ul M pA lda i j) /\
      (forall l, fst l <> bA -> M3 l = M l) /\
      (forall i j, 0 <= i < d_m A -> 0 <= j < d_n A -> ul M' pA lda i j = el (krun comp M3) bA A i j) /\
      (forall l, ~ in_user pA lda (d_m A) (d_n A) l -> M' l = krun comp M3 l)).
Proof.
  intros V nb bA A pA lda bE hE comp HA LA HF E1 E2 E3 CC M.
  pose proof (ext_region (V := V) nb [ge_opnd bA A pA lda] [ge_opnd bA A pA lda] [ge_opnd bA A pA lda]) as R.
  assert (R' := R). clear R. rename R' into R.
  eapply region_mono; [|replace (pzge2desc pA lda bA A ++ comp ++ pzdesc2ge bA A pA lda)
     with (flat_map (@o_in V) [ge_opnd bA A pA lda] ++ comp ++ flat_map o_out [ge_opnd bA A pA lda])
       by (cbn [flat_map]; rewrite !app_nil_r, ge_opnd_in, ge_opnd_out; reflexivity); eapply R with (bE := bE) (hE := hE); clear R].
  - intros M' (M3 & H1 & H2 & H3 & H4). exists M3. split; [|split; [|split]].
    + intros i j Hi Hj. apply (H1 (ge_opnd bA A pA lda)); [left; reflexivity|]. apply (ge_opnd_el nb); assumption.
    + intros l Hl. apply H2. intros o [<-|[]]. assumption.
    + intros i j Hi Hj. apply (H3 (ge_opnd bA A pA lda)); [left; reflexivity|]. apply (ge_opnd_el nb); assumption.
    + intros l Hl. apply H4. intros o [<-|[]] X. apply Hl. apply ge_opnd_user in X. exact X.
  - intros o [<-|[]]; apply ge_opnd_ok; assumption.
  - apply incl_refl.
  - apply incl_refl.
  - cbn. constructor; [intros []|constructor].
  - intros o o' [<-|[]] [<-|[]]; cbn. assumption.
  - constructor; [intros []|constructor].
  - constructor; [intros []|constructor].
  - intros o o' [<-|[]] [<-|[]]. left. reflexivity.
  - intros o Ho. left. assumption.
  - intros o [<-|[]]. cbn. split; [exact E1|exact E2].
  - exact E3.
  - intros env HE HE'. apply CC; [|assumption]. apply (HE (ge_opnd bA A pA lda)). left; reflexivity.
Qed.

(* two dense operands, the second read and written, and one more block *)
Lemma ext_region2 : forall V nb bA A pA lda bC C pC ldc bE hE (comp : list (ktask V)),
  dn nb A -> dn nb C -> d_m A <= lda -> d_m C <= ldc ->
  NoDup [bE; bA; bC] -> (forall b, In b [fst pA; fst pC] -> ~ In b [bE; bA; bC]) ->
  apart pA lda (d_m A) (d_n A) pC ldc (d_m C) (d_n C) -> functionalZ hE ->
  (forall env, In (bA, homeD A (in_tiles A)) env -> In (bC, homeD C (in_tiles C)) env -> In (bE, hE) env ->
     Forall (fun k => kgood k /\ kdecl (home_env env) k) comp) ->
  forall M, region_ensures (pzge2desc pA lda bA A ++ pzge2desc pC ldc bC C ++ comp ++ pzdesc2ge bC C pC ldc) M
    (fun M' => exists M3,
      (forall i j, 0 <= i < d_m A -> 0 <= j < d_n A -> el M3 bA A i j = ul M pA lda i j) /\
      (forall i j, 0 <= i < d_m C -> 0 <= j < d_n C -> el M3 bC C i j = ul M pC ldc i j) /\
      (forall l, fst l <> bA -> fst l <> bC -> M3 l = M l) /\
      (forall i j, 0 <= i < d_m C -> 0 <= j < d_n C -> ul M' pC ldc i j = el (krun comp M3) bC C i j) /\
      (forall l, ~ in_user pC ldc (d_m C) (d_n C) l -> M' l = krun comp M3 l)).
Proof.
  intros V nb bA A pA lda bC C pC ldc bE hE comp HA HC LA LC HND HF HAP E3 CC M.
  set (oA := ge_opnd bA A pA lda). set (oC := ge_opnd bC C pC ldc).
  assert (NAC : bA <> bC /\ bE <> bA /\ bE <> bC).
  { inversion_clear HND as [|? ? N1 N2]. inversion_clear N2 as [|? ? N3 N4]. cbn in *. intuition. }
  destruct NAC as (NAC & NEA & NEC).
  pose proof (HF (fst pA) (or_introl eq_refl)) as FA. pose proof (HF (fst pC) (or_intror (or_introl eq_refl))) as FC. cbn in FA, FC.
  pose proof (ext_region (V := V) nb [oA; oC] [oA; oC] [oC]) as R.
  eapply region_mono; [|replace (pzge2desc pA lda bA A ++ pzge2desc pC ldc bC C ++ comp ++ pzdesc2ge bC C pC ldc)
     with (flat_map (@o_in V) [oA; oC] ++ comp ++ flat_map o_out [oC])
       by (unfold oA, oC; cbn [flat_map]; rewrite !app_nil_r, !ge_opnd_in, ge_opnd_out, <- app_assoc; reflexivity); eapply R with (bE := bE) (hE := hE); clear R].
  - intros M' (M3 & H1 & H2 & H3 & H4). exists M3. split; [|split; [|split; [|split]]].
    + intros i j Hi Hj. apply (H1 oA); [left; reflexivity|]. apply (ge_opnd_el nb); assumption.
    + intros i j Hi Hj. apply (H1 oC); [right; left; reflexivity|]. apply (ge_opnd_el nb); assumption.
    + intros l Hl Hl'. apply H2. intros o [<-|[<-|[]]]; assumption.
    + intros i j Hi Hj. apply (H3 oC); [left; reflexivity|]. apply (ge_opnd_el nb); assumption.
    + intros l Hl. apply H4. intros o [<-|[]] X. apply Hl. apply ge_opnd_user in X. exact X.
  - intros o [<-|[<-|[]]]; apply ge_opnd_ok; assumption.
  - apply incl_refl.
  - intros o [<-|[]]. right. left. reflexivity.
  - cbn. constructor; [intros [X|[]]; auto|]. constructor; [intros []|constructor].
  - intros o o' [<-|[<-|[]]] [<-|[<-|[]]]; cbn; intros X; first [apply FA; rewrite X; solve [auto]|apply FC; rewrite X; solve [auto]].
  - constructor; [intros [X|[]]|]. { apply (f_equal o_b) in X. cbn in X. auto. } constructor; [intros []|constructor].
  - constructor; [intros []|constructor].
  - intros o o' [<-|[]] [<-|[]]. left. reflexivity.
  - intros o [<-|[<-|[]]].
    + right. intros o' [<-|[]]. intros l Hl X. apply ge_opnd_user in X. exact (HAP l Hl X).
    + left. left. reflexivity.
  - intros o [<-|[<-|[]]]; cbn; (split; [assumption|]); intros X; first [apply FA; rewrite X; solve [auto]|apply FC; rewrite X; solve [auto]].
  - exact E3.
  - intros env HE HE'. apply CC; [| |assumption].
    + apply (HE oA). left; reflexivity.
    + apply (HE oC). right; left; reflexivity.
Qed.
