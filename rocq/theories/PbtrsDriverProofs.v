(* plasma_zpbtrs *)
From Coq Require Import ZArith List Bool Lia Ring.
From Verif Require Import Base NumModel NumProofs FieldModel TaskModel TaskSpec TaskProofs DescModel DescSpec
  DescDriverModel DescProofs DescPackProofs DescProofs3 DescProofs4 MatModel MatSpec MatProofs RegionProofs
  GuardModel GuardSpec GuardProofs GuardProofs2 GuardAnyProofs
  LayoutModel LayoutProofs LayoutProofs2 DriverModel DriverSpec OpProofs SimProofs OperandProofs GOperandProofs GAnyProofs
  GemmModel GemmProofs GemmDriverProofs RankModel RankProofs RankDriverProofs LasetModel LasetProofs
  TriModel TriSpec TriVecProofs TriProofs TrmmProofs TrmmDriverProofs TrsmProofs TrsmDriverProofs PanelProofs
  PotrfModel PotrfSpec BandModel BandSpec BandProofs BandLayoutProofs BandRegionProofs PbtrsModel PbtrsProofs.
Import ListNotations.
Open Scope Z_scope.

Section Solves.
  Context {F : fields}.
  Add Ring num_ring_pbtrs : (nring F).
  Variables (nb n kd : Z) (A B : desc) (bA bB uplo : Z).
  Hypothesis HT : pb_ok A uplo nb n kd.
  Hypothesis HB : dn nb B.
  Hypothesis Bm : d_m B = n.
  Let Hu : uplo = PlasmaUpper \/ uplo = PlasmaLower := pk_u _ _ _ _ _ HT.

  Lemma two_band_kgood : Forall (@kgood F) (two_band_solves uplo bA A bB B).
  Proof. apply Forall_app. split; apply (pztbsm_kgood nb n kd); assumption. Qed.

  Lemma two_band_kdecl : forall env, In (bA, homeD A (in_tb A)) env -> In (bB, homeD B (in_tiles B)) env ->
    Forall (kdecl (home_env env)) (two_band_solves (F := F) uplo bA A bB B).
  Proof. intros env E1 E2. apply Forall_app. split; apply (pztbsm_kdecl nb n kd); assumption. Qed.

  Lemma two_band_writes : forall (k : ktask F) l, In k (two_band_solves uplo bA A bB B) -> k_writes k l -> fst l = bB.
  Proof.
    intros k l Hk W. apply in_app_or in Hk. destruct Hk as [Hk|Hk]; eapply (pztbsm_writes nb n kd); eauto.
  Qed.

  Hypothesis NA : bA <> bB.
  Variable T : Z -> Z -> F.
  Hypothesis TB : forall i j, in_matrix n n i j -> ~ in_band uplo kd i j -> T i j = n0.
  Hypothesis TD : forall i, 0 <= i < n -> T i i <> n0.
  Hypothesis Hn : 0 < d_n B.

  (* the tiles hold T *)
  Definition holds (M : mem F) : Prop := forall i j, in_matrix n n i j -> in_tb A (i / nb) (j / nb) ->
    uplo_sel uplo i j = true -> el M bA A i j = T i j.

  Lemma BT_spec : forall M trans, holds M -> forall r l, 0 <= r < n -> 0 <= l < n ->
    BT nb kd A bA uplo trans PlasmaNonUnit M r l = op_of trans T r l.
  Proof.
    intros M trans HM r l Hr Hl.
    assert (Hb : 0 < nb) by (apply (sq_pos nb B _ HB)).
    pose proof (ktl_bounds A uplo nb n kd HT) as KB.
    assert (G : forall i j, 0 <= i < n -> 0 <= j < n ->
      (if (- ktl nb kd <=? i / nb - j / nb) && (i / nb - j / nb <=? ktl nb kd) then tri_el A bA uplo PlasmaNonUnit M i j else n0) = T i j).
    { intros i j Hi Hj. destruct (tile_in nb n Hb ltac:(lia) i Hi) as [I1 I2]. destruct (tile_in nb n Hb ltac:(lia) j Hj) as [J1 J2].
      destruct (Z.leb_spec (- ktl nb kd) (i / nb - j / nb)) as [D1|D1], (Z.leb_spec (i / nb - j / nb) (ktl nb kd)) as [D2|D2]; cbn [andb].
      - unfold tri_el. change (PlasmaNonUnit =? PlasmaUnit) with false. cbn [andb].
        destruct (uplo_sel uplo i j) eqn:E.
        + apply HM; [split; assumption| |assumption]. apply (in_tb_spec A uplo nb n kd HT).
          destruct Hu as [->| ->]; cbn in E |- *; apply Z.leb_le in E; pose proof (Z.div_le_mono _ _ nb Hb E); lia.
        + symmetry. apply TB; [split; assumption|]. intros [[-> X]|[-> X]]; cbn in E; apply Z.leb_gt in E; lia.
      - symmetry. apply TB; [split; assumption|]. intros HI.
        pose proof (band_tb A uplo nb n kd HT i j ltac:(split; assumption) HI) as X.
        apply (in_tb_spec A uplo nb n kd HT) in X. destruct (uplo =? PlasmaUpper); lia.
      - symmetry. apply TB; [split; assumption|]. intros HI.
        pose proof (band_tb A uplo nb n kd HT i j ltac:(split; assumption) HI) as X.
        apply (in_tb_spec A uplo nb n kd HT) in X. destruct (uplo =? PlasmaUpper); lia.
      - lia. }
    pose proof (G r l Hr Hl) as G1. pose proof (G l r Hl Hr) as G2.
    unfold BT, TT, op_tel, op_of. change (lft PlasmaLeft) with true. cbv iota.
    destruct (trans =? PlasmaNoTrans); [exact G1|].
    assert (EQ : (- ktl nb kd <=? r / nb - l / nb) && (r / nb - l / nb <=? ktl nb kd)
               = (- ktl nb kd <=? l / nb - r / nb) && (l / nb - r / nb <=? ktl nb kd)).
    { apply eq_true_iff_eq. rewrite !andb_true_iff, !Z.leb_le. lia. }
    rewrite EQ. rewrite <- G2. clear EQ G1 G2.
    destruct ((- ktl nb kd <=? l / nb - r / nb) && (l / nb - r / nb <=? ktl nb kd)), (trans =? PlasmaTrans); try reflexivity.
    symmetry. apply nconj_0.
  Qed.

  Lemma one_band_solve : forall M trans, holds M ->
    let M' := krun (pztbsm PlasmaLeft uplo trans PlasmaNonUnit n1 bA A bB B) M in
    (forall l, fst l <> bB -> M' l = M l) /\
    (forall i j, 0 <= i < n -> 0 <= j < d_n B ->
       nsum (fun l => nmul (op_of trans T i l) (el M' bB B l j)) 0 n = el M bB B i j).
  Proof.
    intros M trans HM. pose proof (BT_spec M trans HM) as BS.
    assert (TD' : forall r, 0 <= r < n -> TT A bA PlasmaLeft uplo trans PlasmaNonUnit M r r <> n0).
    { intros r Hr. pose proof (BS r r Hr Hr) as E. unfold BT in E. rewrite Z.sub_diag in E.
      pose proof (ktl_bounds A uplo nb n kd HT) as KB.
      replace (- ktl nb kd <=? 0) with true in E by (symmetry; apply Z.leb_le; lia).
      replace (0 <=? ktl nb kd) with true in E by (symmetry; apply Z.leb_le; lia). cbn [andb] in E. rewrite E.
      unfold op_of. pose proof (TD r Hr). destruct (trans =? PlasmaNoTrans); auto. destruct (trans =? PlasmaTrans); auto using nconj_nz. }
    pose proof (pztbsm_at nb n kd A B bA bB uplo trans PlasmaNonUnit HT HB Bm NA M TD') as AT.
    cbv zeta in AT. cbv zeta. split.
    - apply (AT 0). lia.
    - intros i j Hi Hj. destruct (AT j Hj) as [_ V]. rewrite <- V by assumption.
      apply nsum_ext. intros l Hl. rewrite BS by assumption. reflexivity.
  Qed.

  Lemma two_band_at : forall M, holds M ->
    let M' := krun (two_band_solves uplo bA A bB B) M in
    (forall l, fst l <> bB -> M' l = M l) /\
    (forall i j, 0 <= i < n -> 0 <= j < d_n B ->
       nsum (fun l => nmul (factor_product uplo n T i l) (el M' bB B l j)) 0 n = el M bB B i j).
  Proof.
    intros M HE. cbv zeta. unfold two_band_solves. rewrite krun_app.
    remember (if uplo =? PlasmaUpper then PlasmaConjTrans else PlasmaNoTrans) as t1 eqn:E1.
    remember (if uplo =? PlasmaUpper then PlasmaNoTrans else PlasmaConjTrans) as t2 eqn:E2.
    destruct (one_band_solve M t1 HE) as [X1 V1].
    remember (krun (pztbsm PlasmaLeft uplo t1 PlasmaNonUnit n1 bA A bB B) M) as M1 eqn:EM1.
    assert (HE1 : holds M1).
    { intros i j Hi Hj Hs. rewrite <- HE by assumption. unfold el. apply X1. exact NA. }
    destruct (one_band_solve M1 t2 HE1) as [X2 V2].
    remember (krun (pztbsm PlasmaLeft uplo t2 PlasmaNonUnit n1 bA A bB B) M1) as M2 eqn:EM2.
    split.
    - intros l Hl. rewrite X2, X1 by assumption. reflexivity.
    - intros i j Hi Hj. rewrite <- V1 by assumption.
      transitivity (nsum (fun k => nmul (op_of t1 T i k) (nsum (fun l => nmul (op_of t2 T k l) (el M2 bB B l j)) 0 n)) 0 n).
      + transitivity (nsum (fun l => nsum (fun k => nmul (op_of t1 T i k) (nmul (op_of t2 T k l) (el M2 bB B l j))) 0 n) 0 n).
        * apply nsum_ext. intros l Hl. unfold factor_product, op_of. rewrite E1, E2.
          destruct Hu as [->| ->]; cbn; rewrite <- nsum_mul_r; apply nsum_ext; intros k Hk; ring.
        * rewrite nsum_swap. apply nsum_ext. intros k Hk. apply nsum_mul_l.
      + apply nsum_ext. intros k Hk. rewrite V2 by assumption. reflexivity.
  Qed.
End Solves.

(* a band matrix and a general matrix in one region *)
Section Regions.
  Context {F : numbers}.
  Variables (A : desc) (uplo nb n kd : Z).
  Hypothesis HP : pb_ok A uplo nb n kd.
  Variable B : desc.
  Hypothesis HB : dn nb B.
  Variables (bA : Z) (pA : loc) (ld bB : Z) (pB : loc) (ldb : Z).
  Hypothesis HL : kd < ld.
  Hypothesis LB : d_m B <= ldb.
  Hypothesis NB : bA <> bB.
  Hypothesis HF : forall b, In b [fst pA; fst pB] -> ~ In b [bA; bB].
  Hypothesis AP : forall l, in_user_band uplo kd pA ld n l -> ~ in_user pB ldb (d_m B) (d_n B) l.

  Let FA1 : fst pA <> bA.
  Proof. intros E. apply (HF (fst pA)); cbn; auto. Qed.
  Let FA2 : fst pA <> bB.
  Proof. intros E. apply (HF (fst pA)); cbn; auto. Qed.
  Let FB1 : fst pB <> bA.
  Proof. intros E. apply (HF (fst pB)); cbn; auto. Qed.
  Let FB2 : fst pB <> bB.
  Proof. intros E. apply (HF (fst pB)); cbn; auto. Qed.
  Let OB : ook nb (ge_opnd bB B pB ldb).
  Proof. apply ge_opnd_ok; assumption. Qed.

  Definition bb_env : list (Z * (Z -> Z -> Prop)) :=
    [(bA, homeD A (in_tb A)); (bB, homeD B (in_tiles B));
     (fst pA, homeB A uplo nb n kd pA ld); (fst pB, homeU B (in_tiles B) pB ldb)].

  Lemma homeB_user : forall x a, homeB A uplo nb n kd pA ld x a -> in_user_band uplo kd pA ld n (fst pA, x).
  Proof.
    intros x a (m & k & r & c & HI & Hr & Hc & HN & E & _). exists (m * nb + r), (k * nb + c).
    pose proof (sq_pos nb B _ HB). destruct HI as [[[? _] [? _]] _].
    split; [|split; assumption]. unfold tsz in *. split; nia.
  Qed.

  Lemma bb_functional : functional (home_env bb_env).
  Proof.
    apply home_env_functional2. intros b h h' x a a' H H' Hx Hx'.
    pose proof (homeD_functional A (in_tb A) (tb_tiled A uplo nb n kd HP)) as G1.
    pose proof (homeD_functional B (in_tiles B) (sq_t nb B _ HB)) as G2.
    pose proof (homeB_functional A uplo nb n kd HP pA ld) as G3.
    pose proof (homeU_functional_o nb _ OB) as G4. cbn in G4.
    assert (AX : forall x a a', fst pA = fst pB -> homeB A uplo nb n kd pA ld x a -> homeU B (in_tiles B) pB ldb x a' -> False).
    { intros y c c' E Q1 Q2. apply homeB_user in Q1. apply (AP _ Q1). rewrite E.
      apply (ge_opnd_user bB B pB ldb). apply (homeU_user nb _ y c' OB). exact Q2. }
    destruct H as [E|[E|[E|[E|[]]]]]; injection E as <- <-; destruct H' as [E'|[E'|[E'|[E'|[]]]]];
      pose proof (f_equal fst E') as E1; pose proof (f_equal snd E') as E2; cbn [fst snd] in E1, E2; clear E'; subst h';
      first [exfalso; congruence
            |exact (G1 _ _ _ Hx Hx')|exact (G2 _ _ _ Hx Hx')|exact (G3 HL _ _ _ Hx Hx')|exact (G4 _ _ _ Hx Hx')
            |exfalso; refine (AX _ _ _ _ Hx Hx'); congruence|exfalso; refine (AX _ _ _ _ Hx' Hx); congruence].
  Qed.

  Definition bb_in : list (ktask F) := pzpb2desc pA ld bA A ++ pzge2desc pB ldb bB B.

  Lemma bb_in_kgood : Forall kgood bb_in.
  Proof.
    apply Forall_app. split; [apply (pzpb2desc_kgood A uplo nb n kd HP); assumption|].
    rewrite <- ge_opnd_in. destruct OB as [Q1 Q2 Q3 Q4]. eapply copy_in_kgood; eauto using sq_t.
  Qed.
  Lemma bb_in_kdecl : Forall (kdecl (home_env bb_env)) bb_in.
  Proof.
    apply Forall_app. split.
    - apply (pzpb2desc_kdecl A uplo nb n kd HP); [left; reflexivity|left; right; right; left; reflexivity].
    - rewrite <- ge_opnd_in. destruct OB as [Q1 Q2 Q3 Q4]. eapply copy_in_kdecl; eauto using sq_t.
      + right. left. reflexivity.
      + right. right. right. right. left. reflexivity.
  Qed.
  Lemma bb_in_writes : forall k l, In k bb_in -> k_writes k l -> In (fst l) [bA; bB].
  Proof.
    intros k l Hk W. apply in_app_or in Hk. destruct Hk as [Hk|Hk].
    - left. symmetry. eapply (pzpb2desc_writes A uplo nb n kd HP); eauto.
    - right. left. symmetry. rewrite <- ge_opnd_in in Hk. unfold o_in, copy_in_all in Hk. apply in_flat_map in Hk.
      destruct Hk as ([m k'] & _ & [<-|[]]). cbn in W. apply reg_block in W. exact W.
  Qed.
  Lemma bb_in_spec : forall M, let M3 := krun bb_in M in
    (forall i j, in_matrix n n i j -> in_tb A (i / nb) (j / nb) ->
       el M3 bA A i j = if in_band_dec uplo kd i j then bel M uplo kd pA ld i j else n0) /\
    (forall i j, 0 <= i < d_m B -> 0 <= j < d_n B -> el M3 bB B i j = ul M pB ldb i j) /\
    (forall l, ~ In (fst l) [bA; bB] -> M3 l = M l).
  Proof.
    intros M. cbv zeta. unfold bb_in. rewrite krun_app. remember (krun (pzpb2desc pA ld bA A) M) as M1 eqn:E1.
    assert (FR : forall l, fst l <> bB -> krun (pzge2desc pB ldb bB B) M1 l = M1 l).
    { intros l Hl. rewrite <- ge_opnd_in. destruct OB as [Q1 Q2 Q3 Q4].
      exact (copy_in_frame _ _ _ _ _ (sq_t _ _ _ Q1) _ Q2 M1 l FB2 Hl). }
    assert (FR1 : forall l, fst l <> bA -> M1 l = M l).
    { intros l Hl. rewrite E1. apply (pzpb2desc_frame A uplo nb n kd HP); assumption. }
    split; [|split].
    - intros i j HM HI. rewrite <- (pzpb2desc_spec A uplo nb n kd HP bA pA ld) by assumption. rewrite <- E1.
      unfold el. apply FR. exact NB.
    - intros i j Hi Hj. transitivity (ul M1 pB ldb i j); [|unfold ul; apply FR1; exact FB1].
      rewrite <- ge_opnd_in. destruct OB as [Q1 Q2 Q3 Q4].
      pose proof (ge_opnd_el nb bB B pB ldb i j HB Hi Hj) as (_ & _ & Q5).
      exact (copy_in_spec _ _ _ _ _ (sq_t _ _ _ Q1) _ Q2 Q3 M1 i j FB2 Hi Hj Q5).
    - intros l Hl. cbn in Hl. rewrite FR, FR1 by intuition. reflexivity.
  Qed.

  Let bo : list (ktask F) := pzdesc2ge bB B pB ldb.
  Lemma ge_out_kgood : Forall kgood bo.
  Proof. unfold bo. rewrite <- ge_opnd_out. destruct OB as [Q1 Q2 Q3 Q4]. eapply copy_out_kgood; eauto using sq_t. Qed.
  Lemma ge_out_kdecl : Forall (kdecl (home_env bb_env)) bo.
  Proof.
    unfold bo. rewrite <- ge_opnd_out. destruct OB as [Q1 Q2 Q3 Q4]. eapply copy_out_kdecl; eauto using sq_t.
    - right. left. reflexivity.
    - right. right. right. left. reflexivity.
  Qed.
  Lemma ge_out_frame : forall M l, ~ in_user pB ldb (d_m B) (d_n B) l -> krun bo M l = M l.
  Proof.
    intros M l Hl. unfold bo. rewrite <- ge_opnd_out. destruct OB as [Q1 Q2 Q3 Q4].
    apply (copy_out_frame _ _ _ _ _ (sq_t _ _ _ Q1) _ Q2 Q4). intros i j Hi Hj _ E. apply Hl. exists i, j. auto.
  Qed.
  Lemma ge_out_spec : forall M i j, 0 <= i < d_m B -> 0 <= j < d_n B -> ul (krun bo M) pB ldb i j = el M bB B i j.
  Proof.
    intros M i j Hi Hj. unfold bo. rewrite <- ge_opnd_out. destruct OB as [Q1 Q2 Q3 Q4].
    pose proof (ge_opnd_el nb bB B pB ldb i j HB Hi Hj) as (_ & _ & Q5).
    exact (copy_out_spec _ _ _ _ _ (sq_t _ _ _ Q1) _ Q2 Q3 Q4 M i j FB2 Hi Hj Q5).
  Qed.

  (* the band read only *)
  Lemma bb_region : forall comp : list (ktask F), Forall kgood comp ->
    (forall env, In (bA, homeD A (in_tb A)) env -> In (bB, homeD B (in_tiles B)) env ->
       Forall (kdecl (home_env env)) comp) ->
    forall M, region_ensures (bb_in ++ comp ++ pzdesc2ge bB B pB ldb) M (fun M' =>
      (forall i j, 0 <= i < d_m B -> 0 <= j < d_n B -> ul M' pB ldb i j = el (krun comp (krun bb_in M)) bB B i j) /\
      (forall l, ~ in_user pB ldb (d_m B) (d_n B) l -> M' l = krun comp (krun bb_in M) l)).
  Proof.
    intros comp CG CD M. apply region_intro.
    - rewrite !Forall_app. split; [apply bb_in_kgood|]. split; [assumption|apply ge_out_kgood].
    - apply korders_klinked. apply (kdecl_korders F (home_env bb_env)); [apply bb_functional|].
      rewrite !Forall_app. split; [apply bb_in_kdecl|]. split; [|apply ge_out_kdecl].
      apply CD; [left; reflexivity|right; left; reflexivity].
    - intros M' E. rewrite !krun_app in E. split.
      + intros i j Hi Hj. unfold ul at 1. rewrite E. apply ge_out_spec; assumption.
      + intros l Hl. rewrite E. apply ge_out_frame. assumption.
  Qed.

  (* both translated back *)
  Lemma bb_gregion : forall comp : list (cktask F),
    Forall kgood (map ck_task comp) -> Forall cksound comp ->
    (forall env, In (bA, homeD A (in_tb A)) env -> In (bB, homeD B (in_tiles B)) env ->
       Forall (kdecl (home_env env)) (map ck_task comp)) ->
    (forall k l, In k comp -> k_writes (ck_task k) l -> In (fst l) [bA; bB]) ->
    forall M, gregion_ensures (map sure bb_in ++ comp ++ map sure (pzdesc2pb bA A pA ld ++ pzdesc2ge bB B pB ldb)) M
      (fun M' st =>
        (st <> 0 -> guilty comp (krun bb_in M) st) /\
        (st = 0 -> Forall (fun c => c = 0) (kcodes comp (krun bb_in M)) /\
          (forall i j, in_matrix n n i j -> in_band uplo kd i j ->
             bel M' uplo kd pA ld i j = el (krun (map ck_task comp) (krun bb_in M)) bA A i j) /\
          (forall i j, 0 <= i < d_m B -> 0 <= j < d_n B ->
             ul M' pB ldb i j = el (krun (map ck_task comp) (krun bb_in M)) bB B i j)) /\
        (forall l, ~ In (fst l) [bA; bB] -> ~ in_user_band uplo kd pA ld n l -> ~ in_user pB ldb (d_m B) (d_n B) l ->
           M' l = M l)).
  Proof.
    intros comp CG CS CD CW M. apply gregion_intro_any.
    - rewrite !map_app, !map_sure, !Forall_app. split; [apply bb_in_kgood|]. split; [assumption|].
      split; [apply (pzdesc2pb_kgood A uplo nb n kd HP); assumption|apply ge_out_kgood].
    - rewrite !Forall_app. split; [apply cksound_sure|]. split; [assumption|apply cksound_sure].
    - rewrite !map_app, !map_sure. apply korders_klinked. apply (kdecl_korders F (home_env bb_env)); [apply bb_functional|].
      rewrite !Forall_app. split; [apply bb_in_kdecl|]. split; [apply CD; [left; reflexivity|right; left; reflexivity]|].
      split; [|apply ge_out_kdecl]. apply (pzdesc2pb_kdecl A uplo nb n kd HP); [left; reflexivity|right; right; left; reflexivity].
    - intros M' st E0 EN HFR. split; [|split].
      + intros NZ. eapply guilty_inner; eauto.
      + intros Z0. destruct (E0 Z0) as [K E1]. rewrite !map_app, !map_sure, !krun_app in E1.
        apply kcodes_all0 in K. destruct K as [_ K]. apply kcodes_all0 in K. destruct K as [K _]. rewrite map_sure in K.
        split; [assumption|]. split.
        * intros i j HM HI. unfold bel at 1. rewrite E1.
          rewrite ge_out_frame by (apply AP; exists i, j; auto).
          apply (pzdesc2pb_spec A uplo nb n kd HP); assumption.
        * intros i j Hi Hj. unfold ul. rewrite E1.
          match goal with |- krun ?k ?m _ = _ => change (ul (krun bo m) pB ldb i j = el (krun (map ck_task comp) (krun bb_in M)) bB B i j) end.
          rewrite ge_out_spec by assumption. unfold el. eapply (pzdesc2pb_frame A uplo nb n kd HP); try assumption.
          intros (i' & j' & _ & _ & E). apply (f_equal fst) in E. cbn in E. congruence.
      + intros l H1 H2 H3. apply HFR. intros k Hk W. rewrite !in_app_iff in Hk. destruct Hk as [Hk|[Hk|Hk]].
        * apply in_map_iff in Hk. destruct Hk as (x & <- & Hx). apply H1. eapply bb_in_writes; eauto.
        * apply H1. eapply CW; eauto.
        * apply in_map_iff in Hk. destruct Hk as (x & <- & Hx). apply in_app_or in Hx. destruct Hx as [Hx|Hx].
          -- apply H2. eapply (pzdesc2pb_writes A uplo nb n kd HP); eauto.
          -- apply H3. rewrite <- ge_opnd_out in Hx. apply (ge_opnd_user bB B pB ldb). exact (o_out_writes F nb _ x l OB Hx W).
  Qed.
End Regions.

Section Driver.
  Context {F : fields}.
  Add Ring num_ring_pbtrs2 : (nring F).

  Lemma zpbtrs_main : forall (T : Z -> Z -> F) nb uplo n kd nrhs pA ld pB ldb bA bB M,
    0 < nb -> valid_uplo uplo -> 0 <= kd < n -> 0 <= nrhs -> kd < ld -> n <= ldb ->
    NoDup [bA; bB] -> (forall b, In b [fst pA; fst pB] -> ~ In b [bA; bB]) ->
    (forall l, in_user_band uplo kd pA ld n l -> ~ in_user pB ldb n nrhs l) ->
    is_band_triangle M uplo kd pA ld n T -> (forall i, 0 <= i < n -> T i i <> n0) ->
    driver_ensures (zpbtrs nb uplo n kd nrhs pA ld pB ldb bA bB) M (fun M' =>
      (forall i j, in_matrix n nrhs i j ->
         nsum (fun l => nmul (factor_product uplo n T i l) (ul M' pB ldb l j)) 0 n = ul M pB ldb i j) /\
      (forall l, ~ In (fst l) [bA; bB] -> ~ in_user pB ldb n nrhs l -> M' l = M l)).
  Proof.
    intros T nb uplo n kd nrhs pA ld pB ldb bA bB M Hb Hu Hk Hr LA LB ND HF AP HT HD. unfold zpbtrs.
    replace ((uplo =? PlasmaUpper) || (uplo =? PlasmaLower)) with true by (destruct Hu as [->| ->]; reflexivity).
    cbn [negb].
    replace (n <? 0) with false by (symmetry; apply Z.ltb_ge; lia).
    replace (kd <? 0) with false by (symmetry; apply Z.ltb_ge; lia).
    replace (nrhs <? 0) with false by (symmetry; apply Z.ltb_ge; lia).
    replace (ld <? Z.max 1 (1 + kd)) with false by (symmetry; apply Z.ltb_ge; lia).
    replace (ldb <? Z.max 1 n) with false by (symmetry; apply Z.ltb_ge; lia).
    replace (Z.max n nrhs =? 0) with false by (symmetry; apply Z.eqb_neq; lia).
    destruct (pb_create_succeeds uplo nb n kd Hu Hb ltac:(lia)) as (A & sz & EA). rewrite EA. cbn [with_desc].
    pose proof (pb_create_pb _ _ _ _ _ _ (proj1 Hk) Hu EA) as TA. clear EA.
    destruct (ge_create_succeeds nb n nrhs Hb ltac:(lia) Hr) as (B & EB & _). rewrite EB. cbn [with_desc].
    destruct (ge_create_dn _ _ _ _ _ EB) as (DB & B1 & B2 & _). clear EB.
    pose proof (pk_m _ _ _ _ _ TA) as DM. pose proof (pk_n _ _ _ _ _ TA) as DN.
    assert (N1 : bA <> bB) by (inversion_clear ND as [|? ? X Y]; cbn in X; intuition).
    replace (d_m A =? 0) with false by (symmetry; apply Z.eqb_neq; lia).
    replace (d_n A =? 0) with false by (symmetry; apply Z.eqb_neq; lia). cbn [orb].
    rewrite app_assoc. fold (bb_in (F := F) A B bA pA ld bB pB ldb). cbn [driver_ensures].
    assert (LB' : d_m B <= ldb) by lia.
    assert (AP' : forall l, in_user_band uplo kd pA ld n l -> ~ in_user pB ldb (d_m B) (d_n B) l) by (rewrite B1, B2; exact AP).
    destruct (bb_in_spec A uplo nb n kd TA B DB bA pA ld bB pB ldb LB' N1 HF M) as (I1 & I2 & I3).
    eapply region_mono; [|apply (bb_region A uplo nb n kd TA B DB bA pA ld bB pB ldb LA LB' N1 HF AP')].
    - intros M' (H1 & H2). rewrite B1, B2 in I2, H1, H2.
      remember (krun (bb_in A B bA pA ld bB pB ldb) M) as M3 eqn:EM3.
      destruct (Z.eqb_spec nrhs 0) as [Z2|Z2].
      + split; [intros i j [_ Hj]; lia|]. intros l Hl Hl'. rewrite H2 by assumption. cbn. apply I3. assumption.
      + destruct (two_band_at nb n kd A B bA bB uplo TA DB B1 N1 T) with (M := M3) as [X V].
        * intros i j HM HI. destruct (HT i j HM) as [_ Q]. auto.
        * assumption.
        * lia.
        * intros i j HM HI _. rewrite I1 by assumption. destruct (HT i j HM) as [Q1 Q2].
          destruct (in_band_dec uplo kd i j); symmetry; auto.
        * rewrite B2 in V. split.
          -- intros i j [Hi Hj]. rewrite <- I2 by assumption. rewrite <- V by assumption.
             apply nsum_ext. intros l Hl. rewrite H1 by assumption. reflexivity.
          -- intros l Hl Hl'. rewrite H2 by assumption. rewrite <- I3 by assumption. apply X. cbn in Hl. intuition.
    - destruct (d_n B =? 0); [constructor|]. apply (two_band_kgood nb n kd A B); assumption.
    - intros env E1 E2. destruct (d_n B =? 0); [constructor|]. apply (two_band_kdecl nb n kd A B); assumption.
  Qed.
End Driver.
